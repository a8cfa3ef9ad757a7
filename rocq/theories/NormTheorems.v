(** * NormTheorems: [normalize(row, equations)] with extracted equations. *)
From Coq Require Import List ZArith Arith Lia Bool.
From Verif Require Import Base Spec LinAlg ListUtil Cone FmeCore Span ArithModel MatrixModel Refine MatrixRefine FmeRefine
  FmePure FmePrepare IntTypes DimTheorems FmeTheorems.
Import ListNotations.
Open Scope Z_scope.

(** ** Exact arithmetic counterpart *)
Definition norm_step (r e : vec) : vec :=
  let z := first_nz e in
  if nth z r 0 =? 0 then r else vadd (vscale (nth z e 0) r) (vscale (-1) (vscale (nth z r 0) e)).
Definition normalize (r : vec) (E : list vec) : vec := rnorm (fold_left norm_step E r).

(** Leading coefficients: positive, and no other equation uses that coordinate. *)
Definition leads_ok (n : nat) (E : list vec) : Prop :=
  dims n E /\
  forall i, (i < length E)%nat ->
    let z := first_nz (nth i E []) in
    (z < n)%nat /\ 0 < nth z (nth i E []) 0 /\ forall j, (j < length E)%nat -> j <> i -> nth z (nth j E []) 0 = 0.

Lemma first_nz_unique r z : nth z r 0 <> 0 -> (forall c, (c < z)%nat -> nth c r 0 = 0) -> first_nz r = z.
Proof.
  revert z. induction r as [|x r IH]; intros z Hz Hlt; cbn [first_nz].
  - destruct z; cbn in Hz; lia.
  - destruct (Z.eqb_spec x 0) as [->|Hx].
    + destruct z as [|z]; [cbn in Hz; lia|]. f_equal. apply IH; auto. intros c Hc. apply (Hlt (Datatypes.S c)). lia.
    + destruct z as [|z]; auto. exfalso. apply Hx. apply (Hlt 0%nat). lia.
Qed.

Lemma extracted_leads n V : dims n V -> leads_ok n (p_eqs (prepare n V)).
Proof.
  intros HV. assert (P := prepare_ok n V HV). split; [apply (po_eqs_dim _ _ _ P)|].
  intros i Hi. destruct (po_eqs_lead _ _ _ P i Hi) as (z & Hz & Hpos & Hlt & Hother).
  rewrite (first_nz_unique _ z) by (auto; lia). split; [apply (po_zero _ _ _ P); auto|]. auto.
Qed.

Lemma norm_step_length n r e : length r = n -> length e = n -> length (norm_step r e) = n.
Proof.
  intros Hr He. unfold norm_step. destruct (_ =? 0); auto. apply vadd_length_eq; rewrite !vscale_length; auto.
Qed.

Section Pure.
  Variables (n : nat) (E : list vec).
  Hypothesis HE : leads_ok n E.

  Lemma leads_in e : In e E -> (first_nz e < n)%nat /\ 0 < nth (first_nz e) e 0.
  Proof. intros H. destruct (In_nth E e [] H) as (i & Hi & <-). destruct (proj2 HE i Hi) as (H1 & H2 & _). auto. Qed.

  (** Invariant after the first [i] equations. *)
  Lemma fold_norm r : length r = n -> forall E', (exists E2, E = E' ++ E2) ->
    let r' := fold_left norm_step E' r in
    length r' = n /\ (forall e, In e E' -> nth (first_nz e) r' 0 = 0) /\
    exists k s, 0 < k /\ length s = n /\ in_span n E s /\ r' = vadd (vscale k r) s.
  Proof.
    intros Hr E'. induction E' as [|e E' IH] using rev_ind; intros (E2 & HE2); cbn zeta.
    - split; [exact Hr|]. split; [intros ? []|]. exists 1, (vzero n). split; [lia|]. split; [apply vzero_length|].
      split; [apply span_zero; apply HE|]. cbn [fold_left]. rewrite vscale_1, vadd_vzero_r; auto.
    - rewrite fold_left_app. cbn [fold_left].
      destruct IH as (L & Z0 & k & s & Hk & Hsl & Hs & Eq); [exists (e :: E2); rewrite HE2, <- app_assoc; auto|].
      set (q := fold_left norm_step E' r) in *.
      assert (HeE : In e E) by (rewrite HE2; apply in_app_iff; left; apply in_app_iff; right; left; auto).
      assert (Hel : length e = n) by (apply (dims_in n E); auto; apply HE).
      destruct (leads_in e HeE) as (Hz & Hpos).
      split; [apply norm_step_length; auto|].
      assert (Hnth : forall j, nth j (norm_step q e) 0 =
        if nth (first_nz e) q 0 =? 0 then nth j q 0 else nth (first_nz e) e 0 * nth j q 0 - nth (first_nz e) q 0 * nth j e 0).
      { intros j. unfold norm_step. destruct (_ =? 0); auto.
        rewrite nth_vadd, !nth_vscale by (rewrite !vscale_length; congruence). lia. }
      split.
      + intros e' He'. rewrite Hnth. apply in_app_iff in He'. destruct (Z.eqb_spec (nth (first_nz e) q 0) 0) as [E0|E0].
        * destruct He' as [He'|[<-|[]]]; auto.
        * destruct He' as [He'|[<-|[]]]; [|lia]. rewrite (Z0 e' He').
          assert (Hz' : nth (first_nz e') e 0 = 0); [|rewrite Hz'; lia].
          destruct (In_nth E' e' [] He') as (i & Hi & <-).
          assert (Ei : nth i E' [] = nth i E []) by (rewrite HE2, <- app_assoc, app_nth1; auto).
          assert (Ee : e = nth (length E') E []).
          { rewrite HE2, <- app_assoc, app_nth2, Nat.sub_diag by lia. reflexivity. }
          rewrite Ei. rewrite Ee. apply (proj2 HE i); rewrite ?HE2, ?app_length; cbn [length]; lia.
      + unfold norm_step. destruct (Z.eqb_spec (nth (first_nz e) q 0) 0) as [E0|E0]; [exists k, s; auto|].
        exists (nth (first_nz e) e 0 * k), (vadd (vscale (nth (first_nz e) e 0) s) (vscale (- nth (first_nz e) q 0) e)).
        split; [nia|]. split; [apply vadd_length_eq; rewrite vscale_length; auto|]. split.
        * apply span_add; [apply HE|apply span_scale; auto|]. apply span_scale. apply span_in; auto. apply HE.
        * rewrite Eq at 1. rewrite vscale_vadd, !vscale_vscale, vadd_assoc. repeat f_equal; lia.
  Qed.

  Lemma normalize_spec r : length r = n ->
    length (normalize r E) = n /\ (forall e, In e E -> nth (first_nz e) (normalize r E) 0 = 0) /\
    exists g k s, 0 < g /\ 0 < k /\ length s = n /\ in_span n E s /\ vscale g (normalize r E) = vadd (vscale k r) s.
  Proof.
    intros Hr. destruct (fold_norm r Hr E) as (L & Z0 & k & s & Hk & Hsl & Hs & Eq); [exists []; rewrite app_nil_r; auto|].
    unfold normalize. split; [rewrite rnorm_length; auto|]. split.
    - intros e He. apply rnorm_nth_zero. auto.
    - exists (rfac (fold_left norm_step E r)), k, s. split; [apply rfac_pos|]. split; auto. split; auto. split; auto.
      rewrite rnorm_spec. auto.
  Qed.

  Lemma normalize_sat r x : length r = n -> length x = n -> (forall e, In e E -> dot e x = 0) ->
    exists g k, 0 < g /\ 0 < k /\ g * dot (normalize r E) x = k * dot r x.
  Proof.
    intros Hr Hx He. destruct (normalize_spec r Hr) as (L & _ & g & k & s & Hg & Hk & Hsl & Hs & Eq).
    exists g, k. split; auto. split; auto. rewrite <- dot_vscale_l, Eq, dot_vadd_l, dot_vscale_l by (rewrite vscale_length; congruence).
    rewrite (span_vanishes n E s x); auto; [lia|apply HE].
  Qed.

  Lemma normalize_primitive r : length r = n -> normalize r E = vzero n \/ primitive (normalize r E).
  Proof.
    intros Hr. destruct (fold_norm r Hr E) as (L & _); [exists []; rewrite app_nil_r; auto|].
    unfold normalize. destruct (list_eq_dec Z.eq_dec (fold_left norm_step E r) (vzero n)) as [E0|E0].
    - left. rewrite E0. apply (vscale_inj (rfac (vzero n))); [pose proof (rfac_pos (vzero n)); lia|].
      rewrite rnorm_spec, vscale_vzero. auto.
    - right. apply rnorm_primitive. rewrite L. auto.
  Qed.

  (** Only the zero vector is in the span of the equations and zero on their leading coordinates. *)
  Lemma span_zero_leads x : in_span n E x -> (forall e, In e E -> nth (first_nz e) x 0 = 0) -> length x = n -> x = vzero n.
  Proof.
    intros (k & cs & Hk & Hl & Eq) Hz Hx.
    assert (Hcs : Forall (fun c => c = 0) cs).
    { apply Forall_forall. intros c Hc. destruct (In_nth cs c 0 Hc) as (i & Hi & <-).
      destruct (proj2 HE i ltac:(lia)) as (H1 & H2 & H3). set (z := first_nz (nth i E [])) in *.
      assert (E1 := f_equal (fun u => nth z u 0) Eq). cbn beta in E1.
      rewrite nth_vscale, nth_lincomb in E1 by apply HE. assert (Hxz : nth z x 0 = 0) by (apply Hz; apply nth_In; lia). rewrite Hxz in E1.
      assert (E2 : dot (colv z E) cs = nth z (nth i E []) 0 * nth i cs 0).
      { clear - Hl Hi H3. clearbody z. revert cs i Hl Hi H3. induction E as [|v V IH]; intros [|c cs] i Hl Hi H3; cbn [length] in *; try lia.
        unfold colv. cbn [map dot]. fold (colv z V). destruct i as [|i]; cbn [nth].
        - assert (E0 : dot (colv z V) cs = 0); [|lia].
          assert (Hall : forall v', In v' V -> nth z v' 0 = 0).
          { intros v' Hv'. destruct (In_nth V v' [] Hv') as (j & Hj & <-). apply (H3 (Datatypes.S j)); lia. }
          clear - Hall. revert cs. induction V as [|v V IH]; intros [|c cs]; cbn [colv map dot]; auto.
          rewrite (Hall v) by (left; auto). fold (colv z V). rewrite IH; [lia|]. intros; apply Hall; right; auto.
        - rewrite (IH cs i); try lia.
          + assert (Hv : nth z v 0 = 0) by (apply (H3 0%nat); lia). rewrite Hv. lia.
          + intros j Hj Hji. apply (H3 (Datatypes.S j)); lia. }
      rewrite E2 in E1. nia. }
    apply (vscale_inj k); [lia|]. rewrite Eq, vscale_vzero. apply lincomb_zeros; auto. apply HE.
  Qed.

  Lemma proportional_primitive a b g h : 0 < g -> 0 < h -> length a = n -> length b = n ->
    a = vzero n \/ primitive a -> b = vzero n \/ primitive b -> vscale g a = vscale h b -> a = b.
  Proof.
    intros Hg Hh Ha Hb Pa Pb Eq.
    assert (Z1 : a = vzero n -> b = vzero n).
    { intros ->. apply (vscale_inj h); [lia|]. rewrite <- Eq, !vscale_vzero. auto. }
    assert (Z2 : b = vzero n -> a = vzero n).
    { intros ->. apply (vscale_inj g); [lia|]. rewrite Eq, !vscale_vzero. auto. }
    destruct Pa as [Pa|Pa]; [rewrite Pa, (Z1 Pa); auto|].
    destruct Pb as [Pb|Pb]; [rewrite Pb, (Z2 Pb); auto|].
    apply primitive_rgcd in Pa, Pb.
    assert (G := f_equal rgcd Eq). rewrite !rgcd_vscale, Pa, Pb in G by lia.
    apply (vscale_inj g); [lia|]. rewrite Eq. f_equal. lia.
  Qed.

  Lemma normalize_unique r r' k t : length r = n -> length r' = n -> 0 < k -> 0 < t ->
    in_span n E (vadd (vscale k r) (vscale (- t) r')) -> normalize r E = normalize r' E.
  Proof.
    intros Hr Hr' Hk Ht Hs.
    destruct (normalize_spec r Hr) as (L1 & Z1 & g1 & k1 & s1 & Hg1 & Hk1 & Hl1 & Hs1 & E1).
    destruct (normalize_spec r' Hr') as (L2 & Z2 & g2 & k2 & s2 & Hg2 & Hk2 & Hl2 & Hs2 & E2).
    assert (HD : dims n E) by apply HE.
    set (a := normalize r E) in *. set (b := normalize r' E) in *.
    set (d := vadd (vscale (k * k2 * g1) a) (vscale (- (t * k1 * g2)) b)).
    assert (Hd : d = vadd (vadd (vscale (k1 * k2) (vadd (vscale k r) (vscale (- t) r'))) (vscale (k * k2) s1)) (vscale (- (t * k1)) s2)).
    { assert (Hdl : forall u, length u = n ->
        dot d u = k1 * k2 * (k * dot r u - t * dot r' u) + k * k2 * dot s1 u - t * k1 * dot s2 u).
      { intros u Hu. unfold d. rewrite dot_vadd_l, !dot_vscale_l by (rewrite !vscale_length; congruence).
        assert (H1 := f_equal (fun v => dot v u) E1). assert (H2 := f_equal (fun v => dot v u) E2). cbn beta in H1, H2.
        rewrite dot_vadd_l, !dot_vscale_l in H1 by (rewrite !vscale_length; congruence).
        rewrite dot_vadd_l, !dot_vscale_l in H2 by (rewrite !vscale_length; congruence).
        transitivity (k * k2 * (g1 * dot a u) - t * k1 * (g2 * dot b u)); [ring|]. rewrite H1, H2. ring. }
      apply (vec_ext n).
      - unfold d. apply vadd_length_eq; rewrite vscale_length; auto.
      - repeat (apply vadd_length_eq || rewrite vscale_length); auto.
      - intros u Hu. rewrite Hdl by auto.
        assert (Hlk : length (vadd (vscale k r) (vscale (- t) r')) = n) by (apply vadd_length_eq; rewrite vscale_length; auto).
        rewrite dot_vadd_l; [|rewrite (vadd_length_eq n), vscale_length; auto; rewrite vscale_length; auto].
        rewrite dot_vadd_l by (rewrite !vscale_length; congruence).
        rewrite !dot_vscale_l. rewrite dot_vadd_l by (rewrite !vscale_length; congruence). rewrite !dot_vscale_l. ring. }
    assert (Hdz : d = vzero n).
    { apply span_zero_leads.
      - rewrite Hd. apply span_add; auto; [apply span_add; auto|]; apply span_scale; auto.
      - intros e He. unfold d. rewrite nth_vadd, !nth_vscale by (rewrite !vscale_length; congruence). rewrite Z1, Z2 by auto. lia.
      - unfold d. apply vadd_length_eq; rewrite vscale_length; auto. }
    apply (proportional_primitive a b (k * k2 * g1) (t * k1 * g2)); auto; try nia.
    - apply normalize_primitive; auto.
    - apply normalize_primitive; auto.
    - apply (vec_ext n); try (rewrite vscale_length; auto). intros u Hu.
      assert (H := f_equal (fun v => dot v u) Hdz). cbn beta in H. unfold d in H.
      rewrite dot_vadd_l, dot_vzero_l, !dot_vscale_l in H by (rewrite !vscale_length; congruence). rewrite !dot_vscale_l. lia.
  Qed.
End Pure.

(** ** Refinement *)
Section Refinement.
  Variables (allowT allowU : bool) (A : Arith) (S : Sound allowT allowU A).
  Notation rl := (rel allowT allowU).
  Notation vr := (vr S).
  Notation rowr := (rowr S).
  Notation matr := (matr S).

  Lemma normalize_rel n r r' E E' : rowr r r' -> matr E E' -> length r' = n -> leads_ok n E' ->
    rl rowr (m_normalize A r E) (normalize r' E').
  Proof.
    intros Hr HE Hl HL. unfold m_normalize, normalize.
    apply (rel_bind _ _ rowr _ _ _ (fold_left norm_step E' r')); [|intros; apply row_reduce_rel; auto].
    assert (HL' : forall e, In e E' -> length e = n /\ (first_nz e < n)%nat).
    { intros e He. split; [apply (dims_in n E'); auto; apply HL|apply (leads_in n E' HL e He)]. }
    clear HL. revert r r' Hr Hl HL'. induction HE as [|e e' E E' He HE IH]; intros r r' Hr Hl HL'; [exact Hr|].
    cbn [foldM fold_left]. destruct (HL' e' (or_introl eq_refl)) as (Hel & Hz).
    apply (rel_bind _ _ rowr _ _ _ (norm_step r' e')).
    - unfold m_normalize_step, norm_step. rewrite (first_nonzero_eq _ _ A S e e' He).
      destruct (get_row _ _ A S r r' (first_nz e') Hr ltac:(lia)) as (x & -> & Hx). cbn [bind].
      rewrite (vr_eqi _ _ A S x _ 0 Hx) by auto. destruct (_ =? 0); cbn [negb]; [exact Hr|].
      destruct (get_row _ _ A S e e' (first_nz e') He ltac:(lia)) as (y & -> & Hy). cbn [bind].
      eapply rel_bind; [exact (row_mul_rel _ _ A S r r' y _ Hr Hy)|]. intros r1 Hr1.
      eapply rel_bind; [exact (row_mul_rel _ _ A S e e' x _ He Hx)|]. intros s Hs.
      apply row_sub_rel; auto. rewrite !vscale_length. congruence.
    - intros r1 Hr1. apply IH; auto.
      + apply norm_step_length; auto.
      + intros u Hu. apply HL'. right; auto.
  Qed.
End Refinement.
