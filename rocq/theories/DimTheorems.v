(** * DimTheorems: [dimension] computes the rank. *)
From Coq Require Import List ZArith Arith Lia Bool.
From Verif Require Import Base Spec LinAlg ListUtil Cone FmeCore Span ArithModel MatrixModel Refine MatrixRefine IntTypes.
Import ListNotations.
Open Scope Z_scope.

(** ** Exact arithmetic counterpart of [dimension] (algorithm_matrix_operations.cpp 78-114) *)
Definition dim_step (r : vec) (k : vec * nat) : vec :=
  if nth (snd k) r 0 =? 0 then r
  else rnorm (vadd (vscale (- nth (snd k) (fst k) 0) r) (vscale (nth (snd k) r 0) (fst k))).
Definition dim_reduce (r : vec) (kept : list (vec * nat)) : vec := fold_left dim_step kept r.
Fixpoint first_nz (r : vec) : nat :=
  match r with [] => 0%nat | x :: r' => if x =? 0 then Datatypes.S (first_nz r') else 0%nat end.
Fixpoint dim_loop (rows : list vec) (kept : list (vec * nat)) : nat :=
  match rows with
  | [] => length kept
  | r :: rows' =>
      let r' := dim_reduce r kept in
      if (first_nz r' <? length r')%nat then dim_loop rows' (kept ++ [(r', first_nz r')]) else dim_loop rows' kept
  end.

Lemma first_nz_spec r : (first_nz r < length r)%nat -> nth (first_nz r) r 0 <> 0 /\
  forall j, (j < first_nz r)%nat -> nth j r 0 = 0.
Proof.
  induction r as [|x r IH]; cbn [first_nz length]; [lia|]. destruct (Z.eqb_spec x 0) as [->|Hx].
  - intros H. destruct IH as (H1 & H2); [lia|]. split; auto. intros [|j] Hj; cbn [nth]; auto. apply H2. lia.
  - intros _. split; auto. intros j Hj. lia.
Qed.
Lemma first_nz_none r : ~ (first_nz r < length r)%nat -> r = vzero (length r).
Proof.
  induction r as [|x r IH]; cbn [first_nz length]; auto. destruct (Z.eqb_spec x 0) as [->|Hx]; [|lia].
  intros H. unfold vzero in *. cbn [repeat]. f_equal. apply IH. lia.
Qed.

(** Later rows vanish on the pivot columns of earlier ones. *)
Inductive echelon (n : nat) : list (vec * nat) -> Prop :=
| ech_nil : echelon n []
| ech_cons p c K : length p = n -> (c < n)%nat -> nth c p 0 <> 0 ->
    (forall q d, In (q, d) K -> nth c q 0 = 0) -> echelon n K -> echelon n ((p, c) :: K).

Lemma echelon_dims n K : echelon n K -> dims n (map fst K).
Proof. induction 1; cbn [map fst]; constructor; auto. Qed.

Lemma echelon_snoc n K p c : echelon n K -> length p = n -> (c < n)%nat -> nth c p 0 <> 0 ->
  (forall q d, In (q, d) K -> nth d p 0 = 0) -> echelon n (K ++ [(p, c)]).
Proof.
  intros HK Hl Hc Hp. induction HK as [|q d K Hq Hd Hqd Hz HK IH]; intros H; cbn [app].
  - constructor; auto; [intros ? ? []|constructor].
  - constructor; auto.
    + intros u v Hin. apply in_app_iff in Hin. destruct Hin as [Hin|[E|[]]]; [eapply Hz; eauto|].
      injection E as <- <-. apply (H q d). left; auto.
    + apply IH. intros u v Hin. apply (H u v). right; auto.
Qed.

Lemma echelon_zero n K x : echelon n K -> length x = n -> in_span n (map fst K) x ->
  (forall p c, In (p, c) K -> nth c x 0 = 0) -> x = vzero n.
Proof.
  intros HK Hx (k & cs & Hk & Hl & E) Hz. apply (vscale_inj k); [lia|]. rewrite vscale_vzero, E. rewrite map_length in Hl.
  assert (Hy : forall p c, In (p, c) K -> nth c (lincomb n cs (map fst K)) 0 = 0).
  { intros p c Hin. rewrite <- E, nth_vscale, (Hz p c Hin). lia. }
  clear - HK Hl Hy. revert cs Hl Hy. induction HK as [|p c K Hp Hc Hpc Hq HK IH]; intros cs Hl Hy.
  - destruct cs; reflexivity.
  - destruct cs as [|a cs]; cbn [length] in Hl; [lia|]. cbn [map fst lincomb] in *.
    assert (Ha : a = 0).
    { assert (H := Hy p c (or_introl eq_refl)). assert (HD := echelon_dims n K HK).
      rewrite nth_vadd, nth_vscale, nth_lincomb in H; auto.
      2:{ rewrite vscale_length, lincomb_length; auto. }
      assert (H0 : dot (colv c (map fst K)) cs = 0); [|unfold vec in *; rewrite H0, Z.add_0_r in H; apply Z.mul_eq_0 in H; tauto].
      clear - Hq. revert cs. induction K as [|[q d] K IH]; intros [|a cs]; cbn [map colv dot]; auto.
      unfold colv in *. cbn [map dot fst]. rewrite (Hq q d) by (left; auto). rewrite IH; [lia|].
      intros u v Hu. apply (Hq u v). right; auto. }
    subst a. assert (HD := echelon_dims n K HK).
    assert (E0 : vadd (vscale 0 p) (lincomb n cs (map fst K)) = lincomb n cs (map fst K)).
    { rewrite vscale_0, Hp. apply vadd_vzero_l. apply lincomb_length; auto. }
    transitivity (lincomb n cs (map fst K)); [exact E0|]. apply IH; [lia|]. intros q d Hin. transitivity (nth d (vadd (vscale 0 p) (lincomb n cs (map fst K))) 0);
      [f_equal; symmetry; exact E0|apply (Hy q d); right; auto].
Qed.

Lemma dim_step_length n r p c : length r = n -> length p = n -> length (dim_step r (p, c)) = n.
Proof.
  intros Hr Hp. unfold dim_step. cbn [fst snd]. destruct (nth c r 0 =? 0); auto.
  rewrite rnorm_length. apply vadd_length_eq; rewrite vscale_length; auto.
Qed.

Lemma rnorm_nth_zero r j : nth j r 0 = 0 -> nth j (rnorm r) 0 = 0.
Proof.
  intros H. rewrite <- (rnorm_spec r), nth_vscale in H. assert (Hf := rfac_pos r). nia.
Qed.

Lemma dim_step_spec n r p c : length r = n -> length p = n -> (c < n)%nat -> nth c p 0 <> 0 ->
  nth c (dim_step r (p, c)) 0 = 0 /\
  (forall j, nth j p 0 = 0 -> nth j r 0 = 0 -> nth j (dim_step r (p, c)) 0 = 0) /\
  exists a b s, a <> 0 /\ b <> 0 /\ vscale a (dim_step r (p, c)) = vadd (vscale b r) (vscale s p).
Proof.
  intros Hr Hp Hc Hpc. unfold dim_step. cbn [fst snd]. destruct (Z.eqb_spec (nth c r 0) 0) as [E|E].
  - split; auto. split; auto. exists 1, 1, 0. split; [lia|]. split; [lia|].
    rewrite vscale_0, !vscale_1, Hp, vadd_vzero_r; auto.
  - set (u := vadd (vscale (- nth c p 0) r) (vscale (nth c r 0) p)).
    assert (Hu : forall j, nth j u 0 = - nth c p 0 * nth j r 0 + nth c r 0 * nth j p 0).
    { intros j. unfold u. rewrite nth_vadd, !nth_vscale by (rewrite !vscale_length; congruence). lia. }
    split; [apply rnorm_nth_zero; rewrite Hu; lia|]. split.
    + intros j H1 H2. apply rnorm_nth_zero. rewrite Hu, H1, H2. lia.
    + exists (rfac u), (- nth c p 0), (nth c r 0). split; [pose proof (rfac_pos u); lia|]. split; [lia|].
      rewrite rnorm_spec. reflexivity.
Qed.

Lemma dim_reduce_spec n K : echelon n K -> forall r, length r = n ->
  length (dim_reduce r K) = n /\
  (forall p c, In (p, c) K -> nth c (dim_reduce r K) 0 = 0) /\
  (forall j, (forall p c, In (p, c) K -> nth j p 0 = 0) -> nth j r 0 = 0 -> nth j (dim_reduce r K) 0 = 0) /\
  exists a b s, a <> 0 /\ b <> 0 /\ length s = n /\ in_span n (map fst K) s /\
    vscale a (dim_reduce r K) = vadd (vscale b r) s.
Proof.
  induction 1 as [|p c K Hp Hc Hpc Hz HK IH]; intros r Hr; cbn [dim_reduce fold_left].
  - split; auto. split; [intros ? ? []|]. split; auto. exists 1, 1, (vzero n). split; [lia|]. split; [lia|].
    split; [apply vzero_length|]. split; [apply span_zero; constructor|]. rewrite vadd_vzero_r by (rewrite vscale_length; auto). auto.
  - fold (dim_reduce (dim_step r (p, c)) K).
    assert (Hl := dim_step_length n r p c Hr Hp).
    destruct (dim_step_spec n r p c Hr Hp Hc Hpc) as (S1 & S2 & a0 & b0 & s0 & Ha0 & Hb0 & E0).
    destruct (IH _ Hl) as (R1 & R2 & R3 & a & b & s & Ha & Hb & Hsl & Hs & E).
    split; auto. split; [|split].
    + intros q d [Eq|Hin]; [|apply (R2 q d); auto]. injection Eq as <- <-. apply R3; auto.
    + intros j Hj Hrj. apply R3; [intros q d Hin; apply (Hj q d); right; auto|].
      apply S2; auto. apply (Hj p c). left; auto.
    + assert (HD : dims n (map fst ((p, c) :: K))) by (cbn [map fst]; constructor; auto; apply echelon_dims; auto).
      exists (a0 * a), (b * b0), (vadd (vscale (b * s0) p) (vscale a0 s)). split; [nia|]. split; [nia|].
      split; [apply vadd_length_eq; rewrite vscale_length; auto|]. split.
      * apply span_add; auto.
        -- apply span_scale. apply span_in; auto. left; auto.
        -- apply span_scale. apply (span_incl n (map fst K)); auto. intros u Hu. right; auto.
      * rewrite <- vscale_vscale, E, vscale_vadd, vscale_vscale.
        replace (a0 * b) with (b * a0) by lia. rewrite <- vscale_vscale, E0, vscale_vadd, !vscale_vscale, vadd_assoc. auto.
Qed.

Lemma dim_loop_rank n rows : dims n rows -> forall K pre B,
  echelon n K -> dims n pre -> length B = length K -> incl B pre -> independent n B ->
  (forall k, In k (map fst K) -> in_span n B k) -> (forall v, In v pre -> in_span n (map fst K) v) ->
  is_rank n (pre ++ rows) (dim_loop rows K).
Proof.
  induction 1 as [|r rows Hr Hrows IH]; intros K pre B HK Hpre HlB Hi Hind HKB Hspan; cbn [dim_loop].
  - rewrite app_nil_r. exists B. split; auto. split; auto. split; auto. intros v Hv.
    apply (span_trans n (map fst K)); auto.
    + apply echelon_dims; auto.
    + apply (dims_incl n B pre); auto.
  - destruct (dim_reduce_spec n K HK r Hr) as (R1 & R2 & R3 & a & b & s & Ha & Hb & Hsl & Hs & E).
    set (r' := dim_reduce r K) in *. rewrite R1.
    assert (HKd := echelon_dims n K HK). assert (HBd : dims n B) by (apply (dims_incl n B pre); auto).
    replace (pre ++ r :: rows) with ((pre ++ [r]) ++ rows) by (rewrite <- app_assoc; auto).
    assert (Hpre' : dims n (pre ++ [r])) by (apply dims_app; split; auto; constructor; auto).
    destruct (Nat.ltb_spec (first_nz r') n) as [Hlt|Hge].
    + destruct (first_nz_spec r') as (F1 & _); [rewrite R1; auto|].
      assert (HK' : echelon n (K ++ [(r', first_nz r')])) by (apply echelon_snoc; auto).
      assert (Hns : ~ in_span n (map fst K) r).
      { intros Hr0. assert (Hr' : r' = vzero n).
        { apply (echelon_zero n K); auto. apply (span_div n _ _ a); auto. rewrite E. apply span_add; auto. apply span_scale; auto. }
        rewrite Hr', nth_vzero in F1. auto. }
      assert (Hspr : in_span n (r :: map fst K) r').
      { apply (span_div n _ _ a); auto. rewrite E. assert (HD : dims n (r :: map fst K)) by (constructor; auto).
        apply span_add; auto; [apply span_scale, span_in; auto; left; auto|].
        apply (span_incl n (map fst K)); auto. intros u Hu; right; auto. }
      assert (HBr : dims n (B ++ [r])) by (apply dims_app; split; auto; constructor; auto).
      apply (IH _ _ (B ++ [r])); auto.
      * rewrite !app_length, HlB. auto.
      * intros u Hu. apply in_app_iff in Hu. apply in_app_iff. destruct Hu as [Hu|Hu]; auto.
      * apply independent_snoc; auto. intros Hr0. apply Hns.
        apply (span_trans n B); auto.
      * intros k Hk. rewrite map_app in Hk. apply in_app_iff in Hk. destruct Hk as [Hk|[<-|[]]].
        -- apply (span_incl n B); auto. intros u Hu. apply in_app_iff; auto.
        -- cbn [fst]. apply (span_trans n (r :: map fst K)); auto; [constructor; auto|].
           intros v [<-|Hv]; [apply span_in; auto; apply in_app_iff; right; left; auto|].
           apply (span_incl n B); auto. intros u Hu. apply in_app_iff; auto.
      * rewrite map_app. cbn [map fst]. assert (HD : dims n (map fst K ++ [r'])) by (apply dims_app; split; auto; constructor; auto).
        intros v Hv. apply in_app_iff in Hv. destruct Hv as [Hv|[<-|[]]].
        -- apply (span_incl n (map fst K)); auto. intros u Hu. apply in_app_iff; auto.
        -- apply (span_div n _ _ b); auto.
           assert (Eb : vscale b r = vadd (vscale a r') (vscale (-1) s)).
           { apply (vec_ext n); [rewrite vscale_length; auto|apply vadd_length_eq; rewrite vscale_length; auto|].
             intros x Hx. rewrite dot_vadd_l by (rewrite !vscale_length; congruence).
             assert (H := f_equal (fun u => dot u x) E). cbn beta in H.
             rewrite dot_vadd_l in H by (rewrite !vscale_length; congruence). rewrite !dot_vscale_l in *. lia. }
           rewrite Eb. apply span_add; auto.
           ++ apply span_scale, span_in; auto. apply in_app_iff; right; left; auto.
           ++ apply span_scale. apply (span_incl n (map fst K)); auto. intros u Hu. apply in_app_iff; auto.
    + assert (Hr' : r' = vzero n) by (rewrite <- R1; apply first_nz_none; lia).
      apply (IH _ _ B); auto.
      * intros u Hu. apply in_app_iff. auto.
      * intros v Hv. apply in_app_iff in Hv. destruct Hv as [Hv|[<-|[]]]; auto.
        apply (span_div n _ _ b); auto. rewrite Hr', vscale_vzero in E.
        assert (Eb : vscale b r = vscale (-1) s).
        { apply (vec_ext n); [rewrite vscale_length; auto|rewrite vscale_length; auto|].
          intros x Hx. assert (H := f_equal (fun u => dot u x) E). cbn beta in H.
          rewrite dot_vadd_l in H by (rewrite !vscale_length; congruence). rewrite dot_vzero_l, !dot_vscale_l in *. lia. }
        rewrite Eb. apply span_scale; auto.
Qed.

Theorem dim_loop_correct n V : dims n V -> is_rank n V (dim_loop V []).
Proof.
  intros HV. apply (dim_loop_rank n V HV [] [] []).
  - constructor.
  - constructor.
  - reflexivity.
  - intros ? [].
  - intros cs Hl _. destruct cs; [constructor|discriminate].
  - intros ? [].
  - intros ? [].
Qed.

(** ** Refinement *)
Section Refinement.
  Variables (allowT allowU : bool) (A : Arith) (S : Sound allowT allowU A).
  Notation rl := (rel allowT allowU).
  Notation vr := (vr S).
  Notation rowr := (rowr S).
  Notation matr := (matr S).

  Lemma first_nonzero_eq r r' : rowr r r' -> m_first_nonzero A r = first_nz r'.
  Proof.
    induction 1 as [|x a r r' Hx _ IH]; cbn [m_first_nonzero first_nz]; auto.
    rewrite (vr_eqi _ _ A S x a 0 Hx) by auto. destruct (a =? 0); cbn [negb]; auto.
  Qed.

  Definition kr (k : list (num A) * nat) (k' : vec * nat) : Prop := rowr (fst k) (fst k') /\ snd k = snd k'.

  Lemma dim_reduce_rel n K K' r r' : Forall2 kr K K' -> echelon n K' -> rowr r r' -> length r' = n ->
    rl rowr (m_dim_reduce A r K) (dim_reduce r' K').
  Proof.
    intros HK. revert r r'. induction HK as [|[p c] [p' c'] K K' [Hp Hc] HK IH]; intros r r' He Hr Hl; [exact Hr|].
    cbn [fst snd] in *. subst c'. inversion He as [|? ? ? Hpl Hcn Hpc Hz He']; subst.
    cbn [dim_reduce fold_left]. fold (dim_reduce (dim_step r' (p', c)) K').
    unfold m_dim_reduce. cbn [foldM]. fold (m_dim_reduce A).
    apply (rel_bind _ _ rowr _ _ _ (dim_step r' (p', c))).
    - destruct (get_row _ _ A S r r' c Hr ltac:(lia)) as (x & -> & Hx). cbn [bind].
      unfold dim_step. cbn [fst snd]. rewrite (vr_eqi _ _ A S x _ 0 Hx) by auto.
      destruct (nth c r' 0 =? 0); cbn [negb]; [exact Hr|].
      destruct (get_row _ _ A S p p' c Hp ltac:(lia)) as (y & -> & Hy). cbn [bind].
      eapply rel_bind; [exact (vr_neg _ _ A S y _ Hy)|]. intros f Hf.
      eapply rel_bind; [exact (row_mul_rel _ _ A S r r' f _ Hr Hf)|]. intros r1 Hr1.
      eapply rel_bind; [exact (row_mul_rel _ _ A S p p' x _ Hp Hx)|]. intros s Hs.
      eapply rel_bind; [apply (row_add_rel _ _ A S r1 _ s _ Hr1 Hs); rewrite !vscale_length; auto|].
      intros r2 Hr2. apply row_reduce_rel; auto.
    - intros r1 Hr1. apply IH; auto. apply dim_step_length; auto.
  Qed.

  Lemma dim_loop_rel n V V' : matr V V' -> dims n V' -> forall K K', Forall2 kr K K' -> echelon n K' ->
    rl eq (m_dim_loop A V K) (dim_loop V' K').
  Proof.
    induction 1 as [|r r' V V' Hr HV IH]; intros HD K K' HK He; cbn [m_dim_loop dim_loop].
    - cbn [rel]. apply (Forall2_length HK).
    - inversion HD as [|? ? Hl HD']; subst.
      eapply rel_bind; [exact (dim_reduce_rel _ K K' r r' HK He Hr eq_refl)|]. intros r1 Hr1.
      destruct (dim_reduce_spec _ K' He r' eq_refl) as (R1 & R2 & _).
      rewrite (first_nonzero_eq r1 _ Hr1), (rowr_len _ _ A S _ _ Hr1).
      destruct (Nat.ltb_spec (first_nz (dim_reduce r' K')) (length (dim_reduce r' K'))) as [Hlt|Hge].
      + apply IH; auto.
        * apply Forall2_app; auto. constructor; [split; auto|constructor].
        * apply echelon_snoc; auto; [lia|]. apply first_nz_spec; auto.
      + apply IH; auto.
  Qed.

  Lemma dimension_rel n V V' : matr V V' -> dims n V' -> rl eq (m_dimension A V) (dim_loop V' []).
  Proof. intros. apply (dim_loop_rel n); auto; constructor. Qed.
End Refinement.
