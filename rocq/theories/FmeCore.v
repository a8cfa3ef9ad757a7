(** * FmeCore: the elimination phase over exact integers, and its invariant.

    This is the exact-arithmetic counterpart of [projection]/[phaseTwo]
    (algorithm_fourier_motzkin_elimination.cpp 241-352, 373-446); the model of the code itself, with checked
    accesses and an arbitrary integer type, is in [FmeModel.v] and refines these functions. *)
From Coq Require Import List ZArith NArith Lia Bool Arith Permutation Wf_nat.
From Verif Require Import Spec LinAlg Cone Bits.
Import ListNotations.
Open Scope Z_scope.

Lemma filter_length_le {A} (f : A -> bool) l : (length (filter f l) <= length l)%nat.
Proof. induction l as [|x l IH]; cbn [filter length]; auto. destruct (f x); cbn [length]; lia. Qed.

(** ** Greatest common divisor of a row, division by it *)
Definition rgcd (r : vec) : Z := fold_right Z.gcd 0 r.
Definition rnorm (r : vec) : vec := if 1 <? rgcd r then map (fun x => Z.quot x (rgcd r)) r else r.

Lemma rgcd_nonneg r : 0 <= rgcd r.
Proof. destruct r as [|x r]; cbn [rgcd fold_right]; [lia|apply Z.gcd_nonneg]. Qed.

Lemma rgcd_divide r x : In x r -> (rgcd r | x).
Proof.
  induction r as [|y r IH]; cbn [In rgcd fold_right]; [tauto|]. intros [<-|Hx].
  - apply Z.gcd_divide_l.
  - eapply Z.divide_trans; [apply Z.gcd_divide_r|apply IH; auto].
Qed.

Lemma rgcd_greatest r g : (forall x, In x r -> (g | x)) -> (g | rgcd r).
Proof.
  induction r as [|y r IH]; cbn [In rgcd fold_right]; intros H; [apply Z.divide_0_r|].
  apply Z.gcd_greatest; [apply H; auto|apply IH; auto].
Qed.

Lemma rgcd_0 r : rgcd r = 0 <-> r = vzero (length r).
Proof.
  unfold vzero. induction r as [|x r IH]; cbn [rgcd fold_right length repeat]; [tauto|]. fold (rgcd r).
  rewrite Z.gcd_eq_0, IH. split; [intros (-> & E); f_equal; exact E|intros E; injection E; auto].
Qed.

Lemma rnorm_length r : length (rnorm r) = length r.
Proof. unfold rnorm. destruct (1 <? rgcd r); auto. apply map_length. Qed.

Lemma quot_scale g r : g <> 0 -> (forall x, In x r -> (g | x)) -> vscale g (map (fun x => Z.quot x g) r) = r.
Proof.
  intros Hg H. unfold vscale. rewrite map_map. rewrite <- (map_id r) at 2. apply map_ext_in. intros x Hx.
  destruct (H x Hx) as (q & ->). rewrite Z.quot_mul by auto. lia.
Qed.

(** The normalised row is the row up to the positive factor [rfac]. *)
Definition rfac (r : vec) : Z := if 1 <? rgcd r then rgcd r else 1.
Lemma rfac_pos r : 0 < rfac r.
Proof. unfold rfac. destruct (Z.ltb_spec 1 (rgcd r)); lia. Qed.
Lemma rnorm_spec r : vscale (rfac r) (rnorm r) = r.
Proof.
  unfold rfac, rnorm. destruct (Z.ltb_spec 1 (rgcd r)) as [H|H].
  - apply quot_scale; [lia|]. intros x Hx; apply rgcd_divide; auto.
  - apply vscale_1.
Qed.
Lemma dot_rnorm r v : dot r v = rfac r * dot (rnorm r) v.
Proof. rewrite <- (rnorm_spec r) at 1. apply dot_vscale_l. Qed.

Lemma primitive_rgcd r : primitive r <-> rgcd r = 1.
Proof.
  unfold primitive; split.
  - intros H. apply H; [apply rgcd_nonneg|intros; apply rgcd_divide; auto].
  - intros E g Hg H. apply rgcd_greatest in H. rewrite E in H. apply Z.divide_1_r_nonneg in H; auto.
Qed.

Lemma rgcd_vscale k r : 0 <= k -> rgcd (vscale k r) = k * rgcd r.
Proof.
  intros Hk. induction r as [|x r IH]; cbn [vscale map rgcd fold_right]; [lia|].
  unfold rgcd, vscale in IH. rewrite IH, Z.gcd_mul_mono_l, Z.abs_eq by auto. reflexivity.
Qed.

Lemma rnorm_primitive r : r <> vzero (length r) -> primitive (rnorm r).
Proof.
  intros Hz. apply primitive_rgcd.
  assert (Hg : rgcd r <> 0) by (rewrite rgcd_0; auto).
  assert (E : rgcd r = rfac r * rgcd (rnorm r)).
  { rewrite <- (rnorm_spec r) at 1. apply rgcd_vscale. pose proof (rfac_pos r); lia. }
  pose proof (rgcd_nonneg r). unfold rfac in *. destruct (Z.ltb_spec 1 (rgcd r)); nia.
Qed.

(** ** One projection *)
Definition entry := (vec * N)%type.
Definition pnr := (entry * entry * N)%type.

Definition pnr_iteration (pnrs : list pnr) (en ep : entry) (u : N) : list pnr :=
  if existsb (fun q => containsN u (snd q)) pnrs then pnrs
  else (en, ep, u) :: filter (fun q => negb (containsN (snd q) u)) pnrs.

Definition pair_step (max_count : nat) (zeros : list entry) (pnrs : list pnr) (en ep : entry) : list pnr :=
  let u := N.lor (snd en) (snd ep) in
  if (popcountN u <=? max_count)%nat then
    if forallb (fun z => negb (containsN u (snd z))) zeros then pnr_iteration pnrs en ep u else pnrs
  else pnrs.

Definition pairs_loop (max_count : nat) (zeros negs poss : list entry) : list pnr :=
  fold_left (fun acc en => fold_left (fun acc' ep => pair_step max_count zeros acc' en ep) poss acc) negs [].

Definition combine_rows (w : vec) (en ep : entry) : vec :=
  rnorm (vadd (vscale (dot (fst ep) w) (fst en)) (vscale (- dot (fst en) w) (fst ep))).

Section Core.
  (** [std::sort] of the zero rows by bit count: any permutation. *)
  Variable zsort : list entry -> list entry.
  Hypothesis zsort_perm : forall l, Permutation (zsort l) l.

  Definition negs_of (w : vec) (sys : list entry) := filter (fun e => dot (fst e) w <? 0) sys.
  Definition zeros_of (w : vec) (sys : list entry) := zsort (filter (fun e => dot (fst e) w =? 0) sys).
  Definition poss_of (w : vec) (sys : list entry) := filter (fun e => 0 <? dot (fst e) w) sys.

  Definition project (d i : nat) (sys : list entry) (w : vec) : list entry :=
    let negs := negs_of w sys in
    let zeros := zeros_of w sys in
    let poss := poss_of w sys in
    let pnrs := pairs_loop (i + 2 - d) zeros negs poss in
    zeros ++ map (fun e => (fst e, N.setbit (snd e) (N.of_nat i))) negs
          ++ map (fun q => (combine_rows w (fst (fst q)) (snd (fst q)), snd q)) pnrs.

  Fixpoint projects (d i : nat) (sys : list entry) (ws : list vec) : list entry :=
    match ws with
    | [] => sys
    | w :: ws' => projects d (S i) (project d i sys w) ws'
    end.

  (** ** Invariant: the rows are the extreme rays of the dual cone of the processed vectors. *)
  Definition incomparable (a b : entry) : Prop := ~ bsub (snd a) (snd b) /\ ~ bsub (snd b) (snd a).

  Record inv (n : nat) (Vs : list vec) (sys : list entry) : Prop := {
    inv_dim : forall e, In e sys -> length (fst e) = n;
    inv_valid : forall e, In e sys -> valid Vs (fst e);
    inv_nz : forall e, In e sys -> nz Vs (fst e);
    inv_prim : forall e, In e sys -> primitive (fst e);
    inv_marks : forall e, In e sys -> marks (fun v => dot (fst e) v < 0) Vs (snd e);
    inv_covers : covers n Vs (map fst sys);
    inv_anti : pairwise incomparable sys;
    inv_primal : forall x, length x = n -> (forall e, In e sys -> dot (fst e) x <= 0) -> in_cone n Vs x
  }.

  Lemma inv_dims n Vs sys : inv n Vs sys -> dims n (map fst sys).
  Proof.
    intros H. apply Forall_forall. intros r Hr. apply in_map_iff in Hr. destruct Hr as (e & <- & He).
    eapply inv_dim; eauto.
  Qed.

  Lemma incomparable_sym a b : incomparable a b -> incomparable b a.
  Proof. unfold incomparable; tauto. Qed.

  (** Bit inclusion is support inclusion. *)
  Lemma bsub_subs Vs a b x y : valid Vs x -> valid Vs y ->
    marks (fun v => dot x v < 0) Vs a -> marks (fun v => dot y v < 0) Vs b ->
    bsub a b <-> subs Vs x y.
  Proof.
    intros Hx Hy Ma Mb. rewrite (marks_sub _ _ _ _ _ Ma Mb). unfold subs. split.
    - intros H v Hv E. specialize (H v Hv). specialize (Hx v Hv). lia.
    - intros H v Hv Hl. specialize (H v Hv). specialize (Hy v Hv). lia.
  Qed.

  Lemma marks_nsupp Vs a x : valid Vs x -> marks (fun v => dot x v < 0) Vs a -> popcountN a = nsupp Vs x.
  Proof.
    intros Hx M. unfold nsupp. eapply marks_count; eauto. intros v Hv. specialize (Hx v Hv).
    destruct (Z.eqb_spec (dot x v) 0); cbn [negb]; split; intros; try lia; try discriminate; auto.
  Qed.

  (** ** The list of kept pairs *)
  Section Pairs.
    Variables (mc : nat) (zeros negs poss : list entry).
    Definition passes (en ep : entry) : Prop :=
      (popcountN (N.lor (snd en) (snd ep)) <= mc)%nat /\
      forall z, In z zeros -> ~ bsub (snd z) (N.lor (snd en) (snd ep)).

    Definition pnr_ok (q : pnr) : Prop :=
      let '(en, ep, u) := q in
      In en negs /\ In ep poss /\ u = N.lor (snd en) (snd ep) /\ passes en ep.

    Definition uinc (p q : pnr) : Prop := ~ bsub (snd p) (snd q) /\ ~ bsub (snd q) (snd p).

    Definition pairs_inv (done : entry -> entry -> Prop) (pnrs : list pnr) : Prop :=
      (forall q, In q pnrs -> pnr_ok q) /\
      (forall en ep, done en ep -> passes en ep ->
         exists q, In q pnrs /\ bsub (snd q) (N.lor (snd en) (snd ep))) /\
      pairwise uinc pnrs.

    Lemma pair_step_inv done pnrs en ep : In en negs -> In ep poss -> pairs_inv done pnrs ->
      pairs_inv (fun a b => done a b \/ (a = en /\ b = ep)) (pair_step mc zeros pnrs en ep).
    Proof.
      intros Hen Hep (H1 & H2 & H3). unfold pair_step.
      set (u := N.lor (snd en) (snd ep)).
      assert (Hskip : ~ passes en ep -> pairs_inv (fun a b => done a b \/ (a = en /\ b = ep)) pnrs).
      { intros Hn. split; [|split]; auto. intros a b [Hd|(-> & ->)] Hp; [auto|contradiction]. }
      destruct (Nat.leb_spec (popcountN u) mc) as [Hc|Hc].
      2:{ apply Hskip. intros (Hp & _). unfold u in Hc. lia. }
      destruct (forallb (fun z => negb (containsN u (snd z))) zeros) eqn:Hz.
      2:{ apply Hskip. intros (_ & Hp). rewrite <- not_true_iff_false in Hz. apply Hz.
          apply forallb_forall. intros z Hzi. apply negb_true_iff, not_true_iff_false.
          rewrite containsN_spec. apply Hp; auto. }
      assert (Hpass : passes en ep).
      { split; auto. intros z Hzi. rewrite forallb_forall in Hz. specialize (Hz z Hzi).
        apply negb_true_iff, not_true_iff_false in Hz. rewrite containsN_spec in Hz. exact Hz. }
      unfold pnr_iteration.
      destruct (existsb (fun q => containsN u (snd q)) pnrs) eqn:He.
      - apply existsb_exists in He. destruct He as (q & Hq & Hqs). apply containsN_spec in Hqs.
        split; [|split]; auto. intros a b [Hd|(-> & ->)] Hp; [auto|]. exists q; auto.
      - assert (Hne : forall q, In q pnrs -> ~ bsub (snd q) u).
        { intros q Hq Hs. rewrite <- not_true_iff_false in He. apply He. apply existsb_exists.
          exists q; split; auto. apply containsN_spec; auto. }
        split; [|split].
        + intros q [<-|Hq].
          * cbn. repeat split; auto; apply Hpass.
          * apply filter_In in Hq. apply H1; tauto.
        + intros a b [Hd|(-> & ->)] Hp.
          * destruct (H2 a b Hd Hp) as (q & Hq & Hs).
            destruct (containsN (snd q) u) eqn:Hcq.
            -- exists (en, ep, u). split; [left; auto|]. apply containsN_spec in Hcq. cbn [snd].
               eapply bsub_trans; eauto.
            -- exists q. split; auto. right. apply filter_In. rewrite Hcq; auto.
          * exists (en, ep, u). split; [left; auto|]. cbn [snd]. apply bsub_refl.
        + cbn [pairwise]. split.
          * apply Forall_forall. intros q Hq. apply filter_In in Hq. destruct Hq as (Hq & Hf).
            apply negb_true_iff, not_true_iff_false in Hf. rewrite containsN_spec in Hf.
            split; cbn [snd]; auto.
          * apply pairwise_filter; auto.
    Qed.

    Lemma pairs_loop_inv :
      pairs_inv (fun a b => In a negs /\ In b poss) (pairs_loop mc zeros negs poss).
    Proof.
      unfold pairs_loop.
      assert (Hinner : forall en, In en negs -> forall ps, incl ps poss -> forall done pnrs, pairs_inv done pnrs ->
         pairs_inv (fun a b => done a b \/ (a = en /\ In b ps))
           (fold_left (fun acc' ep => pair_step mc zeros acc' en ep) ps pnrs)).
      { intros en Hen ps. induction ps as [|ep ps IH]; intros Hi done pnrs H; cbn [fold_left].
        - destruct H as (H1 & H2 & H3). split; [|split]; auto. intros a b [Hd|(_ & [])]; auto.
        - assert (H' := pair_step_inv done pnrs en ep Hen (Hi ep (or_introl eq_refl)) H).
          specialize (IH (fun x Hx => Hi x (or_intror Hx)) _ _ H').
          destruct IH as (H1 & H2 & H3). split; [|split]; auto.
          intros a b Hd. apply H2. destruct Hd as [Hd|(-> & [<-|Hb])]; auto. }
      assert (Houter : forall ns, incl ns negs -> forall done pnrs, pairs_inv done pnrs ->
         pairs_inv (fun a b => done a b \/ (In a ns /\ In b poss))
           (fold_left (fun acc en => fold_left (fun acc' ep => pair_step mc zeros acc' en ep) poss acc) ns pnrs)).
      { intros ns. induction ns as [|en ns IH]; intros Hi done pnrs H; cbn [fold_left].
        - destruct H as (H1 & H2 & H3). split; [|split]; auto. intros a b [Hd|([] & _)]; auto.
        - assert (H' := Hinner en (Hi en (or_introl eq_refl)) poss (incl_refl _) done pnrs H).
          specialize (IH (fun x Hx => Hi x (or_intror Hx)) _ _ H').
          destruct IH as (H1 & H2 & H3). split; [|split]; auto.
          intros a b Hd. apply H2. destruct Hd as [Hd|([<-|Ha] & Hb)]; auto. }
      assert (H0 : pairs_inv (fun _ _ => False) []).
      { split; [|split]; cbn; auto; try tauto. }
      specialize (Houter negs (incl_refl _) _ _ H0).
      destruct Houter as (H1 & H2 & H3). split; [|split]; auto.
    Qed.
  End Pairs.

  (** ** The step preserves the invariant *)
  Lemma in_negs w sys e : In e (negs_of w sys) <-> In e sys /\ dot (fst e) w < 0.
  Proof. unfold negs_of. rewrite filter_In, Z.ltb_lt. tauto. Qed.
  Lemma in_poss w sys e : In e (poss_of w sys) <-> In e sys /\ 0 < dot (fst e) w.
  Proof. unfold poss_of. rewrite filter_In, Z.ltb_lt. tauto. Qed.
  Lemma in_zeros w sys e : In e (zeros_of w sys) <-> In e sys /\ dot (fst e) w = 0.
  Proof.
    unfold zeros_of. split.
    - intros H. apply (Permutation_in _ (zsort_perm _)) in H. apply filter_In in H. rewrite Z.eqb_eq in H. tauto.
    - intros (H & E). apply (Permutation_in _ (Permutation_sym (zsort_perm _))). apply filter_In.
      rewrite Z.eqb_eq. tauto.
  Qed.

  Lemma combine_rows_combo w en ep : combine_rows w en ep = rnorm (combo w (fst en) (fst ep)).
  Proof. reflexivity. Qed.

  Lemma project_inv n Vs sys w : (n <= length Vs)%nat -> pointed n Vs -> dims n Vs -> length w = n ->
    inv n Vs sys -> inv n (Vs ++ [w]) (project n (length Vs) sys w).
  Proof.
    intros Hlen Hp HV Hw I.
    set (i := length Vs) in *.
    set (mc := (i + 2 - n)%nat).
    set (negs := negs_of w sys). set (zeros := zeros_of w sys). set (poss := poss_of w sys).
    set (pnrs := pairs_loop mc zeros negs poss).
    assert (HP : pairs_inv mc zeros negs poss (fun a b => In a negs /\ In b poss) pnrs) by apply pairs_loop_inv.
    destruct HP as (HPok & HPcov & HPinc).
    assert (Hin : forall e, In e (project n i sys w) <->
       In e zeros \/ (exists e', In e' negs /\ e = (fst e', N.setbit (snd e') (N.of_nat i))) \/
       (exists q, In q pnrs /\ e = (combine_rows w (fst (fst q)) (snd (fst q)), snd q))).
    { intros e. unfold project. fold negs zeros poss mc. fold pnrs. rewrite !in_app_iff, !in_map_iff.
      split.
      - intros [H|[(x & E & H)|(x & E & H)]]; eauto.
      - intros [H|[(x & H & E)|(x & H & E)]]; eauto 6. }
    assert (Hz : forall e, In e zeros <-> In e sys /\ dot (fst e) w = 0) by (intros; apply in_zeros).
    assert (Hn : forall e, In e negs <-> In e sys /\ dot (fst e) w < 0) by (intros; apply in_negs).
    assert (Hpo : forall e, In e poss <-> In e sys /\ 0 < dot (fst e) w) by (intros; apply in_poss).
    (* facts about combinations *)
    assert (Hcombo : forall en ep, In en negs -> In ep poss ->
       let c := combo w (fst en) (fst ep) in
       length c = n /\ valid (Vs ++ [w]) c /\ nz Vs c /\ dot c w = 0 /\
       marks (fun v => dot c v < 0) Vs (N.lor (snd en) (snd ep)) /\ c <> vzero (length c)).
    { intros en ep Hen Hep c. apply Hn in Hen. apply Hpo in Hep.
      destruct Hen as (Hen & Henw). destruct Hep as (Hep & Hepw).
      assert (Hln := inv_dim _ _ _ I _ Hen). assert (Hlp := inv_dim _ _ _ I _ Hep).
      assert (Hd : forall v, dot c v = dot (fst ep) w * dot (fst en) v - dot (fst en) w * dot (fst ep) v).
      { intros v. apply (dot_combo n); auto. }
      assert (Hcw : dot c w = 0) by (rewrite Hd; ring).
      assert (Hl : length c = n) by (apply vadd_length_eq; rewrite vscale_length; auto).
      assert (Hnz : nz Vs c).
      { destruct (inv_nz _ _ _ I _ Hen) as (v & Hv & Hnv). exists v; split; auto.
        pose proof (inv_valid _ _ _ I _ Hen v Hv). pose proof (inv_valid _ _ _ I _ Hep v Hv).
        rewrite Hd. nia. }
      split; auto. split; [|split; [auto|split; [auto|split]]].
      - apply valid_app. split; [|lia]. intros v Hv.
        pose proof (inv_valid _ _ _ I _ Hen v Hv). pose proof (inv_valid _ _ _ I _ Hep v Hv).
        rewrite Hd. nia.
      - apply (marks_union (fun v => dot (fst en) v < 0) (fun v => dot (fst ep) v < 0)).
        + intros v Hv. pose proof (inv_valid _ _ _ I _ Hen v Hv). pose proof (inv_valid _ _ _ I _ Hep v Hv).
          rewrite Hd. nia.
        + apply (inv_marks _ _ _ I _ Hen).
        + apply (inv_marks _ _ _ I _ Hep).
      - intros E. destruct Hnz as (v & _ & Hnv). rewrite E, dot_vzero_l in Hnv. lia. }
    assert (Hrn : forall r v, dot (rnorm r) v < 0 <-> dot r v < 0).
    { intros r v. rewrite (dot_rnorm r v). pose proof (rfac_pos r). nia. }
    assert (Hrz : forall r v, dot (rnorm r) v = 0 <-> dot r v = 0).
    { intros r v. rewrite (dot_rnorm r v). pose proof (rfac_pos r). nia. }
    assert (Hrv : forall r v, dot (rnorm r) v <= 0 <-> dot r v <= 0).
    { intros r v. rewrite (dot_rnorm r v). pose proof (rfac_pos r). nia. }
    (* dimension, validity, non-vanishing, primitivity, marks of all new rows *)
    assert (Hbasic : forall e, In e (project n i sys w) ->
       length (fst e) = n /\ valid (Vs ++ [w]) (fst e) /\ nz (Vs ++ [w]) (fst e) /\ primitive (fst e) /\
       marks (fun v => dot (fst e) v < 0) (Vs ++ [w]) (snd e)).
    { intros e He. apply Hin in He. destruct He as [He|[(e' & He & ->)|(q & Hq & ->)]].
      - apply Hz in He. destruct He as (He & E).
        split; [eapply inv_dim; eauto|]. split; [apply valid_app; split; [eapply inv_valid; eauto|lia]|].
        split; [apply nz_app; left; eapply inv_nz; eauto|]. split; [eapply inv_prim; eauto|].
        apply marks_snoc_no; [lia|]. eapply inv_marks; eauto.
      - apply Hn in He. destruct He as (He & E). cbn [fst snd].
        split; [eapply inv_dim; eauto|]. split; [apply valid_app; split; [eapply inv_valid; eauto|lia]|].
        split; [apply nz_app; left; eapply inv_nz; eauto|]. split; [eapply inv_prim; eauto|].
        apply marks_snoc_yes; [lia|]. eapply inv_marks; eauto.
      - destruct q as ((en & ep) & u). cbn [fst snd].
        destruct (HPok _ Hq) as (Hen & Hep & Eu & _).
        destruct (Hcombo en ep Hen Hep) as (Hl & Hv & Hnz & Hcw & Hm & Hne).
        rewrite combine_rows_combo. split; [rewrite rnorm_length; auto|]. split; [|split; [|split]].
        + intros v Hvi. apply Hrv. apply Hv; auto.
        + apply nz_app; left. destruct Hnz as (v & Hvi & Hnv). exists v; split; auto. rewrite Hrz; auto.
        + apply rnorm_primitive; auto.
        + rewrite Eu. apply marks_snoc_no; [rewrite Hrn; lia|].
          eapply marks_ext; [|exact Hm]. intros v _. cbn beta. rewrite Hrn; tauto. }
    assert (Hcov : covers n (Vs ++ [w]) (map fst (project n i sys w))).
    { intros x. induction x as [x IH] using (induction_ltof1 _ (nsupp (Vs ++ [w]))). unfold ltof in IH.
      intros Hx Hxnz.
      destruct (step_candidates n Vs (map fst sys) w) with (x := x)
        as [(g & Hg & Hgw & Hs)|(g & h & Hg & Hh & Hgw & Hhw & Hs)]; auto.
      - apply inv_dims with (Vs := Vs); auto.
      - intros g Hg. apply in_map_iff in Hg. destruct Hg as (e & <- & He). split.
        + eapply inv_valid; eauto.
        + eapply inv_nz; eauto.
      - eapply inv_covers; eauto.
      - apply in_map_iff in Hg. destruct Hg as (e & <- & He). exists (fst e). split; auto.
        destruct (Z.eq_dec (dot (fst e) w) 0) as [E|E].
        + apply in_map. apply Hin. left. apply Hz; auto.
        + apply in_map_iff. exists (fst e, N.setbit (snd e) (N.of_nat i)). split; auto.
          apply Hin. right; left. exists e. split; auto. apply Hn; split; auto; lia.
      - apply in_map_iff in Hg. destruct Hg as (en & <- & Hen). apply in_map_iff in Hh. destruct Hh as (ep & <- & Hep).
        assert (Hen' : In en negs) by (apply Hn; auto). assert (Hep' : In ep poss) by (apply Hpo; auto).
        destruct (Hcombo en ep Hen' Hep') as (Hl & Hv & Hnz & Hcw & Hm & Hne).
        set (c := combo w (fst en) (fst ep)) in *.
        set (u := N.lor (snd en) (snd ep)) in *.
        assert (Hvc : valid Vs c) by (apply valid_app in Hv; tauto).
        destruct (le_lt_dec (popcountN u) mc) as [Hc|Hc].
        + destruct (Forall_Exists_dec (fun z => ~ bsub (snd z) u)
              (fun z => match bool_dec (containsN u (snd z)) true with
                        | left a => right (fun n => n (proj1 (containsN_spec _ _) a))
                        | right b => left (fun s => b (proj2 (containsN_spec _ _) s)) end) zeros) as [Hall|Hex].
          * rewrite Forall_forall in Hall.
            destruct (HPcov en ep) as (q & Hq & Hqs); auto. { split; auto. }
            fold u in Hqs. destruct q as ((en' & ep') & u'). cbn [snd] in Hqs.
            destruct (HPok _ Hq) as (Hen2 & Hep2 & Eu & _).
            destruct (Hcombo en' ep' Hen2 Hep2) as (Hl' & Hv' & Hnz' & Hcw' & Hm' & Hne').
            exists (combine_rows w en' ep'). split.
            -- apply in_map_iff. exists (combine_rows w en' ep', u'). split; auto.
               apply Hin. right; right. exists (en', ep', u'); auto.
            -- apply (subs_trans _ _ c); auto. apply subs_app. rewrite combine_rows_combo. split.
               ++ apply (subs_trans _ _ (combo w (fst en') (fst ep'))).
                  { intros v Hvi E. rewrite Hrz; auto. }
                  apply valid_app in Hv'. subst u'.
                  apply (bsub_subs Vs (N.lor (snd en') (snd ep')) u); auto; tauto.
               ++ intros _. rewrite Hrz; auto.
          * apply Exists_exists in Hex. destruct Hex as (z & Hzi & Hzs).
            destruct (containsN u (snd z)) eqn:Ec.
            2:{ exfalso. apply Hzs. intros Hb. apply containsN_spec in Hb. congruence. }
            apply containsN_spec in Ec. pose proof Hzi as Hzi'. apply Hz in Hzi'. destruct Hzi' as (Hzs' & Ez).
            exists (fst z). split.
            -- apply in_map. apply Hin. left; auto.
            -- apply (subs_trans _ _ c); auto. apply subs_app. split; [|auto].
               apply (bsub_subs Vs (snd z) u); auto.
               ++ eapply inv_valid; eauto.
               ++ eapply inv_marks; eauto.
        + (* too many strict generators: a smaller element exists *)
          set (V' := Vs ++ [w]) in *.
          assert (Hlt : (nsupp V' c = popcountN u)%nat).
          { unfold V', nsupp. rewrite filter_app, app_length. cbn [filter]. rewrite Hcw. cbn [length negb Z.eqb].
            rewrite (marks_nsupp Vs u c) by auto. unfold nsupp. rewrite Nat.add_0_r. reflexivity. }
          assert (Htl : (length (filter (fun v => (dot c v =? 0)%Z) V') + popcountN u = S i)%nat).
          { rewrite <- Hlt. unfold nsupp.
            assert (Hpart : forall l : list vec, (length (filter (fun v => (dot c v =? 0)%Z) l) +
                     length (filter (fun v => negb (dot c v =? 0)%Z) l) = length l)%nat).
            { clear. induction l as [|v l IH]; cbn [filter length]; auto.
              destruct (dot c v =? 0)%Z; cbn [negb length]; lia. }
            specialize (Hpart V'). unfold V' in Hpart at 3. rewrite app_length in Hpart. cbn [length] in Hpart.
            fold i in Hpart. lia. }
          destruct (count_not_minimal n V' c (filter (fun v => (dot c v =? 0)%Z) V')) as (y & Hy & Hynz & Hys & Hyl).
          * intros a Ha Hva. apply Hp; auto. intros v Hvi. apply Hva. unfold V'. rewrite in_app_iff; auto.
          * split; auto.
          * unfold V'. apply nz_app; auto.
          * intros v Hvi E. apply filter_In. rewrite E. auto.
          * unfold V'. apply dims_app; split; auto. repeat constructor; auto.
          * apply (dims_incl n _ V'); [intros v Hvi; apply filter_In in Hvi; tauto|].
            unfold V'. apply dims_app; split; auto. repeat constructor; auto.
          * intros v Hvi. apply filter_In in Hvi. apply Z.eqb_eq; tauto.
          * assert (Hpi : (popcountN u <= i)%nat).
            { rewrite (marks_nsupp Vs u c) by auto. unfold nsupp, i. apply filter_length_le. }
            unfold mc in Hc. lia.
          * destruct (IH y) as (g & Hg & Hgs); auto.
            { apply Nat.lt_le_trans with (1 := Hyl). unfold nsupp.
              assert (Hmono : forall l, incl l V' -> (length (filter (fun v => negb (dot c v =? 0)%Z) l) <=
                      length (filter (fun v => negb (dot x v =? 0)%Z) l))%nat).
              { induction l as [|v l IHl]; intros Hi; cbn [filter length]; auto.
                specialize (IHl (fun a Ha => Hi a (or_intror Ha))).
                specialize (Hs v (Hi v (or_introl eq_refl))).
                destruct (Z.eqb_spec (dot c v) 0); destruct (Z.eqb_spec (dot x v) 0); cbn [negb length]; try lia. }
              apply Hmono, incl_refl. }
            exists g; split; auto. eapply subs_trans; [exact Hgs|]. eapply subs_trans; eauto. }
    constructor.
    - intros e He; apply Hbasic; auto.
    - intros e He; apply Hbasic; auto.
    - intros e He; apply Hbasic; auto.
    - intros e He; apply Hbasic; auto.
    - intros e He; apply Hbasic; auto.
    - exact Hcov.
    - (* antichain *)
      assert (Hanti := inv_anti _ _ _ I).
      assert (Hhigh : forall e, In e sys -> N.testbit (snd e) (N.of_nat i) = false).
      { intros e He. eapply marks_high; [eapply inv_marks; eauto|]. fold i. lia. }
      unfold project. fold negs zeros poss mc. fold pnrs.
      apply pairwise_app. split; [|split].
      + apply pairwise_perm with (l := filter (fun e => dot (fst e) w =? 0) sys).
        * apply incomparable_sym.
        * apply Permutation_sym, zsort_perm.
        * apply pairwise_filter; auto.
      + apply pairwise_app. split; [|split].
        * apply pairwise_map. apply pairwise_impl with (R := incomparable); [|apply pairwise_filter; auto].
          intros a b Ha Hb (H1 & H2). unfold incomparable. cbn [snd].
          apply Hn in Ha. apply Hn in Hb.
          split; intros Hs; [apply H1|apply H2]; intros j Hj;
            assert (Hj' := Hs j); rewrite !N.setbit_eqb, !orb_true_iff in Hj';
            destruct (Hj' (or_intror Hj)) as [E|E]; auto; apply N.eqb_eq in E; subst j.
          -- rewrite (Hhigh a) in Hj; [discriminate|tauto].
          -- rewrite (Hhigh b) in Hj; [discriminate|tauto].
        * apply pairwise_map. apply pairwise_impl with (R := uinc); auto.
        * intros a b Ha Hb. apply in_map_iff in Ha. destruct Ha as (e & <- & He).
          apply in_map_iff in Hb. destruct Hb as (q & <- & Hq). destruct q as ((en & ep) & u).
          destruct (HPok _ Hq) as (Hen & Hep & -> & _). unfold incomparable. cbn [fst snd].
          apply Hn in He. apply Hn in Hen. apply Hpo in Hep.
          split; intros Hs.
          -- specialize (Hs (N.of_nat i)). rewrite N.setbit_eqb, N.eqb_refl, N.lor_spec in Hs. cbn [orb] in Hs.
             specialize (Hs eq_refl). rewrite !Hhigh in Hs by tauto. discriminate.
          -- assert (Hne : incomparable ep e).
             { apply (pairwise_in _ sys); auto using incomparable_sym; try tauto. intros ->. lia. }
             destruct Hne as (Hne & _). apply Hne. intros j Hj.
             assert (Hj' := Hs j). rewrite N.setbit_eqb, N.lor_spec, !orb_true_iff in Hj'.
             destruct (Hj' (or_intror Hj)) as [E|E]; auto. apply N.eqb_eq in E. subst j.
             rewrite Hhigh in Hj by tauto. discriminate.
      + intros z b Hzi Hb. apply Hz in Hzi. apply in_app_iff in Hb. destruct Hb as [Hb|Hb].
        * apply in_map_iff in Hb. destruct Hb as (e & <- & He). apply Hn in He.
          assert (Hne : incomparable z e).
          { apply (pairwise_in _ sys); auto using incomparable_sym; try tauto. intros ->. lia. }
          destruct Hne as (Hne1 & Hne2). unfold incomparable. cbn [snd]. split; intros Hs.
          -- apply Hne1. intros j Hj. assert (Hj' := Hs j Hj). rewrite N.setbit_eqb, orb_true_iff in Hj'.
             destruct Hj' as [E|E]; auto. apply N.eqb_eq in E. subst j. rewrite Hhigh in Hj by tauto. discriminate.
          -- specialize (Hs (N.of_nat i)). rewrite N.setbit_eqb, N.eqb_refl in Hs. specialize (Hs eq_refl).
             rewrite Hhigh in Hs by tauto. discriminate.
        * apply in_map_iff in Hb. destruct Hb as (q & <- & Hq). destruct q as ((en & ep) & u).
          destruct (HPok _ Hq) as (Hen & Hep & -> & Hps & Hpz). unfold incomparable. cbn [fst snd].
          apply Hn in Hen. split.
          -- apply Hpz. apply Hz; auto.
          -- intros Hs.
             assert (Hne : incomparable en z).
             { apply (pairwise_in _ sys); auto using incomparable_sym; try tauto. intros ->. lia. }
             destruct Hne as (Hne & _). apply Hne. intros j Hj. apply Hs. rewrite N.lor_spec, Hj. reflexivity.
    - (* primal *)
      intros x Hx Hrows.
      assert (Hd : dims n (map fst (project n i sys w))).
      { apply Forall_forall. intros r Hr. apply in_map_iff in Hr. destruct Hr as (e & <- & He). apply Hbasic; auto. }
      apply (fm_primal n Vs (map fst sys) w); auto.
      + apply inv_dims with (Vs := Vs); auto.
      + intros y Hy Hg. apply (inv_primal _ _ _ I); auto. intros e He. apply Hg. apply in_map; auto.
      + intros g Hg Hgw. apply in_map_iff in Hg. destruct Hg as (e & <- & He).
        destruct (Z.eq_dec (dot (fst e) w) 0) as [E|E].
        * apply Hrows. apply Hin. left. apply Hz; auto.
        * apply (Hrows (fst e, N.setbit (snd e) (N.of_nat i))). apply Hin. right; left. exists e; split; auto.
          apply Hn; split; auto; lia.
      + intros g h Hg Hh Hgw Hhw. apply in_map_iff in Hg. destruct Hg as (en & <- & Hen).
        apply in_map_iff in Hh. destruct Hh as (ep & <- & Hep).
        destruct (Hcombo en ep) as (Hl & Hv & _); [apply Hn; auto|apply Hpo; auto|].
        assert (Hgen : gen n (map fst (project n i sys w)) (combo w (fst en) (fst ep))).
        { apply (covers_gen n (Vs ++ [w])); auto.
          - intros a Ha Hva. apply Hp; auto. intros v Hvi. apply Hva. rewrite in_app_iff; auto.
          - intros g Hg. apply in_map_iff in Hg. destruct Hg as (e & <- & He). split; apply Hbasic; auto.
          - split; auto. }
        destruct (gen_dual n [x] (map fst (project n i sys w)) (combo w (fst en) (fst ep))) as (_ & Hfin); auto.
        * intros g Hg v [<-|[]]. apply in_map_iff in Hg. destruct Hg as (e & <- & He). apply Hrows; auto.
        * apply Hfin; left; auto.
  Qed.

  Lemma pointed_app n V W : pointed n V -> pointed n (V ++ W).
  Proof. intros H a Ha Hv. apply H; auto. intros v Hvi. apply Hv. rewrite in_app_iff; auto. Qed.

  Lemma projects_inv n ws : forall Vs sys, (n <= length Vs)%nat -> pointed n Vs -> dims n Vs -> dims n ws ->
    inv n Vs sys -> inv n (Vs ++ ws) (projects n (length Vs) sys ws).
  Proof.
    induction ws as [|w ws IH]; intros Vs sys Hlen Hp HV Hws I; cbn [projects].
    - rewrite app_nil_r; auto.
    - inversion Hws as [|? ? Hw Hws']; subst.
      assert (I' := project_inv (length w) Vs sys w Hlen Hp HV eq_refl I).
      specialize (IH (Vs ++ [w]) (project (length w) (length Vs) sys w)).
      rewrite app_length, <- app_assoc in IH. cbn [length app] in IH.
      replace (length Vs + 1)%nat with (S (length Vs)) in IH by lia. apply IH; auto.
      + apply pointed_app; auto.
      + apply dims_app; split; auto. repeat constructor; auto.
  Qed.
End Core.
