(** * AdRun: runs of adjacency decomposition from the start rows to the end. *)
From Coq Require Import List ZArith Arith Lia Bool Permutation.
From Verif Require Import Base Spec LinAlg ListUtil Cone FmeCore FmePure FmePrepare FmeCorrect ArithModel MatrixModel FmeModel SafeIntModel Refine MatrixRefine FmeRefine IntTypes FmeTheorems DimTheorems NormTheorems
  HeuristicTheorems ClassesModel ClassesProofs OrbitTheorems ApplyTheorems OrbitExact RotationModel Adjacency RotatePure RotateRefine Climb NormalForm RotationTheorems Symmetry MapModel
  ListModel ListProofs ListProtocol ListTheorems ListKnown OutputModel AdModel AdTheorems.
Import ListNotations.
Open Scope Z_scope.
Open Scope list_scope.

Section Run.
  Variables (t : int_type) (order : list nat -> list nat) (n : nat) (V E : list vec) (maps : list lmap) (fuel : nat).
  Hypothesis Ht : t <> INT16.
  Hypothesis Ho : sort_order order.
  Hypothesis HR : rows_representable t V.
  Hypothesis HV : dims n V.
  Hypothesis Hh : homogenised n V.
  Hypothesis HE : m_extract_equations (arith t) V = Ok E.
  Hypothesis HA : acting n V maps.
  Variables a b c : vec.
  Hypothesis Fa : facet n V a.
  Hypothesis Fb : facet n V b.
  Hypothesis Fc : facet n V c.
  Hypothesis Dab : ~ equivalent_ineq V a b.
  Hypothesis Dac : ~ equivalent_ineq V a c.
  Hypothesis Dbc : ~ equivalent_ineq V b c.
  Notation e := (unit_vec n (n - 1) (-1)).
  Notation good := (good_row t n V maps).
  Notation largest := (largest EXACT Facet_tag maps).
  Notation nb := (m_ad_neighbours t order fuel V maps).

  Lemma representatives_spec (rows : list vec) : forall out, (forall r, In r rows -> facet n V r /\ nform n V r /\ Forall (representable t) r) ->
    m_representatives t fuel maps rows = Ok (Some out) ->
    (forall x, In x out -> good x /\ exists r, In r rows /\ largest r x) /\ (forall r, In r rows -> exists x, In x out /\ largest r x).
  Proof.
    induction rows as [|r rows IH]; intros out Hg Eq; cbn [m_representatives] in Eq; [assert (out = []) as -> by congruence; split; intros ? []|].
    destruct (m_representative (arith t) fuel Facet_tag maps r) as [[x|]| |] eqn:Ex; cbn [bind] in Eq; try discriminate.
    destruct (m_representatives t fuel maps rows) as [[xs|]| |] eqn:Exs; cbn [bind] in Eq; try discriminate. assert (out = x :: xs) as -> by congruence.
    destruct (Hg r (or_introl eq_refl)) as (Fr & Nr & Rr).
    destruct (representative_exact t Facet_tag maps n Ht (a_maps n V maps HA) fuel r x (proj1 Fr) Rr Ex) as (L & _ & Rx).
    destruct (IH xs (fun r' Hr' => Hg r' (or_intror Hr')) eq_refl) as (I1 & I2). split.
    - intros y [<-|Hy]; [|destruct (I1 y Hy) as (G & r' & Hr' & L'); split; auto; exists r'; split; [right|]; auto].
      split; [apply (largest_good t n V maps HA r); auto|]. exists r. split; [left|]; auto.
    - intros y [<-|Hy]; [exists x; split; [left|]; auto|]. destruct (I2 y Hy) as (z & Hz & Lz). exists z. split; [right|]; auto.
  Qed.

  (** Known rows. *)
  Definition known_facets (known : list vec) : Prop := forall r, In r known -> facet n V r /\ ~ equivalent_ineq V r e /\ Forall (representable t) r.
  Lemma equations_rel : matr (sound_type t Ht) E E /\ leads_ok n E /\ E = eqs n V.
  Proof.
    destruct (homogenised_pos n V HV Hh) as (Hn & Hl & _). assert (EE := result_equations t n V Ht HR HV E Hl Hn HE). split; [|split; [rewrite EE; apply (extracted_leads n V HV)|exact EE]].
    assert (H := extract_equations_rel _ _ (arith t) (sound_type t Ht) n V V (rows_rel t Ht V HR) HV Hl Hn).
    rewrite HE in H. cbn [rel] in H. apply rel_rows in H. destruct H as (_ & Hrep). apply rows_rel; auto.
  Qed.
  Lemma normalised_row r r' : facet n V r -> ~ equivalent_ineq V r e -> Forall (representable t) r -> m_normalize (arith t) r E = Ok r' ->
    facet n V r' /\ nform n V r' /\ Forall (representable t) r' /\ ~ simn V r' e.
  Proof.
    intros Fr Dr Rr HN. destruct equations_rel as (HRE & HL & EE). assert (Hl := proj1 Fr).
    assert (N := normalize_rel _ _ (arith t) (sound_type t Ht) n r r E E (vec_rel t Ht r Rr) HRE Hl HL).
    rewrite HN in N. cbn [rel] in N. apply rel_vec in N. destruct N as (-> & Rr'). destruct (normalize_spec n E HL r Hl) as (L & Z0 & g & k & s & Hg & Hk & Ls & Hs & Eq).
    assert (S : simn V r (normalize r E)).
    { exists k, g. split; auto. split; auto. intros v Hv. rewrite <- (dot_vscale_l g), Eq, dot_vadd_l, dot_vscale_l by (rewrite vscale_length; congruence).
      rewrite (Span.span_vanishes n E s v (proj1 HL) Hs); [lia|]. intros x Hx. rewrite EE in Hx. apply (po_eqs_van _ _ _ (prepare_ok n V HV) x); auto. }
    assert (F' := facet_sim n V r (normalize r E) L S Fr). split; auto. split; [|split; auto].
    - split; auto. split; [|rewrite <- EE; auto]. destruct (normalize_primitive n E HL r Hl) as [E0|]; auto. exfalso. apply (proj1 (proj2 (proj2 F'))). rewrite E0. intros v _. apply dot_vzero_l.
    - intros K. apply Dr. apply sim_equiv; [rewrite unit_vec_length; auto|]. apply (sim_trans V _ (normalize r E)); auto.
  Qed.
  Lemma normalised_rows known rows : known_facets known -> mapM (fun r => m_normalize (arith t) r E) known = Ok rows ->
    (known <> [] -> rows <> []) /\ forall x, In x rows -> facet n V x /\ nform n V x /\ Forall (representable t) x /\ ~ simn V x e.
  Proof.
    revert rows. induction known as [|r known IH]; intros rows Hk Eq; cbn [mapM] in Eq; [assert (rows = []) as -> by congruence; split; [congruence|intros ? []]|].
    destruct (m_normalize (arith t) r E) as [r'| |] eqn:Er; cbn [bind] in Eq; try discriminate.
    match type of Eq with (bind ?m _ = _) => destruct m as [rs| |] eqn:Ers end; cbn [bind] in Eq; try discriminate. assert (rows = r' :: rs) as -> by congruence.
    destruct (Hk r (or_introl eq_refl)) as (K1 & K2 & K3). split; [discriminate|]. intros x [<-|Hx]; [apply (normalised_row r); auto|].
    apply (IH rs (fun r0 H0 => Hk r0 (or_intror H0)) eq_refl). auto.
  Qed.
  Lemma largest_nontrivial r x : facet n V r -> nform n V r -> ~ simn V r e -> largest r x -> ~ simn V x e.
  Proof. intros Fr Nr Dr L K. apply Dr. apply (orb_facet n V maps HA r x Fr Nr (proj1 L)). auto. Qed.
  Lemma added_good known added : known_facets known -> m_ad_known t fuel E maps known = Ok (Some added) ->
    (known <> [] -> added <> []) /\ forall x, In x added -> good x /\ ~ simn V x e.
  Proof.
    intros Hk Eq. unfold m_ad_known in Eq. match type of Eq with (bind ?m _ = _) => destruct m as [rows| |] eqn:Er end; cbn [bind] in Eq; try discriminate.
    destruct (normalised_rows known rows Hk Er) as (N1 & N2).
    destruct (representatives_spec rows added) as (R1 & R2); [intros r Hr; destruct (N2 r Hr) as (? & ? & ? & ?); auto|auto|]. split.
    - intros K. specialize (N1 K). destruct rows as [|r rows]; [congruence|]. destruct (R2 r (or_introl eq_refl)) as (x & Hx & _). intros ->. destruct Hx.
    - intros x Hx. destruct (R1 x Hx) as (G & r & Hr & L). split; auto. destruct (N2 r Hr) as (H1 & H2 & _ & H3). apply (largest_nontrivial r); auto.
  Qed.
  Lemma start_good known start : known_facets known -> m_ad_start t order fuel V E maps known = Ok (Some start) ->
    (forall x, In x start -> good x) /\ exists f0, In f0 start /\ ~ simn V f0 e.
  Proof.
    intros Hk Eq. unfold m_ad_start in Eq. destruct known as [|r known].
    - destruct (homogenised_pos n V HV Hh) as (_ & _ & Hnz). assert (Hex := hom_ex n V Hh).
      match type of Eq with (bind ?m _ = _) => destruct m as [rows| |] eqn:Er end; cbn [bind] in Eq; try discriminate.
      assert (ES := result_heuristic t order n V Ht Ho HR HV rows Hnz Er).
      assert (HSr : rows_representable t rows).
      { assert (H := fme_heuristic_rel _ _ (arith t) (sound_type t Ht) order Ho n V V (rows_rel t Ht V HR) HV Hnz). change (num (arith t)) with Z in *. rewrite Er in H. cbn [rel] in H. apply rel_rows in H. tauto. }
      assert (Hi : forall f, In f rows -> facet n V f /\ nform n V f) by (intros f Hf; apply (all_rows_iff order n V Ho HV); rewrite ES in Hf; revert Hf; apply heuristic_incl; auto).
      destruct (representatives_spec rows start) as (R1 & R2); [intros f Hf; destruct (Hi f Hf); split; auto; split; auto; apply (proj1 (Forall_forall _ _) HSr f Hf)|auto|].
      split; [intros x Hx; apply (R1 x Hx)|].
      assert (Hne := heuristic_nonempty_result t order n V Ht Ho HR HV rows Hh Er). destruct rows as [|s0 rows]; [contradiction|].
      destruct (heuristic_start n V order HV Ho Hex a b s0) as (f0 & H1 & H2); auto.
      { intros Hs. apply Dab. apply sim_equiv; auto. destruct Fa, Fb; congruence. }
      { rewrite <- ES. left; auto. }
      rewrite <- ES in H1. destruct (R2 f0 H1) as (x & Hx & L). exists x. split; auto. apply (fme_iff n V order HV Ho Hex) in H2. destruct H2 as (K1 & K2 & K3). apply (largest_nontrivial f0); auto.
    - destruct (added_good [r] start) as (G1 & G2); auto; [intros x [<-|[]]; apply Hk; left; auto|]. split; [intros x Hx; apply (G2 x Hx)|].
      destruct start as [|x start]; [destruct G1; [discriminate|auto]|]. exists x. split; [left; auto|]. apply (G2 x). left; auto.
  Qed.

  Lemma task_good known added : known_facets known -> m_ad_added t fuel E maps known added -> forall x, In x added -> good x /\ ~ simn V x e.
  Proof.
    intros Hk (k & Ek & _). apply (added_good (firstn k known) added); auto. intros r Hr. apply Hk. rewrite <- (firstn_skipn k known). apply in_app_iff. auto.
  Qed.
  Lemma good_not_empty r : good r -> r <> [].
  Proof. intros (F & _) ->. assert (H := proj1 F). destruct (homogenised_pos n V HV Hh) as (Hn & _). cbn in H. lia. Qed.
  Lemma closure_all_good known start added : known_facets known -> m_ad_start t order fuel V E maps known = Ok (Some start) -> m_ad_added t fuel E maps known added ->
    forall r, closure nb (start ++ added) r -> good r.
  Proof.
    intros Hk Es Ea. apply (closure_good t order n V maps fuel (start ++ added) Ht Ho HR HV HA a b Fa Fb Dab). intros r Hr. apply in_app_iff in Hr as [Hr|Hr].
    - apply (start_good known start); auto.
    - apply (task_good known added); auto.
  Qed.

  (** The end of a run. *)
  Theorem run_result known start added threads ls s : known_facets known -> (0 < threads)%nat ->
    m_ad_start t order fuel V E maps known = Ok (Some start) -> m_ad_added t fuel E maps known added ->
    run nb (initial start added threads 0) ls s -> terminated s -> (forall r, In r (handed (sh s)) -> m_ad_processed t order fuel V maps r) ->
    NoDup (printed (sh s)) /\ handed (sh s) = printed (sh s) /\ (forall r, In r (printed (sh s)) -> Forall (representable t) r) /\
    (forall g, In g (fme order n V) -> exists r, In r (printed (sh s)) /\ largest g r) /\
    (forall r, In r (printed (sh s)) -> (In r (fme order n V) \/ r = e) /\ largest r r) /\
    (known <> [] -> ~ In e (printed (sh s))).
  Proof.
    intros Hk Hth Es Ea Hrun Hend Hp. destruct (start_good known start Hk Es) as (G1 & f0 & Hf0 & Df0). assert (G2 := task_good known added Hk Ea).
    assert (Hne : forall r, closure nb (start ++ added) r -> r <> []) by (intros r Hr; apply good_not_empty; apply (closure_all_good known start added); auto).
    assert (Hproc : forall r, closure nb start r -> m_ad_processed t order fuel V maps r) by (intros r Hr; apply Hp; apply (start_complete nb start added threads 0 ls s); auto).
    assert (CG := closure_good t order n V maps fuel start Ht Ho HR HV HA a b Fa Fb Dab G1).
    assert (Hkn : forall x, In x added -> closure nb start x).
    { intros x Hx. destruct (G2 x Hx) as (Gx & Dx).
      destruct (closure_complete t order n V maps fuel start Ht Ho HR HV Hh HA a b c Fa Fb Fc Dab Dac Dbc G1 f0 x) as (r & Cr & L); auto; try apply Gx.
      assert (Lx := good_largest t order n V maps Ho HV HA x Gx). rewrite (largest_unique EXACT Facet_tag maps x x r Lx L). auto. }
    destruct (known_complete nb start added threads 0 ls s Hne Hkn Hth Hrun Hend) as (K1 & K2).
    destruct (closure_exactly t order n V maps fuel start Ht Ho HR HV Hh HA a b c Fa Fb Fc Dab Dac Dbc G1 f0 Hf0 Df0 Hproc) as (X1 & X2).
    split; [apply (c_nodup _ _ _ _ (r_contents nb start added threads 0 Hne ls s Hrun))|]. split; auto. split; [intros r Hr; apply K1 in Hr; apply (CG r Hr)|]. split; [|split].
    - intros g Hg. destruct (X1 g Hg) as (r & Cr & L). exists r. split; auto. apply K1. auto.
    - intros r Hr. apply X2. apply K1. auto.
    - intros Hkn0 Hin. apply K1 in Hin. destruct known as [|k0 known]; [congruence|].
      assert (Dst : forall x, In x start -> ~ simn V x e).
      { intros x Hx. destruct (added_good [k0] start) as (_ & G3); auto; [intros y [<-|[]]; apply Hk; left; auto|]. apply (G3 x Hx). }
      assert (Hall : forall r, closure nb start r -> ~ simn V r e).
      { intros r Hr. induction Hr as [r Hr|r x Hr IH Hx]; auto. unfold m_ad_neighbours in Hx.
        destruct (m_rotation (arith t) order fuel V r maps Facet_tag) as [[l|]| |] eqn:El; try destruct Hx.
        destruct (processed_rows t order n V maps fuel Ht Ho HR HV HA a b Fa Fb Dab r l (CG r Hr) El) as (P1 & _). destruct (P1 x Hx) as (Gx & g & Hg & L).
        assert (Gr := CG r Hr). assert (Nr : nfacet n V r) by (split; [apply Gr|auto]). destruct (rotated_nfacet n V order HV Ho Hh r g Nr Hg) as (Fg & Dg).
        assert (Ng : nform n V g) by (apply (rotated_nform n V order HV Ho r); auto; apply Gr). apply (largest_nontrivial g); auto. }
      apply (Hall e Hin). apply sim_refl.
  Qed.

  (** With exact integers there is such a run, and in no run a row fails. *)
  Lemma closure_rows known start added : known_facets known -> m_ad_start t order fuel V E maps known = Ok (Some start) -> m_ad_added t fuel E maps known added ->
    forall r, closure nb (start ++ added) r -> In r (all_rows order n V).
  Proof. intros Hk Es Ea r Hr. apply (all_rows_iff order n V Ho HV). destruct (closure_all_good known start added Hk Es Ea r Hr) as (H1 & H2 & _). auto. Qed.
End Run.

(** ** Exact integers: a run to the end exists *)
Section Exact.
  Variables (order : list nat -> list nat) (n : nat) (V E : list vec) (maps : list lmap) (fuel : nat).
  Hypothesis Ho : sort_order order.
  Hypothesis HV : dims n V.
  Hypothesis Hh : homogenised n V.
  Hypothesis HE : m_extract_equations (arith EXACT) V = Ok E.
  Hypothesis HA : acting n V maps.
  Variables a b : vec.
  Hypothesis Fa : facet n V a.
  Hypothesis Fb : facet n V b.
  Hypothesis Dab : ~ equivalent_ineq V a b.
  Hypothesis Hfuel : (length (all_rows order n V) <= fuel)%nat.
  Notation nb := (m_ad_neighbours EXACT order fuel V maps).
  Let HR := representable_exact V.
  Let Ht : EXACT <> INT16 := ltac:(discriminate).

  Lemma representatives_total (rows : list vec) : (forall r, In r rows -> facet n V r /\ nform n V r) -> exists out, m_representatives EXACT fuel maps rows = Ok (Some out).
  Proof.
    induction rows as [|r rows IH]; intros Hg; cbn [m_representatives]; [eauto|]. destruct (Hg r (or_introl eq_refl)) as (Fr & Nr).
    destruct (get_class_total EXACT Facet_tag maps r (all_rows order n V) fuel) as (S & ES); auto.
    { intros x Hx. split; [apply (orb_rows n V maps order HV Ho HA r); auto|]. intros m Hm. apply (orb_injective n V maps HV HA r Fr Nr m Hm). auto. }
    destruct IH as (xs & Exs); [intros; apply Hg; right; auto|].
    assert (Hin : In r S) by (apply (get_class_spec EXACT Facet_tag maps r fuel S ES); constructor).
    assert (EB : exists x, m_representative (arith EXACT) fuel Facet_tag maps r = Ok (Some x)).
    { unfold m_representative. rewrite ES. cbn [bind]. destruct (exists_last (l := S)) as (S' & x & ->); [intros ->; destruct Hin|].
      exists x. unfold back. destruct (S' ++ [x]) eqn:EE; [apply app_eq_nil in EE as (_ & EE); discriminate|]. rewrite <- EE, last_last. reflexivity. }
    destruct EB as (x & Ex). exists (x :: xs). change (num (arith EXACT)) with Z in *. rewrite Ex. cbn [bind]. rewrite Exs. reflexivity.
  Qed.
  Lemma normalised_total known : known_facets EXACT n V known -> exists rows, mapM (fun r => m_normalize (arith EXACT) r E) known = Ok rows.
  Proof.
    destruct (equations_rel EXACT n V E Ht HR HV Hh HE) as (HRE & HL & _). induction known as [|r known IH]; intros Hk; cbn [mapM]; [eauto|].
    destruct (Hk r (or_introl eq_refl)) as (Fr & _ & Rr). assert (N := normalize_rel _ _ (arith EXACT) (sound_type EXACT Ht) n r r E E (vec_rel EXACT Ht r Rr) HRE (proj1 Fr) HL).
    destruct IH as (rows & Er); [intros x Hx; apply Hk; right; auto|].
    destruct (m_normalize (arith EXACT) r E) as [r'| |]; try discriminate N. cbn [bind]. rewrite Er. cbn [bind]. eauto.
  Qed.
  Lemma known_total known : known_facets EXACT n V known -> exists added, m_ad_known EXACT fuel E maps known = Ok (Some added).
  Proof.
    intros Hk. unfold m_ad_known. destruct (normalised_total known Hk) as (rows & Er). rewrite Er. cbn [bind]. apply representatives_total. intros r Hr.
    destruct (normalised_rows EXACT n V E Ht HR HV Hh HE known rows Hk Er) as (_ & N). destruct (N r Hr) as (? & ? & _). auto.
  Qed.
  Lemma start_total known : known_facets EXACT n V known -> exists start, m_ad_start EXACT order fuel V E maps known = Ok (Some start).
  Proof.
    intros Hk. unfold m_ad_start. destruct known as [|r known]; [|apply known_total; intros x [<-|[]]; apply Hk; left; auto].
    destruct (homogenised_pos n V HV Hh) as (_ & _ & Hnz). assert (O := outcome_exact _ _ (heuristic_outcome EXACT order n V Ht Ho HR HV Hnz)). change (num (arith EXACT)) with Z in *. rewrite O. cbn [bind].
    apply representatives_total. intros f Hf. apply (all_rows_iff order n V Ho HV). revert Hf. apply heuristic_incl; auto using (hom_ex n V Hh).
  Qed.
  (** Every row handed out in any run is processed without failure, and every run can be finished. *)
  Lemma handed_processed known start added threads ls s : known_facets EXACT n V known -> m_ad_start EXACT order fuel V E maps known = Ok (Some start) -> m_ad_added EXACT fuel E maps known added ->
    run nb (initial start added threads 0) ls s -> forall r, In r (handed (sh s)) -> m_ad_processed EXACT order fuel V maps r.
  Proof.
    intros Hk Es Ea Hrun r Hr. assert (G := closure_all_good EXACT order n V E maps fuel Ht Ho HR HV Hh HE HA a b Fa Fb Dab known start added Hk Es Ea).
    assert (Hne : forall r, closure nb (start ++ added) r -> r <> []) by (intros x Hx; apply (good_not_empty EXACT n V maps HV Hh); auto).
    assert (C := r_contents nb start added threads 0 Hne ls s Hrun). assert (Hp : In r (printed (sh s))) by (rewrite (c_fifo _ _ _ _ C); apply in_app_iff; auto).
    apply (processed_exact EXACT order n V maps fuel Ht Ho HR HV HA a b Fa Fb Dab); auto. apply G. apply (c_held _ _ _ _ C). right; right; right; right. auto.
  Qed.
  Lemma exact_finishes known start added threads ls s : known_facets EXACT n V known -> (0 < threads)%nat -> m_ad_start EXACT order fuel V E maps known = Ok (Some start) -> m_ad_added EXACT fuel E maps known added ->
    run nb (initial start added threads 0) ls s -> exists ls' s', run nb s ls' s' /\ terminated s'.
  Proof.
    intros Hk Hth Es Ea Hrun. assert (G := closure_all_good EXACT order n V E maps fuel Ht Ho HR HV Hh HE HA a b Fa Fb Dab known start added Hk Es Ea).
    assert (Hne : forall r, closure nb (start ++ added) r -> r <> []) by (intros x Hx; apply (good_not_empty EXACT n V maps HV Hh); auto).
    destruct (finishes nb start added Hne (all_rows order n V) (threads + 0)) with (s := s) as (ls' & s' & R & _ & T).
    - intros r Hr. apply (closure_rows EXACT order n V E maps fuel Ht Ho HR HV Hh HE HA a b Fa Fb Dab known start added); auto.
    - apply (r_contents nb start added threads 0 Hne ls s Hrun).
    - apply (r_proto nb start added threads 0 Hne Hth ls s Hrun).
    - rewrite (run_length nb _ _ _ Hrun). cbn [initial ListModel.threads]. rewrite app_length, !repeat_length. auto.
    - eauto.
  Qed.
End Exact.
