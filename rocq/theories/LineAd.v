(** * LineAd: the rows printed by vertex enumeration with adjacency decomposition, without maps and known rows, for polyhedra that may contain lines. *)
From Coq Require Import List ZArith QArith Arith Lia Bool Permutation.
From Verif Require Import Base Spec LinAlg ListUtil Cone FmeCore FmePure FmePrepare FmeCorrect ArithModel MatrixModel FmeModel SafeIntModel Refine MatrixRefine FmeRefine IntTypes FmeTheorems DimTheorems NormTheorems
  HeuristicTheorems ClassesModel ClassesProofs OrbitTheorems ApplyTheorems OrbitExact RotationModel Adjacency RotatePure RotateRefine Climb NormalForm RotationTheorems
  ListModel ListProofs ListProtocol ListTheorems ListKnown OutputModel AdModel VertexAdModel VertexGraph Corners Lines LineEdge LineGraph MapModel PropertiesProgram.
Import ListNotations.
Open Scope Z_scope.
Open Scope list_scope.

Section Rows.
  Variables (t : int_type) (order : list nat -> list nat) (n : nat) (A : list vec) (fuel : nat).
  Notation N := (S n).
  Hypothesis Ht : t <> INT16.
  Hypothesis Ho : sort_order order.
  Hypothesis HR : rows_representable t A.
  Hypothesis HA : dims N A.
  Hypothesis HU : In (unit_vec N n (-1)) A.
  Notation nb := (m_vad_neighbours t order fuel A []).
  Notation FV := (all_rows order N A).

  Definition l_good (r : vec) : Prop := In r FV /\ Forall (representable t) r.
  Lemma l_rows x : In x FV <-> facet N A x /\ nform N A x.
  Proof. apply (all_rows_iff order N A Ho HA x). Qed.
  Lemma l_largest t' r x : largest t' Vertex_tag [] r x -> x = r.
  Proof. intros (O & _). apply (orbit_none t' Vertex_tag); auto. Qed.
  Lemma l_maps : Forall (map_in N) [].
  Proof. constructor. Qed.
  Lemma l_representatives (rows : list vec) : forall out, (forall r, In r rows -> l_good r) -> m_vertex_representatives t fuel [] rows = Ok (Some out) -> out = rows.
  Proof.
    induction rows as [|r rows IH]; intros out Hg Eq; cbn [m_vertex_representatives] in Eq; [congruence|].
    destruct (m_representative (arith t) fuel Vertex_tag [] r) as [[x|]| |] eqn:Ex; cbn [bind] in Eq; try discriminate.
    destruct (m_vertex_representatives t fuel [] rows) as [[xs|]| |] eqn:Exs; cbn [bind] in Eq; try discriminate. assert (out = x :: xs) as -> by congruence.
    destruct (Hg r (or_introl eq_refl)) as (Fr & Rr). assert (Lr : length r = N) by (apply l_rows in Fr; apply Fr).
    destruct (representative_exact t Vertex_tag [] N Ht l_maps fuel r x Lr Rr Ex) as (L & _ & Rx). apply l_largest in L. subst x. f_equal. apply IH; auto. intros y Hy. apply Hg. right; auto.
  Qed.
  Lemma l_start start : m_vad_start t order fuel A [] [] = Ok (Some start) -> (forall x, In x start -> l_good x) /\ ((exists g, In g FV) -> start <> []).
  Proof.
    intros Eq. unfold m_vad_start in Eq. match type of Eq with (bind ?m _ = _) => destruct m as [rows| |] eqn:Er end; cbn [bind] in Eq; try discriminate.
    assert (NZ := unit_nonzero n A HU). assert (ES := result_heuristic t order N A Ht Ho HR HA rows NZ Er).
    assert (HSr : rows_representable t rows).
    { assert (H := fme_heuristic_rel _ _ (arith t) (sound_type t Ht) order Ho N A A (rows_rel t Ht A HR) HA NZ). change (num (arith t)) with Z in *. rewrite Er in H. cbn [rel] in H. apply rel_rows in H. tauto. }
    assert (Hi : forall f, In f rows -> In f FV) by (intros f Hf; rewrite ES in Hf; revert Hf; apply heuristic_incl; auto using (unit_nonlast n A HU)).
    assert (Hg : forall r, In r rows -> l_good r) by (intros f Hf; split; auto; apply (proj1 (Forall_forall _ _) HSr f Hf)).
    assert (E := l_representatives rows start Hg Eq). subst start. split; auto. intros (g & Hg') E0. subst rows. apply heuristic_empty in E0; auto. rewrite E0 in Hg'. destruct Hg'.
  Qed.
  Lemma l_added added : m_vad_added t fuel [] [] added -> added = [].
  Proof. intros (k & Ek & _). rewrite firstn_nil in Ek. cbn in Ek. congruence. Qed.

  Hypothesis HX : exists j a, (j < n)%nat /\ In a A /\ nth j a 0 <> 0.
  Lemma l_neighbours r l : l_good r -> m_rotation (arith t) order fuel A r [] Vertex_tag = Ok (Some l) -> (forall x, In x l <-> In x (rotated_of order N A r)) /\ (forall x, In x l -> l_good x).
  Proof.
    intros (Hr & Rr) E. apply l_rows in Hr as (F & Nr). unfold m_rotation in E. match type of E with (bind ?m _ = _) => destruct m as [R| |] eqn:ER end; cbn [bind] in E; try discriminate.
    destruct (rotated_representable t order N A Ht Ho HR HA r R F Rr (l_nonzero_tight n A HA HU HX r F) ER) as (-> & RR).
    assert (G : forall g, In g (rotated_of order N A r) -> In g FV).
    { intros g Hg. apply l_rows. split; [|apply (rotated_nform N A order HA Ho r); auto]. destruct (rotated_ridge N A order HA Ho r g F Hg) as (_ & _ & _ & _ & _ & _ & Ha). apply Ha. }
    assert (Hd : dims N (rotated_of order N A r)) by (apply Forall_forall; intros g Hg; specialize (G g Hg); apply l_rows in G; apply G).
    destruct (classes_exact t Vertex_tag [] N Ht l_maps fuel (rotated_of order N A r) l Hd RR E) as (C1 & C2).
    assert (I : forall x, In x l <-> In x (rotated_of order N A r)).
    { intros x. split.
      - intros Hx. destruct (C1 x Hx) as (_ & _ & g & Hg & L). apply l_largest in L. subst g. auto.
      - intros Hx. destruct (C2 x Hx) as (h & y & Hh' & Oh & Hy & L). apply l_largest in L. apply orbit_none in Oh. subst. auto. }
    split; auto. intros x Hx. destruct (C1 x Hx) as (_ & Rx & _). split; auto. apply G, I. auto.
  Qed.
  Lemma l_closure start : (forall r, In r start -> l_good r) -> forall r, closure nb start r -> l_good r.
  Proof.
    intros Hs r. induction 1 as [r Hr|r x _ IH Hx]; [apply Hs; auto|]. unfold m_vad_neighbours in Hx.
    match type of Hx with In _ (match ?m with _ => _ end) => destruct m as [[l|]| |] eqn:E end; try destruct Hx. apply (l_neighbours r l IH E). auto.
  Qed.
  Lemma l_not_empty r : l_good r -> r <> [].
  Proof. intros (Hr & _) ->. apply l_rows in Hr as ((L & _) & _). discriminate L. Qed.

  Lemma l_complete start f0 g : no_hidden_flat_edge n A -> (forall r, In r start -> l_good r) -> In f0 start -> (forall r, closure nb start r -> m_vad_processed t order fuel A [] r) ->
    In g FV -> closure nb start g.
  Proof.
    intros HE Hs Hf0 Hok Hg. destruct (Hs f0 Hf0) as (If0 & _). apply l_rows in If0 as (Ff0 & Nf0). apply l_rows in Hg as (Fg & Ng).
    destruct (all_connected N A order HA Ho f0 g Ff0 Fg) as (g' & Sg & Hreach).
    assert (Hpath : forall x y, reaches (ridge_adj N A) x y -> forall x1, closure nb start x1 -> simn A x1 x -> exists y1, closure nb start y1 /\ simn A y1 y).
    { intros x y. induction 1 as [x|x y z _ IH Hst]; intros x1 Cx Sx; [exists x1; auto|].
      destruct (IH x1 Cx Sx) as (y1 & Cy & Sy). clear x1 Cx Sx IH. assert (Gy := l_closure start Hs y1 Cy). assert (Gy' := proj1 Gy). apply l_rows in Gy' as (Fy1 & Ny1).
      assert (Fz : facet N A z) by apply Hst.
      destruct (l_rotated order n A Ho HA HU HX HE y1 z Fy1 Ny1) as (z1 & Hz1 & Sz).
      { apply (ridge_adj_sim N A y y1 z z); auto; [apply Fy1|apply Fz|apply sim_sym; auto|apply sim_refl]. }
      exists z1. split; auto. destruct (Hok y1 Cy) as (l & El). apply (closure_step nb start y1); auto. unfold m_vad_neighbours. cbn in El |- *. rewrite El. apply (l_neighbours y1 l Gy El). auto. }
    destruct (Hpath f0 g' Hreach f0 (closure_start nb start f0 Hf0) (sim_refl A f0)) as (h & Ch & Sh).
    assert (h = g) as <-; auto. assert (Gh := proj1 (l_closure start Hs h Ch)). apply l_rows in Gh as (_ & Nh). apply (nform_unique N A); auto. apply (sim_trans A h g'); auto.
  Qed.

  (** The end of a run. *)
  Lemma l_run start added threads ls s : (0 < threads)%nat -> m_vad_start t order fuel A [] [] = Ok (Some start) -> m_vad_added t fuel [] [] added -> run nb (initial start added threads 0) ls s ->
    NoDup (printed (sh s)) /\ (forall r, In r (printed (sh s)) -> l_good r) /\
    (terminated s -> (forall r, In r (handed (sh s)) -> m_vad_processed t order fuel A [] r) -> no_hidden_flat_edge n A -> forall g, In g FV -> In g (printed (sh s))).
  Proof.
    intros Hth Es Ead Hrun. destruct (l_start start Es) as (G1 & G0). assert (added = []) by (apply l_added; auto). subst added.
    assert (CG : forall r, closure nb (start ++ []) r -> l_good r) by (apply l_closure; rewrite app_nil_r; auto).
    assert (Hne : forall r, closure nb (start ++ []) r -> r <> []) by (intros r Hr; apply l_not_empty; auto).
    assert (C := r_contents nb start [] threads 0 Hne ls s Hrun).
    split; [apply (c_nodup _ _ _ _ C)|]. split; [intros r Hr; apply CG; apply (c_held _ _ _ _ C); right; right; right; right; auto|].
    intros Hend Hp HE g Hg. assert (Hst : start <> []) by (apply G0; exists g; auto). destruct start as [|f0 start']; [congruence|].
    assert (SC := start_complete nb (f0 :: start') [] threads 0 ls s Hne Hth Hrun Hend).
    rewrite (c_fifo _ _ _ _ C). apply in_app_iff. left. apply SC. apply (l_complete (f0 :: start') f0 g HE G1 (or_introl eq_refl)); auto.
  Qed.
End Rows.

Section Exact.
  Variables (order : list nat -> list nat) (n : nat) (A : list vec) (fuel : nat).
  Notation N := (S n).
  Hypothesis Ho : sort_order order.
  Hypothesis HA : dims N A.
  Hypothesis HU : In (unit_vec N n (-1)) A.
  Notation FV := (all_rows order N A).
  Hypothesis Hfuel : (0 < fuel)%nat.
  Let HR := representable_exact A.
  Let Ht : EXACT <> INT16 := ltac:(discriminate).
  Notation nb := (m_vad_neighbours EXACT order fuel A []).
  Lemma lx_class r : exists S, m_get_class (arith EXACT) fuel Vertex_tag [] r = Ok (Some S) /\ In r S.
  Proof.
    destruct (get_class_total EXACT Vertex_tag [] r [r] fuel) as (S & ES); auto.
    { intros x Hx. apply orbit_none in Hx. subst x. split; [left; auto|]. intros m []. }
    exists S. split; auto. apply (get_class_spec EXACT Vertex_tag [] r fuel S ES). constructor.
  Qed.
  Lemma lx_representatives (rows : list vec) : exists out, m_vertex_representatives EXACT fuel [] rows = Ok (Some out).
  Proof.
    induction rows as [|r rows (xs & Exs)]; cbn [m_vertex_representatives]; [eauto|].
    destruct (lx_class r) as (S & ES & Hin).
    assert (EB : exists x, m_representative (arith EXACT) fuel Vertex_tag [] r = Ok (Some x)).
    { unfold m_representative. rewrite ES. cbn [bind]. destruct (exists_last (l := S)) as (S' & x & ->); [intros ->; destruct Hin|].
      exists x. unfold back. destruct (S' ++ [x]) eqn:EE; [apply app_eq_nil in EE as (_ & EE); discriminate|]. rewrite <- EE, last_last. reflexivity. }
    destruct EB as (x & Ex). exists (x :: xs). change (num (arith EXACT)) with Z in *. rewrite Ex. cbn [bind]. rewrite Exs. reflexivity.
  Qed.
  Lemma lx_start : exists start, m_vad_start EXACT order fuel A [] [] = Ok (Some start).
  Proof.
    unfold m_vad_start. assert (O := outcome_exact _ _ (heuristic_outcome EXACT order N A Ht Ho HR HA (unit_nonzero n A HU))). change (num (arith EXACT)) with Z in *. rewrite O. cbn [bind]. apply lx_representatives.
  Qed.
  Hypothesis HX : exists j a, (j < n)%nat /\ In a A /\ nth j a 0 <> 0.
  Lemma lx_processed r : l_good EXACT order n A r -> m_vad_processed EXACT order fuel A [] r.
  Proof.
    intros (Hr & Rr). apply (l_rows order n A Ho HA) in Hr as (F & Nr). unfold m_vad_processed, m_rotation.
    assert (O := outcome_exact _ _ (rotated_outcome EXACT order N A Ht Ho HR HA r F Rr (l_nonzero_tight n A HA HU HX r F))).
    match goal with |- exists l, bind ?m _ = _ => assert (E : m = Ok (rotated_of order N A r)) by exact O; rewrite E end. cbn [bind].
    destruct (set_of_spec EXACT (rotated_of order N A r)) as (S1 & S2). unfold m_classes. apply classes_loop_total; auto. intros g Hg.
    destruct (lx_class g) as (S & ES & _). eauto.
  Qed.
  Lemma lx_closure start : m_vad_start EXACT order fuel A [] [] = Ok (Some start) -> forall r, closure nb (start ++ []) r -> l_good EXACT order n A r.
  Proof.
    intros Es. destruct (l_start EXACT order n A fuel Ht Ho HR HA HU start Es) as (G1 & _). apply (l_closure EXACT order n A fuel Ht Ho HR HA HU HX). rewrite app_nil_r. auto.
  Qed.
  Lemma lx_handed start threads ls s : m_vad_start EXACT order fuel A [] [] = Ok (Some start) ->
    run nb (initial start [] threads 0) ls s -> forall r, In r (handed (sh s)) -> m_vad_processed EXACT order fuel A [] r.
  Proof.
    intros Es Hrun r Hr. assert (G := lx_closure start Es).
    assert (Hne : forall r, closure nb (start ++ []) r -> r <> []) by (intros x Hx; apply (l_not_empty EXACT order n A Ho HA); auto).
    assert (C := r_contents nb start [] threads 0 Hne ls s Hrun). assert (Hp : In r (printed (sh s))) by (rewrite (c_fifo _ _ _ _ C); apply in_app_iff; auto).
    apply lx_processed. apply G. apply (c_held _ _ _ _ C). right; right; right; right. auto.
  Qed.
  Lemma lx_finishes start threads ls s : (0 < threads)%nat -> m_vad_start EXACT order fuel A [] [] = Ok (Some start) ->
    run nb (initial start [] threads 0) ls s -> exists ls' s', run nb s ls' s' /\ terminated s'.
  Proof.
    intros Hth Es Hrun. assert (G := lx_closure start Es).
    assert (Hne : forall r, closure nb (start ++ []) r -> r <> []) by (intros x Hx; apply (l_not_empty EXACT order n A Ho HA); auto).
    destruct (finishes nb start [] Hne FV (threads + 0)) with (s := s) as (ls' & s' & R & _ & T).
    - intros r Hr. apply G. auto.
    - apply (r_contents nb start [] threads 0 Hne ls s Hrun).
    - apply (r_proto nb start [] threads 0 Hne Hth ls s Hrun).
    - rewrite (run_length nb _ _ _ Hrun). cbn [initial ListModel.threads]. rewrite app_length, !repeat_length. auto.
    - eauto.
  Qed.
End Exact.
