(** * VertexAdExact: with unbounded integers vertex enumeration by adjacency decomposition meets no failure, and every schedule can be finished. *)
From Coq Require Import List ZArith QArith Arith Lia Bool Permutation.
From Verif Require Import Base Spec LinAlg ListUtil Cone FmeCore FmePure FmePrepare FmeCorrect ArithModel MatrixModel FmeModel SafeIntModel Refine MatrixRefine FmeRefine IntTypes FmeTheorems DimTheorems NormTheorems
  HeuristicTheorems ClassesModel ClassesProofs OrbitTheorems ApplyTheorems OrbitExact RotationModel Adjacency RotatePure RotateRefine Climb NormalForm RotationTheorems Symmetry
  ListModel ListProofs ListProtocol ListTheorems ListKnown OutputModel AdModel VertexAdModel VertexSymmetry VertexGraph Corners VertexEdge VertexAd.
Import ListNotations.
Open Scope Z_scope.
Open Scope list_scope.

Section Exact.
  Variables (order : list nat -> list nat) (n : nat) (A : list vec) (maps : list lmap) (fuel : nat).
  Notation N := (S n).
  Hypothesis Ho : sort_order order.
  Hypothesis HA : dims N A.
  Hypothesis HU : In (unit_vec N n (-1)) A.
  Hypothesis HL : no_line N A.
  Hypothesis HM : permuting N A maps.
  Notation FV := (all_rows order N A).
  Hypothesis Hfuel : (length FV <= fuel)%nat.
  Let HR := representable_exact A.
  Let Ht : EXACT <> INT16 := ltac:(discriminate).
  Notation nb := (m_vad_neighbours EXACT order fuel A maps).

  Lemma x_class r : In r FV -> exists S, m_get_class (arith EXACT) fuel Vertex_tag maps r = Ok (Some S) /\ In r S.
  Proof.
    intros Hr. destruct (get_class_total EXACT Vertex_tag maps r FV fuel) as (S & ES); auto.
    { intros x Hx. split; [apply (v_orbit order n A maps Ho HA HL HM r); auto|]. intros m Hm. apply (v_injective order n A maps Ho HA HL HM r Hr m Hm). auto. }
    exists S. split; auto. apply (get_class_spec EXACT Vertex_tag maps r fuel S ES). constructor.
  Qed.
  Lemma x_representatives (rows : list vec) : (forall r, In r rows -> In r FV) -> exists out, m_vertex_representatives EXACT fuel maps rows = Ok (Some out).
  Proof.
    induction rows as [|r rows IH]; intros Hg; cbn [m_vertex_representatives]; [eauto|].
    destruct (x_class r (Hg r (or_introl eq_refl))) as (S & ES & Hin). destruct IH as (xs & Exs); [intros; apply Hg; right; auto|].
    assert (EB : exists x, m_representative (arith EXACT) fuel Vertex_tag maps r = Ok (Some x)).
    { unfold m_representative. rewrite ES. cbn [bind]. destruct (exists_last (l := S)) as (S' & x & ->); [intros ->; destruct Hin|].
      exists x. unfold back. destruct (S' ++ [x]) eqn:EE; [apply app_eq_nil in EE as (_ & EE); discriminate|]. rewrite <- EE, last_last. reflexivity. }
    destruct EB as (x & Ex). exists (x :: xs). change (num (arith EXACT)) with Z in *. rewrite Ex. cbn [bind]. rewrite Exs. reflexivity.
  Qed.
  Lemma x_normalised known : known_rays EXACT n A known -> exists rows, mapM (fun r => m_normalize (arith EXACT) r []) known = Ok rows.
  Proof.
    assert (LO : leads_ok N []) by (split; [constructor|intros i Hi; cbn in Hi; lia]). induction known as [|r known IH]; intros Hk; cbn [mapM]; [eauto|].
    destruct (Hk r (or_introl eq_refl)) as (Er & Rr). assert (Nr := normalize_rel _ _ (arith EXACT) (sound_type EXACT Ht) N r r [] [] (vec_rel EXACT Ht r Rr) (Forall2_nil _) (proj1 (proj1 Er)) LO).
    destruct IH as (rows & Ers); [intros x Hx; apply Hk; right; auto|].
    destruct (m_normalize (arith EXACT) r []) as [r'| |]; try discriminate Nr. cbn [bind]. rewrite Ers. cbn [bind]. eauto.
  Qed.
  Lemma x_known known : known_rays EXACT n A known -> exists added, m_vad_known EXACT fuel maps known = Ok (Some added).
  Proof.
    intros Hk. unfold m_vad_known. destruct (x_normalised known Hk) as (rows & Er). rewrite Er. cbn [bind]. apply x_representatives. intros r Hr.
    apply (v_normalised_rows EXACT order n A Ht Ho HA HL known rows Hk Er). auto.
  Qed.
  Lemma x_start known : known_rays EXACT n A known -> exists start, m_vad_start EXACT order fuel A maps known = Ok (Some start).
  Proof.
    intros Hk. unfold m_vad_start. destruct known as [|r known]; [|apply x_known; intros x [<-|[]]; apply Hk; left; auto].
    assert (O := outcome_exact _ _ (heuristic_outcome EXACT order N A Ht Ho HR HA (v_nonzero n A HU))). change (num (arith EXACT)) with Z in *. rewrite O. cbn [bind].
    apply x_representatives. intros f Hf. revert Hf. apply heuristic_incl; auto; apply (v_exl n A HU).
  Qed.
  Hypothesis Hn : (0 < n)%nat.

  Lemma x_processed r : v_good EXACT order n A maps r -> m_vad_processed EXACT order fuel A maps r.
  Proof.
    assert (VF := v_facet n A HA HL). intros (Hr & Rr & _). apply (v_rows order n A Ho HA HL) in Hr as (Er & Pr). assert (F := proj1 (VF r) Er). unfold m_vad_processed, m_rotation.
    assert (Hnz := v_tight n A HL Hn r F).
    assert (O := outcome_exact _ _ (rotated_outcome EXACT order N A Ht Ho HR HA r F Rr Hnz)).
    match goal with |- exists l, bind ?m _ = _ => assert (E : m = Ok (rotated_of order N A r)) by exact O; rewrite E end. cbn [bind].
    assert (G : forall g, In g (rotated_of order N A r) -> In g FV).
    { intros g Hg. apply (all_rows_iff order N A Ho HA). split; [|apply (rotated_nform N A order HA Ho r); auto using (v_form n A HA HL)]. destruct (rotated_ridge N A order HA Ho r g F Hg) as (_ & _ & _ & _ & _ & _ & Ha). apply Ha. }
    destruct (set_of_spec EXACT (rotated_of order N A r)) as (S1 & S2). unfold m_classes. apply classes_loop_total; auto. intros g Hg. apply S2 in Hg.
    destruct (x_class g (G g Hg)) as (S & ES & _). eauto.
  Qed.
  Lemma x_closure known start added : known_rays EXACT n A known -> m_vad_start EXACT order fuel A maps known = Ok (Some start) -> m_vad_added EXACT fuel maps known added ->
    forall r, closure nb (start ++ added) r -> v_good EXACT order n A maps r.
  Proof.
    intros Hk Es Ead. destruct (v_start EXACT order n A maps fuel Ht Ho HR HA HU HL HM known start Hk Es) as (G1 & _). assert (G2 := v_added EXACT order n A maps fuel Ht Ho HA HL HM known added Hk Ead).
    apply (v_closure EXACT order n A maps fuel Ht Ho HR HA HL HM Hn). intros r Hr. apply in_app_iff in Hr as [Hr|Hr]; auto.
  Qed.
  Lemma x_handed known start added threads ls s : known_rays EXACT n A known -> m_vad_start EXACT order fuel A maps known = Ok (Some start) -> m_vad_added EXACT fuel maps known added ->
    run nb (initial start added threads 0) ls s -> forall r, In r (handed (sh s)) -> m_vad_processed EXACT order fuel A maps r.
  Proof.
    intros Hk Es Ead Hrun r Hr. assert (G := x_closure known start added Hk Es Ead).
    assert (Hne : forall r, closure nb (start ++ added) r -> r <> []) by (intros x Hx; apply (v_not_empty EXACT order n A maps Ho HA HL); auto).
    assert (C := r_contents nb start added threads 0 Hne ls s Hrun). assert (Hp : In r (printed (sh s))) by (rewrite (c_fifo _ _ _ _ C); apply in_app_iff; auto).
    apply x_processed. apply G. apply (c_held _ _ _ _ C). right; right; right; right. auto.
  Qed.
  Lemma x_finishes known start added threads ls s : known_rays EXACT n A known -> (0 < threads)%nat -> m_vad_start EXACT order fuel A maps known = Ok (Some start) -> m_vad_added EXACT fuel maps known added ->
    run nb (initial start added threads 0) ls s -> exists ls' s', run nb s ls' s' /\ terminated s'.
  Proof.
    intros Hk Hth Es Ead Hrun. assert (G := x_closure known start added Hk Es Ead).
    assert (Hne : forall r, closure nb (start ++ added) r -> r <> []) by (intros x Hx; apply (v_not_empty EXACT order n A maps Ho HA HL); auto).
    destruct (finishes nb start added Hne FV (threads + 0)) with (s := s) as (ls' & s' & R & _ & T).
    - intros r Hr. apply G. auto.
    - apply (r_contents nb start added threads 0 Hne ls s Hrun).
    - apply (r_proto nb start added threads 0 Hne Hth ls s Hrun).
    - rewrite (run_length nb _ _ _ Hrun). cbn [initial ListModel.threads]. rewrite app_length, !repeat_length. auto.
    - eauto.
  Qed.
End Exact.
