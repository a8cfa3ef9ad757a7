(** * SafeFacets: adjacency decomposition of points and rays with SafeInteger is never undefined. *)
From Coq Require Import List ZArith QArith Arith Bool Ascii String Lia Permutation.
From Verif Require Import Base Spec LinAlg Cone ListUtil ArithModel MatrixModel FmeModel SafeIntModel IntTypes StreamModel InputModel ClassesModel ConstraintModel ConstraintInput PropertiesConstraints OutputModel OutputProofs PropertiesOutput Hull
  FmeCore FmePure FmePrepare FmeCorrect Refine MatrixRefine FmeRefine FmeTheorems DimTheorems NormTheorems ClassesProofs ApplyTheorems OrbitTheorems OrbitExact PropertiesMaps PropertiesFme MapModel PropertiesProgram
  RotationModel RotationTheorems PropertiesRotation PropertiesNormalize HeuristicTheorems NormalForm Symmetry Adjacency AdTheorems PropertiesAd ListModel AdModel SafeClasses MainModel.
Import ListNotations.
Open Scope nat_scope.
Open Scope list_scope.

Lemma new_rows_in (rows : list vec) : forall seen r, In r (fold_left (fun seen r => if in_dec (list_eq_dec Z.eq_dec) r seen then seen else seen ++ [r]) rows seen) -> In r seen \/ In r rows.
Proof.
  induction rows as [|x rows IH]; intros seen r H; cbn [fold_left] in H; [auto|]. apply IH in H as [H|H]; [|right; right; auto]. destruct (in_dec (list_eq_dec Z.eq_dec) x seen); [auto|].
  apply in_app_iff in H as [H|[<-|[]]]; [auto|right; left; auto].
Qed.
Lemma safe_representatives N maps fuel rows : Forall (map_in N) maps -> safe_rows N rows -> fine (when_some (safe_rows N)) (m_representatives SAFE fuel maps rows).
Proof.
  intros HM. induction rows as [|r rows IH]; intros H; cbn [m_representatives]; [intros x []|].
  eapply fine_bind; [apply (safe_representative N Facet_tag maps HM); apply H; left; auto|]. intros [x|] Hx; cbn [fine when_some] in *; auto.
  eapply fine_bind; [apply IH; intros z Hz; apply H; right; auto|]. intros [xs|] Hxs; cbn [fine when_some] in *; auto. intros z [<-|Hz]; auto.
Qed.

Section Safe_facets.
  Variables (order : list nat -> list nat) (n : nat) (V E F : list vec) (names : list text) (maps : list lmap) (fuel : nat) (known : list vec).
  Hypothesis Ho : sort_order order.
  Hypothesis HR : rows_representable SAFE V.
  Hypothesis HD : dims (S n) V.
  Hypothesis HH : homogenised (S n) V.
  Hypothesis H3 : three_different_facets (S n) V.
  Hypothesis Hsym : maps = [] \/ (symmetries n V maps /\ equations_allow SAFE n E maps).
  Hypothesis Hnorm : E <> [] -> m_normalize_maps SAFE E maps <> UB.
  Hypothesis Hk : are_facets SAFE (S n) V known.
  Hypothesis HN : good_names names.
  Hypothesis HNl : names = [] \/ length names = n.
  Hypothesis HE : m_extract_equations (arith EXACT) V = Ok E.
  Hypothesis HF : m_fme (arith EXACT) order V = Ok F.
  Hypothesis BE : Forall negatable_row E.
  Hypothesis BF : Forall negatable_row F.
  Let Ht : SAFE <> INT16 := ltac:(discriminate).
  Let Hx : EXACT <> INT16 := ltac:(discriminate).
  Let HRx := representable_exact V.

  Lemma safe_reduced E' reduced : m_ad_reduce SAFE V maps = Ok (E', reduced) -> E' = E /\ m_extract_equations (arith SAFE) V = Ok E /\ acting (S n) V reduced.
  Proof.
    intros X. destruct (homogenised_pos (S n) V HD HH) as (Hn & Hl & Hnz).
    assert (Q : m_extract_equations (arith SAFE) V = Ok E' /\ E' = E).
    { unfold m_ad_reduce in X. destruct (m_extract_equations (arith SAFE) V) as [E0| |] eqn:EE; cbn [bind] in X; try discriminate.
      assert (E0 = E') as -> by (destruct E0 as [|e0 E0]; [inversion X; auto|]; destruct (m_normalize_maps SAFE (e0 :: E0) maps); cbn [bind] in X; inversion X; auto). split; auto.
      rewrite (result_equations SAFE (S n) V Ht HR HD E' Hl Hn EE). symmetry. apply (result_equations EXACT (S n) V Hx HRx HD E Hl Hn HE). }
    destruct Q as (Q & ->). split; auto. split; auto. destruct Hsym as [->|(M1 & M2)].
    - unfold m_ad_reduce in X. change (num (arith SAFE)) with Z in *. rewrite Q in X. cbn [bind] in X. destruct E; cbn [m_normalize_maps mapM bind] in X; inversion X; apply acting_none.
    - destruct (reduced_like SAFE n V maps E reduced Ht HR HD HH M1 M2 X) as (_ & _ & L). apply (likes_acting n V maps reduced HD HH L).
  Qed.
  Lemma safe_reduce : fine (fun _ => True) (m_ad_reduce SAFE V maps).
  Proof.
    destruct (homogenised_pos (S n) V HD HH) as (Hn & Hl & Hnz). destruct (C21_safe_elimination order (S n) V Ho HR HD Hnz) as (_ & _ & S1). rewrite HE in S1.
    unfold m_ad_reduce. change (num (arith SAFE)) with Z in *. destruct S1 as [S1|S1]; rewrite S1; cbn [bind fine]; auto. destruct E as [|e0 E0]; cbn [fine]; auto.
    assert (Q := Hnorm ltac:(discriminate)). destruct (m_normalize_maps SAFE (e0 :: E0) maps); cbn [bind fine]; auto.
  Qed.

  Section Reduced.
    Variables (reduced : list lmap).
    Hypothesis HES : m_extract_equations (arith SAFE) V = Ok E.
    Hypothesis HA : acting (S n) V reduced.
    Lemma safe_known_facets l : (forall r, In r l -> In r known) -> fine (when_some (safe_rows (S n))) (m_ad_known SAFE fuel E reduced l).
    Proof.
      intros Hl. unfold m_ad_known. apply (fine_bind (safe_rows (S n))); [|intros rows Hr; apply safe_representatives; auto; apply (a_maps _ _ _ HA)].
      destruct (AdRun.equations_rel SAFE (S n) V E Ht HR HD HH HES) as (HRE & HLE & EE).
      induction l as [|r l IH]; cbn [mapM]; [intros x []|]. destruct (Hk r (Hl r (or_introl eq_refl))) as (Fr & Dr & Rr).
      eapply (fine_bind (safe_row (S n))).
      - assert (N := normalize_rel _ _ (arith SAFE) (sound_type SAFE Ht) (S n) r r E E (vec_rel SAFE Ht r Rr) HRE (proj1 Fr) HLE).
        assert (K := fun r' => AdRun.normalised_row SAFE (S n) V E Ht HR HD HH HES r r' Fr Dr Rr).
        match type of N with rel _ _ _ ?x _ => change (fine (safe_row (S n)) x); destruct x as [r'| |] end; cbn [fine rel may_be_undefined] in *; auto; [|discriminate].
        destruct (K r' eq_refl) as (F' & _ & R' & _). split; auto. apply F'.
      - intros r' Hr'. eapply fine_bind; [apply IH; intros x Hx'; apply Hl; right; auto|]. intros rows Hrows x [<-|Hx']; auto.
    Qed.
    Lemma safe_start_facets : fine (fun _ => True) (m_ad_start SAFE order fuel V E reduced known).
    Proof.
      destruct (homogenised_pos (S n) V HD HH) as (Hn & Hl & Hnz).
      unfold m_ad_start. assert (K := fun r l (E0 : known = r :: l) => safe_known_facets [r] ltac:(intros x [<-|[]]; rewrite E0; left; auto)).
      destruct known as [|r known'] eqn:E0; [|eapply fine_weaken; [|apply (K r known' eq_refl)]; auto]. clear K.
      assert (O := heuristic_outcome SAFE order (S n) V Ht Ho HR HD Hnz).
      assert (RR := fme_heuristic_rel _ _ (arith SAFE) (sound_type SAFE Ht) order Ho (S n) V V (rows_rel SAFE Ht V HR) HD Hnz).
      change (num (arith SAFE)) with Z in *. destruct (m_fme_heuristic (arith SAFE) order V) as [St| |] eqn:ES; cbn [bind outcome fine] in *; auto; [|destruct O; discriminate].
      eapply fine_weaken; [|apply (safe_representatives (S n)); [apply (a_maps _ _ _ HA)|]]; auto. intros x Hx'. cbn [rel] in RR. apply rel_rows in RR. destruct RR as (_ & RR). unfold rows_representable in RR. rewrite Forall_forall in RR.
      split; auto. subst St. assert (I : In x (all_rows order (S n) V)) by (apply heuristic_incl; auto). apply (RotationTheorems.all_rows_iff order (S n) V Ho HD) in I. apply (proj1 I).
    Qed.
    Lemma safe_rotation_facets r : AdTheorems.good_row SAFE (S n) V reduced r -> fine (fun _ => True) (m_rotation (arith SAFE) order fuel V r reduced Facet_tag).
    Proof.
      intros (Fr & _ & Rr & _). destruct H3 as (fa & fb & fc & Fa & Fb & Fc & Dab & Dac & Dbc).
      assert (Hnr : FmeRefine.nonzero (S n) (on_facet V r)) by (apply (RotationTheorems.any_nonzero order (S n) V Ho HD fa fb); auto).
      assert (O := RotationTheorems.rotated_outcome SAFE order (S n) V Ht Ho HR HD r Fr Rr Hnr). assert (K := fun R => RotationTheorems.rotated_representable SAFE order (S n) V Ht Ho HR HD r R Fr Rr Hnr).
      unfold m_rotation. change (num (arith SAFE)) with Z in *. destruct (m_rotated (arith SAFE) order V r) as [R| |] eqn:ER; cbn [bind outcome fine] in *; auto; [|destruct O; discriminate].
      eapply fine_weaken; [|apply (safe_classes_of (S n) Facet_tag reduced (a_maps _ _ _ HA) fuel R)]; auto. intros x Hx'. destruct (K R eq_refl) as (-> & RR). unfold rows_representable in RR. rewrite Forall_forall in RR. split; auto.
      destruct (rotated_ridge (S n) V order HD Ho r x Fr Hx') as (_ & _ & _ & _ & _ & _ & Ha). apply Ha.
    Qed.
    Lemma safe_printed_facets rows : (forall r, In r rows -> AdTheorems.good_row SAFE (S n) V reduced r) -> exists lines, m_pretty_matrix SAFE names "<=" rows = say lines.
    Proof.
      intros Hg. destruct (homogenised_pos (S n) V HD HH) as (Hn & Hl & Hnz). assert (EF := result_fme EXACT order (S n) V Hx Ho HRx HD F Hnz HF).
      destruct (facets_printable EXACT order n V F names Hx Ho HRx HD HH HNl HF BF) as [DF PF].
      assert (HI : forall r, In r rows -> In r F \/ r = trivial_row (S n)).
      { intros r Hr. destruct (Hg r Hr) as (G1 & G2 & _). rewrite EF. apply (RotationTheorems.all_rows_fme order (S n) V Ho HD HH). apply (RotationTheorems.all_rows_iff order (S n) V Ho HD). auto. }
      destruct (ad_matrix SAFE names n rows HN HNl) as (lines & P & E2 & _); [| |eauto].
      - apply Forall_forall. intros r Hr. apply (proj1 (proj1 (Hg r Hr))).
      - intros r Hr. destruct (HI r Hr) as [Hq|Hq]; auto. left. rewrite Forall_forall in PF. auto.
    Qed.
  End Reduced.

  Lemma facet_ad_safe threads out e : m_ad_stops SAFE order fuel V names maps known out e \/ m_ad_fails SAFE order fuel threads V names maps known e -> e = Status 1 \/ e = Terminated.
  Proof.
    destruct (homogenised_pos (S n) V HD HH) as (Hn & Hl & Hnz). destruct (C21_safe_elimination order (S n) V Ho HR HD Hnz) as (_ & _ & S1). rewrite HE in S1.
    destruct H3 as (fa & fb & fc & Fa & Fb & Fc & Dab & Dac & Dbc).
    intros [H|H].
    - unfold m_ad_stops in H. destruct S1 as [S1|S1]; change (num (arith SAFE)) with Z in *; rewrite S1 in H; [|tauto].
      destruct (equations_printable EXACT n V E names Hx HRx HD HH HNl HE BE) as [DE PE]. destruct (matrix_denotes SAFE Equation names n E HN PE DE HNl) as (equations & Pe & E1 & _). unfold relation_sign in E1.
      assert (EH : exists head, m_ad_equations SAFE names E = say head).
      { unfold m_ad_equations. destruct E as [|e0 E0]; [eauto|]. rewrite E1. cbn [say andthen fst snd]. eexists. reflexivity. }
      destruct EH as (head & EH). rewrite EH in H. cbn [say] in H. assert (Q := safe_reduce).
      destruct (m_ad_reduce SAFE V maps) as [[E' reduced]| |] eqn:ER; [|tauto|destruct Q]. destruct (safe_reduced E' reduced ER) as (-> & HES & HA). assert (Q2 := safe_start_facets reduced HES HA).
      destruct (m_ad_start SAFE order fuel V E reduced known) as [[start|]| |] eqn:Es; cbn [fine] in Q2; [|destruct H|tauto|destruct Q2].
      destruct H as (lines & r & X & N & _ & ->). destruct (safe_printed_facets reduced (m_new_rows start)) as (l & El).
      + intros x Hx'. apply new_rows_in in Hx' as [[]|Hx']. apply (AdRun.start_good SAFE order (S n) V E reduced fuel Ht Ho HR HD HH HES HA fa fb Fa Fb Dab known start); auto.
      + rewrite El in X. unfold say in X. congruence.
    - destruct H as [(E' & reduced & start & k & ER & Es & X & _)|(E' & reduced & start & added & ls & s & r & ER & Es & Ea & Hrun & H)]; destruct (safe_reduced E' reduced ER) as (-> & HES & HA).
      { exfalso. assert (Q := safe_known_facets reduced HES HA (firstn k known)). rewrite X in Q. apply Q. intros x Hx'. rewrite <- (firstn_skipn k known). apply in_app_iff. auto. }
      assert (G := AdRun.closure_all_good SAFE order (S n) V E reduced fuel Ht Ho HR HD HH HES HA fa fb Fa Fb Dab known start added Hk Es Ea).
      assert (Hnem : forall r, closure (m_ad_neighbours SAFE order fuel V reduced) (start ++ added) r -> r <> []) by (intros x Hx'; apply (AdRun.good_not_empty SAFE (S n) V reduced HD HH); auto).
      assert (C := ListTheorems.r_contents _ start added threads 0 Hnem ls s Hrun).
      assert (Hgp : forall x, In x (printed (sh s)) -> AdTheorems.good_row SAFE (S n) V reduced x) by (intros x Hx'; apply G; apply (ListProofs.c_held _ _ _ _ C); right; right; right; right; auto).
      destruct H as [(Hr & [(_ & ->)|(HU & ->)])|(Hr & _ & _ & [(_ & ->)|(HU & ->)])]; auto; exfalso.
      + assert (Q := safe_rotation_facets reduced HA r). rewrite HU in Q. apply Q. apply Hgp. rewrite (ListProofs.c_fifo _ _ _ _ C). apply in_app_iff. auto.
      + destruct (safe_printed_facets reduced [r]) as (l & El); [intros x [<-|[]]; auto|]. change (num (arith SAFE)) with Z in *. rewrite El in HU. discriminate.
  Qed.
End Safe_facets.
