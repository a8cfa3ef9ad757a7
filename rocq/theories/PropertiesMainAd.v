(** * PropertiesMainAd: the whole program, adjacency decomposition of inequalities and files with symmetry maps (C53). *)
From Coq Require Import List ZArith QArith Arith Bool Ascii String Lia Lqa Permutation.
From Verif Require Import Base Spec LinAlg Cone ListUtil ArithModel MatrixModel FmeModel SafeIntModel IntTypes RowLcm StreamModel StreamProofs SortModel CliModel PropertiesCli InputModel InputProofs VertexInput ClassesModel
  ConstraintModel ConstraintInput ConstraintSection PropertiesVertices PropertiesConstraints OutputModel OutputProofs PropertiesOutput Hull Corners FmeCore FmePure FmePrepare FmeCorrect Refine MatrixRefine FmeRefine FmeTheorems DimTheorems NormTheorems
  Samples ClassesProofs ApplyTheorems OrbitTheorems OrbitExact PropertiesMaps PropertiesFme MapModel PropertiesProgram RotationModel RotationTheorems PropertiesRotation HeuristicTheorems
  NormalForm Symmetry Adjacency PropertiesAd HullSame VertexSymmetry VertexImages PropertiesReduced FileModel FileProofs FileInput SystemFile PropertiesFile PropertiesSystem PropertiesMapFile
  ListModel AdModel VertexAdModel VertexGraph VertexEdge VertexAd VertexAdExact SafeClasses SafeFacets PropertiesVertexAd MainModel ModeDetection ListExec PropertiesMain.
Import ListNotations.
Open Scope nat_scope.
Open Scope list_scope.

(** ** Vertex enumeration by adjacency decomposition (the default method) *)
Lemma hidden_edge_ext n (sol sol' : list Q -> Prop) : (forall p, length p = n -> (sol p <-> sol' p)) -> no_hidden_edge n sol -> no_hidden_edge n sol'.
Proof.
  intros E H. assert (V : forall p, vertex_in n sol' p -> vertex_in n sol p).
  { intros p (L & P & K). split; auto. split; [apply E; auto|]. intros q r c Hq Hr Sq Sr. apply K; auto; apply E; auto. }
  assert (D : forall p r, part_of_edge n sol' p r -> part_of_edge n sol p r).
  { intros p r (L1 & L2 & S1 & S2 & N & K). split; auto. split; auto. split; [apply E; auto|]. split; [apply E; auto|]. split; auto.
    intros m x y c d Lm Lx Ly Sx Sy. apply K; auto; apply E; auto. }
  intros p. destruct (H p) as (H1 & H2). split.
  - intros (P & r & t & Ht & Hr & K). apply H1. split; auto. exists r, t. auto.
  - intros (P & Z & r & t & Ht & Hr & K). apply H2. split; auto. split; auto. exists r, t. auto.
Qed.
(** What the rows of the printed lines have to be: vertices and extreme directions of the system, no two of them in one class. *)
Definition lists_generators (n : nat) (s : system) (rows : list vec) : Prop :=
  homogeneous n rows /\
  (forall q, In q (points_of rows) -> vertex_of n (all_satisfied (constraints_of s)) q) /\
  listed_once (fun p q => exists p', moved (s_maps s) p p' /\ same_point p' q) (points_of rows) /\
  (forall d, In d (rays_of rows) -> extreme_move n (constraints_of s) d) /\
  listed_once (fun d e => exists d', turned (s_maps s) d d' /\ multiple d' e) (rays_of rows).
(** One of every class. *)
Definition lists_all_generators (n : nat) (s : system) (rows : list vec) : Prop :=
  (forall p, vertex_of n (all_satisfied (constraints_of s)) p -> exists q p', In q (points_of rows) /\ moved (s_maps s) p p' /\ same_point p' q) /\
  (forall d, extreme_move n (constraints_of s) d -> exists e d', In e (rays_of rows) /\ turned (s_maps s) d d' /\ multiple d' e).

(** Whenever the program ends with status 0, whatever the number of threads and their schedule, it has printed vertices and extreme directions of the solutions of the system in the file, one of each class
    that the maps of the file carry to each other, as rows with a last entry; and none is missing if no edge is hidden. *)
Theorem C53_vertex_adjacency : forall t order fs args name so content s n (F : list vec),
  t <> INT16 -> sort_order order -> Forall ordinary args -> chooses_method args AdjacencyDecomposition -> chooses_type args t ->
  asks args name so -> fs name = Some content -> early_keyword content -> system_text no_system (Some content) s -> ~ describes_hull content -> describes_system content ->
  fits_together s n -> equations_fit s n -> 0 < n -> constraint_symmetries s n -> pointed n (constraints_of s) ->
  m_fme (arith EXACT) order (system_rows s so) = Ok F -> Forall negatable_row F ->
  exists fuel0, forall texts fuel hardware out, fuel0 <= fuel -> m_main texts order fs fuel hardware args out (Status 0) ->
    exists lines (rows : list vec),
      out = (if nonempty (s_maps s) then lit "Reduced " else []) ++ lit "Vertices / Rays:" ++ newline :: lines /\ section_lines lines (map whole rows) /\ NoDup rows /\
      lists_generators n s rows /\
      (no_hidden_edge n (all_satisfied (constraints_of s)) -> lists_all_generators n s rows).
Proof.
  intros t order fs args name so content s n F Ht Ho HO HM HT HA HF HK HX HS1 HS2 Hn He H0 Hsym HP HE HB.
  assert (HS := system_sound _ _ _ HX no_system_sound). destruct (system_rows_facts s so n Hn He HS) as (HD & HU & HR).
  destruct (input_inequalities_ok fs args name so content s HA HF HK HX) as (f0 & K). assert (EC := proj2 (fits_together_iff s HS) (ex_intro _ n Hn)). assert (NL := pointed_no_line s so n Hn He HS HP).
  assert (SC := fun p => system_corner s so n p Hn He HS). assert (SE := fun p => system_extreme s so n p Hn He HS).
  exists f0. intros texts fuel hardware out Hf H.
  destruct (C53_mode fs args name content HO (proj1 HA) HF) as (_ & _ & M). apply (main_mode texts order fs fuel hardware args _ (M (conj HS1 HS2))), (vertex_main order fs fuel hardware args _ t HM HT) in H.
  unfold m_vertex_ad in H. rewrite (K fuel Hf), EC in H. rewrite cast_rows_same in H by auto. cbn [m_cast_rows map] in H.
  destruct (C37_threads_positive hardware args) as [_ TP]. destruct (m_number_of_threads hardware args) as [threads| |]; [|destruct H; discriminate|discriminate]. specialize (TP threads eq_refl).
  destruct H as [(_ & st & H)|[H|H]].
  - destruct (C57_text t order n (system_rows s so) F (s_maps s) fuel (Z.to_nat threads) [] st out Ht Ho (HR t Ht) HD H0 NL HU (system_symmetric s so n Hn He HS Hsym) ltac:(intros r []) ltac:(lia) HE HB H)
      as (lines & rows & EO & W & ND & (G1 & G2 & G3 & G4 & G5) & G6).
    exists lines, rows. split; auto. split; auto. split; auto. split.
    + split; auto. split; [intros q Hq; apply SC; auto|]. split; auto. split; [intros d Hd; apply SE; auto|auto].
    + intros HE'. destruct G6 as (C1 & C2).
      * apply (hidden_edge_ext n (all_satisfied (constraints_of s))); auto. intros p Hp. symmetry. apply (solves_system s so n); auto.
      * split; [intros p Hp; apply C1; apply SC; auto|intros d Hd; apply C2; apply SE; auto].
  - exfalso. unfold m_vad_stops in H. match type of H with context [m_vad_start ?a ?b ?c ?d ?e ?f] => destruct (m_vad_start a b c d e f) as [[start|]| |] end; [|destruct H|destruct H; discriminate|discriminate].
    destruct H as (lines & r & _ & N & _ & X). destruct r as [[]| |]; [congruence|discriminate|discriminate].
  - exfalso. destruct H as [(? & ? & _ & _ & X)|H]; [discriminate|]. destruct H as (? & ? & ? & ? & ? & _ & _ & _ & [(_ & [(_ & X)|(_ & X)])|(_ & _ & _ & [(_ & X)|(_ & X)])]); discriminate.
Qed.
Print Assumptions C53_vertex_adjacency.

(** With SafeInteger nothing is undefined. *)
Section Safe_rows.
  Variables (order : list nat -> list nat) (n : nat) (A F : list vec) (maps : list lmap) (fuel : nat) (known : list vec).
  Hypothesis Ho : sort_order order.
  Hypothesis HR : rows_representable SAFE A.
  Hypothesis HA : dims (S n) A.
  Hypothesis Hn : 0 < n.
  Hypothesis HL : no_line (S n) A.
  Hypothesis HU : In (unit_vec (S n) n (-1)) A.
  Hypothesis Hsym : system_symmetries n A maps.
  Hypothesis Hk : known_rays SAFE n A known.
  Hypothesis HF : m_fme (arith EXACT) order A = Ok F.
  Hypothesis BF : Forall negatable_row F.
  Let Ht : SAFE <> INT16 := ltac:(discriminate).
  Let HM := symmetries_permuting n A maps Hsym.
  Let HMm : Forall (map_in (S n)) maps := v_maps n A maps HM.

  Lemma safe_normalised r : extreme_ray (S n) A r -> Forall (representable SAFE) r -> fine (safe_row (S n)) (m_normalize (arith SAFE) r []).
  Proof.
    intros Er Rr. assert (LO : leads_ok (S n) []) by (split; [constructor|intros i Hi; cbn in Hi; lia]). assert (Hl : length r = S n) by apply Er.
    assert (Nr := normalize_rel _ _ (arith SAFE) (sound_type SAFE Ht) (S n) r r [] [] (vec_rel SAFE Ht r Rr) (Forall2_nil _) Hl LO).
    assert (K := fun r' => v_normalised SAFE order n A Ht Ho HA HL r r' Er Rr).
    match type of Nr with rel _ _ _ ?x _ => change (fine (safe_row (S n)) x); destruct x as [r'| |] end; cbn [fine rel may_be_undefined] in *; auto; [|discriminate].
    destruct (K r' eq_refl) as (I & R'). split; auto. apply (v_rows order n A Ho HA HL) in I. apply I.
  Qed.
  Lemma safe_known l : (forall r, In r l -> In r known) -> fine (when_some (safe_rows (S n))) (m_vad_known SAFE fuel maps l).
  Proof.
    intros Hl. unfold m_vad_known. apply (fine_bind (safe_rows (S n))); [|intros rows Hr; apply safe_vertex_representatives; auto].
    induction l as [|r l IH]; cbn [mapM]; [intros x []|]. destruct (Hk r (Hl r (or_introl eq_refl))) as (Er & Rr).
    eapply fine_bind; [apply safe_normalised; auto|]. intros r' Hr'. eapply fine_bind; [apply IH; intros x Hx; apply Hl; right; auto|]. intros rows Hrows x [<-|Hx]; auto.
  Qed.
  Lemma safe_start : fine (fun _ => True) (m_vad_start SAFE order fuel A maps known).
  Proof.
    unfold m_vad_start. assert (K := safe_known (firstn 1 known) (fun x Hx => eq_rect _ (fun l => In x l) (in_or_app (firstn 1 known) (skipn 1 known) x (or_introl Hx)) _ (firstn_skipn 1 known))).
    generalize dependent known. intros [|r known'] _ K; [|cbn [firstn] in K; eapply fine_weaken; [|exact K]; auto]. clear K.
    assert (O := heuristic_outcome SAFE order (S n) A Ht Ho HR HA (v_nonzero n A HU)).
    assert (RR := fme_heuristic_rel _ _ (arith SAFE) (sound_type SAFE Ht) order Ho (S n) A A (rows_rel SAFE Ht A HR) HA (v_nonzero n A HU)).
    change (num (arith SAFE)) with Z in *. destruct (m_fme_heuristic (arith SAFE) order A) as [St| |] eqn:ES; cbn [bind outcome fine] in *; auto; [|destruct O; discriminate].
    eapply fine_weaken; [|apply (safe_vertex_representatives (S n)); auto]; auto. intros x Hx. cbn [rel] in RR. apply rel_rows in RR. destruct RR as (_ & RR). unfold rows_representable in RR. rewrite Forall_forall in RR.
    split; auto. subst St. assert (I : In x (all_rows order (S n) A)) by (apply heuristic_incl; auto). apply (v_rows order n A Ho HA HL) in I. apply I.
  Qed.
  Lemma safe_rotation r : v_good SAFE order n A maps r -> fine (fun _ => True) (m_rotation (arith SAFE) order fuel A r maps Vertex_tag).
  Proof.
    intros (Hr & Rr & _). apply (v_rows order n A Ho HA HL) in Hr as (Er & _). assert (Ff := proj1 (v_facet n A HA HL r) Er). assert (Ft := v_tight n A HL Hn r Ff).
    assert (O := RotationTheorems.rotated_outcome SAFE order (S n) A Ht Ho HR HA r Ff Rr Ft). assert (K := fun R => RotationTheorems.rotated_representable SAFE order (S n) A Ht Ho HR HA r R Ff Rr Ft).
    unfold m_rotation. change (num (arith SAFE)) with Z in *. destruct (m_rotated (arith SAFE) order A r) as [R| |] eqn:ER; cbn [bind outcome fine] in *; auto; [|destruct O; discriminate].
    eapply fine_weaken; [|apply (safe_classes_of (S n) Vertex_tag maps HMm fuel R)]; auto. intros x Hx. destruct (K R eq_refl) as (-> & RR). unfold rows_representable in RR. rewrite Forall_forall in RR. split; auto.
    destruct (rotated_ridge (S n) A order HA Ho r x Ff Hx) as (_ & _ & _ & _ & _ & _ & Ha). apply Ha.
  Qed.
  Lemma safe_printed rows : (forall r, In r rows -> v_good SAFE order n A maps r) -> exists lines, m_raw_lines SAFE rows = say lines.
  Proof. intros Hg. destruct (p_dims SAFE order n A F maps rows) as (D1 & _ & D3); auto. destruct (raw_lines SAFE n rows D1 D3) as (lines & E & _). eauto. Qed.
  Lemma vertex_ad_safe threads out e : 0 < threads -> m_vad_stops SAFE order fuel A maps known out e \/ m_vad_fails SAFE order fuel threads A maps known e -> e = Status 1 \/ e = Terminated.
  Proof.
    intros Hth [H|H].
    - unfold m_vad_stops in H. assert (Q := safe_start). destruct (m_vad_start SAFE order fuel A maps known) as [[start|]| |] eqn:Es; cbn [fine] in Q; [|destruct H|tauto|destruct Q].
      destruct H as (lines & r & X & N & _ & ->). destruct (v_start SAFE order n A maps fuel Ht Ho HR HA HU HL HM known start Hk Es) as (G & _).
      destruct (safe_printed (m_new_rows start)) as (l & El); [intros x Hx'; apply new_rows_in in Hx' as [[]|Hx']; apply G; auto|]. rewrite El in X. unfold say in X. congruence.
    - destruct H as [(start & k & _ & X & _)|(start & added & ls & s & r & Es & Ea & Hrun & H)].
      { exfalso. assert (Q := safe_known (firstn k known)). rewrite X in Q. apply Q. intros x Hx. rewrite <- (firstn_skipn k known). apply in_app_iff. auto. }
      destruct (v_run SAFE order n A maps fuel Ht Ho HR HA HU HL HM Hn known start added threads ls s Hk Hth Es Ea Hrun) as (_ & G & _).
      destruct H as [(Hr & [(_ & ->)|(HUB & ->)])|(Hr & _ & _ & [(_ & ->)|(HUB & ->)])]; auto; exfalso.
      + assert (Q := safe_rotation r). rewrite HUB in Q. apply Q. apply G.
        assert (G2 := v_start SAFE order n A maps fuel Ht Ho HR HA HU HL HM known start Hk Es). assert (G3 := v_added SAFE order n A maps fuel Ht Ho HA HL HM known added Hk Ea).
        assert (CG : forall r, closure (m_vad_neighbours SAFE order fuel A maps) (start ++ added) r -> r <> []).
        { intros x Hx. apply (v_not_empty SAFE order n A maps Ho HA HL). apply (v_closure SAFE order n A maps fuel Ht Ho HR HA HL HM Hn (start ++ added)); auto. intros z Hz. apply in_app_iff in Hz as [Hz|Hz]; [apply G2|apply G3]; auto. }
        assert (C := ListTheorems.r_contents _ start added threads 0 CG ls s Hrun). rewrite (ListProofs.c_fifo _ _ _ _ C). apply in_app_iff. auto.
      + destruct (safe_printed [r]) as (l & El); [intros x [<-|[]]; auto|]. rewrite El in HUB. discriminate.
  Qed.
End Safe_rows.
(** With "-i safe" the program ends with status 0, and then the previous theorem describes the output; or an overflow ends it with status 1, if it happens in the main thread, or terminates it, if it happens in a worker thread. *)
Theorem C53_vertex_adjacency_safe : forall order fs args name so content s n (F : list vec),
  sort_order order -> Forall ordinary args -> chooses_method args AdjacencyDecomposition -> chooses_type args SAFE ->
  asks args name so -> fs name = Some content -> early_keyword content -> system_text no_system (Some content) s -> ~ describes_hull content -> describes_system content ->
  fits_together s n -> equations_fit s n -> 0 < n -> constraint_symmetries s n -> pointed n (constraints_of s) ->
  m_fme (arith EXACT) order (system_rows s so) = Ok F -> Forall negatable_row F ->
  exists fuel0, forall texts fuel hardware out e, fuel0 <= fuel -> m_main texts order fs fuel hardware args out e -> e = Status 0 \/ e = Status 1 \/ e = Terminated.
Proof.
  intros order fs args name so content s n F Ho HO HM HT HA HF HK HX HS1 HS2 Hn He H0 Hsym HP HE HB.
  assert (HS := system_sound _ _ _ HX no_system_sound). destruct (system_rows_facts s so n Hn He HS) as (HD & HU & HR).
  destruct (input_inequalities_ok fs args name so content s HA HF HK HX) as (f0 & K). assert (EC := proj2 (fits_together_iff s HS) (ex_intro _ n Hn)). assert (NL := pointed_no_line s so n Hn He HS HP).
  exists f0. intros texts fuel hardware out e Hf H.
  destruct (C53_mode fs args name content HO (proj1 HA) HF) as (_ & _ & M). apply (main_mode texts order fs fuel hardware args _ (M (conj HS1 HS2))), (vertex_main order fs fuel hardware args _ SAFE HM HT) in H.
  unfold m_vertex_ad in H. rewrite (K fuel Hf), EC in H. rewrite cast_rows_same in H by (auto; discriminate). cbn [m_cast_rows map] in H.
  destruct (C37_threads_positive hardware args) as [TU TP]. destruct (m_number_of_threads hardware args) as [threads| |]; [|tauto|congruence]. specialize (TP threads eq_refl).
  destruct H as [(-> & _)|H]; auto. right.
  apply (vertex_ad_safe order n (system_rows s so) F (s_maps s) fuel [] Ho (HR SAFE ltac:(discriminate)) HD H0 NL HU (system_symmetric s so n Hn He HS Hsym) ltac:(intros r []) HE HB (Z.to_nat threads) out e); auto. lia.
Qed.
Print Assumptions C53_vertex_adjacency_safe.

(** ** Files with symmetry maps *)
(** Double description with maps that are symmetries: whenever the program ends with status 0, the equations and the images of the printed inequalities describe the hull. *)
Theorem C53_facets_reduced : forall t order fs args name so content c n (E F : list vec),
  t <> INT16 -> sort_order order -> Forall ordinary args -> chooses_method args DoubleDescription -> chooses_type args t ->
  asks args name so -> fs name = Some content -> early_keyword content -> file_text nothing (Some content) c -> ~ describes_system content ->
  agree c n -> c_points c <> [] -> file_symmetries c n -> maps_normalise t n E (c_maps c) -> good_names (c_names c) ->
  m_extract_equations (arith t) (file_rows c so) = Ok E -> m_fme (arith t) order (file_rows c so) = Ok F -> Forall negatable_row E -> Forall negatable_row F ->
  exists fuel0, forall texts fuel hardware out, fuel0 <= fuel -> m_main texts order fs fuel hardware args out (Status 0) ->
    exists equations Pe inequalities Pf,
      out = facet_text equations inequalities (match Pe with [] => true | _ => false end) (nonempty (c_maps c)) /\
      written (denotes (c_names c) n Equation) equations Pe /\ written (denotes (c_names c) n Inequality) inequalities Pf /\
      forall p : list Q, length p = n ->
        (hull n (map coordinates_of (c_points c)) (map coordinates_of (c_rays c)) p <->
         (forall k, In k Pe -> satisfies k p) /\ forall q k, moved (c_maps c) p q -> In k Pf -> satisfies k q).
Proof.
  intros t order fs args name so content c n E F Ht Ho HO HM HT HA HF HK HX HS HG Hne Hsym Hnorm HN HE HFm BE BF.
  destruct (C48_reduced t order fs args name so content c n E F Ht Ho HA HF HK HX HG Hne Hsym Hnorm HN HE HFm BE BF) as (f0 & K). exists f0. intros texts fuel hardware out Hf H.
  destruct (C53_mode fs args name content HO (proj1 HA) HF) as (_ & M & _). apply (main_mode texts order fs fuel hardware args _ (M HS)), (facet_main order fs fuel hardware args _ t HM HT) in H.
  destruct (m_facet_program t order fs fuel args) as [[o r]|] eqn:Ep; [|destruct H]. destruct H as (<- & H). destruct r as [[]| |]; try discriminate H.
  destruct (K fuel out Hf Ep) as (equations & Pe & inequalities & Pf & R & E1 & W1 & W2 & _ & HQ & _). exists equations, Pe, inequalities, Pf. auto.
Qed.
Print Assumptions C53_facets_reduced.
(** Adjacency decomposition. *)
Theorem C53_adjacency_reduced : forall t order fs args name so content c n (E F : list vec),
  t <> INT16 -> sort_order order -> Forall ordinary args -> chooses_method args AdjacencyDecomposition -> chooses_type args t ->
  asks args name so -> fs name = Some content -> early_keyword content -> file_text nothing (Some content) c -> ~ describes_system content ->
  agree c n -> c_points c <> [] -> file_symmetries c n -> equations_allow t n E (c_maps c) -> good_names (c_names c) -> three_different_facets (S n) (file_rows c so) ->
  m_extract_equations (arith EXACT) (file_rows c so) = Ok E -> m_fme (arith EXACT) order (file_rows c so) = Ok F -> Forall negatable_row E -> Forall negatable_row F ->
  exists fuel0, forall texts fuel hardware out, fuel0 <= fuel -> m_main texts order fs fuel hardware args out (Status 0) ->
    exists equations Pe inequalities Pf,
      out = facet_text equations inequalities (match Pe with [] => true | _ => false end) (nonempty (c_maps c)) /\
      written (denotes (c_names c) n Equation) equations Pe /\ written (line_denotes (c_names c) n Inequality) inequalities Pf /\
      forall p : list Q, length p = n ->
        (hull n (map coordinates_of (c_points c)) (map coordinates_of (c_rays c)) p <->
         (forall k, In k Pe -> satisfies k p) /\ forall q k, moved (c_maps c) p q -> In k Pf -> satisfies k q).
Proof.
  intros t order fs args name so content c n E F Ht Ho HO HM HT HA HF HK HX HS HG Hne Hsym Hal HN H3 HE HFm BE BF.
  assert (HSane := file_is_sane (Some content) c HX).
  destruct (file_rows_facts c so n HSane HG Hne) as (HP & HD & HH & HR). assert (HNl : c_names c = [] \/ length (c_names c) = n) by apply HG.
  destruct (input_vertices_ok fs args name so content c HA HF HK HX) as (f0 & K).
  assert (HC : m_consistent_vertices (map point_row (c_points c)) (map ray_row (c_rays c)) (c_names c) (c_maps c) (match c_dimension c with Some d => d | None => size_max end) = Ok tt).
  { apply consistent_iff; [|apply agree_iff; eauto]. destruct HSane as (_ & _ & Hd). destruct (c_dimension c); unfold size_max in *; lia. }
  exists f0. intros texts fuel hardware out Hf H.
  destruct (C53_mode fs args name content HO (proj1 HA) HF) as (_ & M & _). apply (main_mode texts order fs fuel hardware args _ (M HS)), (facet_main order fs fuel hardware args _ t HM HT) in H.
  unfold m_facet_ad in H. rewrite (K fuel Hf), HC in H. rewrite cast_rows_same in H by auto. cbn [m_cast_rows map] in H.
  destruct (C37_threads_positive hardware args) as [_ TP]. destruct (m_number_of_threads hardware args) as [threads| |]; [|destruct H; discriminate|discriminate]. specialize (TP threads eq_refl).
  destruct H as [(_ & s & H)|[H|H]].
  - destruct (C52_symmetric_facets t order n (file_rows c so) E F (c_names c) (c_maps c) fuel (Z.to_nat threads) [] s out Ht Ho (HR t Ht) HD HH H3 (file_symmetric c so n HSane HG Hsym) Hal ltac:(intros r []) ltac:(lia) HN HNl HE HFm BE BF H)
      as (equations & Pe & inequalities & Pf & EO & W1 & W2 & _ & HQ).
    exists equations, Pe, inequalities, Pf. split; auto. split; auto. split; auto. intros p Hp. rewrite <- (HQ p Hp). symmetry. apply rows_hull; auto; apply HSane.
  - exfalso. unfold m_ad_stops in H. destruct (m_extract_equations (arith t) (file_rows c so)) as [E'| |]; [|destruct H; discriminate|discriminate].
    destruct (m_ad_equations t (c_names c) E') as [head r]. destruct r as [[]| |]; [|destruct H; discriminate|destruct H; discriminate].
    destruct (m_ad_reduce t (file_rows c so) (c_maps c)) as [[? reduced]| |]; [|destruct H; discriminate|discriminate].
    match type of H with context [m_ad_start ?a ?b ?c ?d ?e ?f ?g] => destruct (m_ad_start a b c d e f g) as [[start|]| |] end; [|destruct H|destruct H; discriminate|discriminate].
    destruct H as (lines & r & _ & N & _ & X). destruct r as [[]| |]; [congruence|discriminate|discriminate].
  - exfalso. destruct H as [(? & ? & ? & ? & _ & _ & _ & X)|H]; [discriminate|]. destruct H as (? & ? & ? & ? & ? & ? & ? & _ & _ & _ & _ & [(_ & [(_ & X)|(_ & X)])|(_ & _ & _ & [(_ & X)|(_ & X)])]); discriminate.
Qed.
Print Assumptions C53_adjacency_reduced.
(** With "-i safe" nothing is undefined, unless the maps cannot be normalised with the equations (coefficients of maps are of type int, see C28). *)
Theorem C53_adjacency_reduced_safe : forall order fs args name so content c n (E F : list vec),
  sort_order order -> Forall ordinary args -> chooses_method args AdjacencyDecomposition -> chooses_type args SAFE ->
  asks args name so -> fs name = Some content -> early_keyword content -> file_text nothing (Some content) c -> ~ describes_system content ->
  agree c n -> c_points c <> [] -> file_symmetries c n -> equations_allow SAFE n E (c_maps c) -> (E <> [] -> m_normalize_maps SAFE E (c_maps c) <> UB) -> good_names (c_names c) -> three_different_facets (S n) (file_rows c so) ->
  m_extract_equations (arith EXACT) (file_rows c so) = Ok E -> m_fme (arith EXACT) order (file_rows c so) = Ok F -> Forall negatable_row E -> Forall negatable_row F ->
  exists fuel0, forall texts fuel hardware out e, fuel0 <= fuel -> m_main texts order fs fuel hardware args out e -> e = Status 0 \/ e = Status 1 \/ e = Terminated.
Proof.
  intros order fs args name so content c n E F Ho HO HM HT HA HF HK HX HS HG Hne Hsym Hal Hu HN H3 HE HFm BE BF.
  assert (HSane := file_is_sane (Some content) c HX).
  destruct (file_rows_facts c so n HSane HG Hne) as (HP & HD & HH & HR). assert (HNl : c_names c = [] \/ length (c_names c) = n) by apply HG.
  destruct (input_vertices_ok fs args name so content c HA HF HK HX) as (f0 & K).
  assert (HC : m_consistent_vertices (map point_row (c_points c)) (map ray_row (c_rays c)) (c_names c) (c_maps c) (match c_dimension c with Some d => d | None => size_max end) = Ok tt).
  { apply consistent_iff; [|apply agree_iff; eauto]. destruct HSane as (_ & _ & Hd). destruct (c_dimension c); unfold size_max in *; lia. }
  exists f0. intros texts fuel hardware out e Hf H.
  destruct (C53_mode fs args name content HO (proj1 HA) HF) as (_ & M & _). apply (main_mode texts order fs fuel hardware args _ (M HS)), (facet_main order fs fuel hardware args _ SAFE HM HT) in H.
  unfold m_facet_ad in H. rewrite (K fuel Hf), HC in H. rewrite cast_rows_same in H by (auto; discriminate). cbn [m_cast_rows map] in H.
  destruct (C37_threads_positive hardware args) as [TU TP]. destruct (m_number_of_threads hardware args) as [threads| |]; [|tauto|congruence].
  destruct H as [(-> & _)|H]; [auto|]. right.
  apply (facet_ad_safe order n (file_rows c so) E F (c_names c) (c_maps c) fuel [] Ho (HR SAFE ltac:(discriminate)) HD HH H3 (or_intror (conj (file_symmetric c so n HSane HG Hsym) Hal)) Hu ltac:(intros r []) HN HNl HE HFm BE BF (Z.to_nat threads) out e); auto.
Qed.
Print Assumptions C53_adjacency_reduced_safe.
(** Vertex enumeration by double description with maps. *)
Theorem C53_vertices_reduced : forall t order fs args name so content s n (F : list vec),
  t <> INT16 -> sort_order order -> Forall ordinary args -> chooses_method args DoubleDescription -> chooses_type args t ->
  asks args name so -> fs name = Some content -> early_keyword content -> system_text no_system (Some content) s -> ~ describes_hull content -> describes_system content ->
  fits_together s n -> equations_fit s n -> 0 < n -> constraint_symmetries s n -> pointed n (constraints_of s) ->
  m_fme (arith t) order (system_rows s so) = Ok F -> Forall negatable_row F ->
  exists fuel0, forall texts fuel hardware out, fuel0 <= fuel -> m_main texts order fs fuel hardware args out (Status 0) ->
  exists vertices P rays R,
    out = vertex_text vertices rays (match P with [] => true | _ => false end) (match R with [] => true | _ => false end) (nonempty (s_maps s)) /\
    section_lines vertices P /\ section_lines rays R /\
    (forall p : list Q, length p = n -> (all_satisfied (constraints_of s) p <-> exists points directions,
      (forall q, In q points -> exists q0, In q0 (map coordinates_of P) /\ moved (s_maps s) q0 q) /\ (forall d, In d directions -> exists d0, In d0 (map coordinates_of R) /\ turned (s_maps s) d0 d) /\
      hull n points directions p)) /\
    (forall p, vertex_of n (all_satisfied (constraints_of s)) p -> exists q p', In q (map coordinates_of P) /\ moved (s_maps s) p p' /\ same_point p' q) /\
    listed_once (fun p q => exists p', moved (s_maps s) p p' /\ same_point p' q) (map coordinates_of P) /\
    (forall d, extreme_move n (constraints_of s) d -> exists e d', In e (map coordinates_of R) /\ turned (s_maps s) d d' /\ multiple d' e) /\
    listed_once (fun d e => exists d', turned (s_maps s) d d' /\ multiple d' e) (map coordinates_of R).
Proof.
  intros t order fs args name so content s n F Ht Ho HO HM HT HA HF HK HX HS1 HS2 Hn He H0 Hsym HP HE HB.
  destruct (C50_reduced t order fs args name so content s n F Ht Ho HA HF HK HX Hn He H0 Hsym HP HE HB) as (f0 & K). exists f0. intros texts fuel hardware out Hf H.
  destruct (C53_mode fs args name content HO (proj1 HA) HF) as (_ & _ & M). apply (main_mode texts order fs fuel hardware args _ (M (conj HS1 HS2))), (vertex_main order fs fuel hardware args _ t HM HT) in H.
  destruct (m_vertex_program t order fs fuel args) as [[o r]|] eqn:Ep; [|destruct H]. destruct H as (<- & H). destruct r as [[]| |]; try discriminate H.
  destruct (K fuel out Hf Ep) as (vertices & P & rays & R & E1 & W1 & W2 & X1 & _ & X2 & X3 & _ & X4 & X5). exists vertices, P, rays, R. auto 10.
Qed.
Print Assumptions C53_vertices_reduced.

(** ** A concrete call: the file of C50 with the segment x + y = 1, x >= 0, 2y >= 0 and the map that exchanges x and y *)
Lemma swapped_mode : ~ describes_hull swapped /\ describes_system swapped.
Proof.
  split.
  - intros [H|H]; revert H; apply not_said; exists false, false, true; (split; [vm_compute; reflexivity|auto]).
  - exists (lit "Inequalities:"). split; [|apply keyword_itself; vm_compute; tauto].
    exists (line "Names:" ++ line "x y" ++ line "" ++ line "Maps:" ++ line "y x" ++ line "" ++ line "Equations:" ++ line "x + y = 1" ++ line ""), (newline :: line "-x <= 0" ++ line "2y >= 0").
    split; [reflexivity|]. split; [right; eexists (line "Names:" ++ line "x y" ++ line "" ++ line "Maps:" ++ line "y x" ++ line "" ++ line "Equations:" ++ line "x + y = 1"); reflexivity|]. split; [right; eexists; reflexivity|cbn; intuition discriminate].
Qed.
Lemma swapped_no_hidden : no_hidden_edge 2 (all_satisfied (constraints_of swapped_system)).
Proof.
  assert (X : forall a b, all_satisfied (constraints_of swapped_system) [a; b] -> (a + b == 1)%Q).
  { intros a b H. assert (H1 := H {| terms := [(0, 1%Z); (1, 1%Z)]; operator := Equal; constant := 1 |} ltac:(cbn; tauto)). unfold satisfies, linear_form, coordinate_of in H1. cbn in H1. unfold inject_Z in H1. lra. }
  intros p. split.
  - intros (_ & r & t & Ht & Er & (Lp & Lr & Sp & Sr & _)). destruct p as [|a [|b [|]]]; try discriminate Lp. destruct r as [|c [|d [|]]]; try discriminate Lr.
    apply X in Sp, Sr. assert (Ec := Er 0). assert (Ed := Er 1). cbn in Ec, Ed. rewrite Ec, Ed in Sr. assert (K : (t * (a + b) == 1)%Q) by lra. rewrite Sp in K. lra.
  - intros ((Lp & Sp & _) & E0 & _). destruct p as [|a [|b [|]]]; try discriminate Lp. apply X in Sp. assert (Ea := E0 0). assert (Eb := E0 1). cbn in Ea, Eb. lra.
Qed.
Example C53_vertex_adjacency_example : forall texts,
  Forall ordinary ad_args /\ chooses_method ad_args AdjacencyDecomposition /\ chooses_type ad_args INT32 /\ asks ad_args (lit "f") NoSorting /\ ~ describes_hull swapped /\ describes_system swapped /\
  constraint_symmetries swapped_system 2 /\ pointed 2 (constraints_of swapped_system) /\ no_hidden_edge 2 (all_satisfied (constraints_of swapped_system)) /\
  (exists F : list vec, m_fme (arith EXACT) sorted_order (system_rows swapped_system NoSorting) = Ok F /\ Forall negatable_row F) /\
  m_main texts sorted_order (one_file swapped) 40 4 ad_args (line "Reduced Vertices / Rays:" ++ line "  1  0  1") (Status 0).
Proof.
  intros texts. destruct asks_ad as (A0 & A1 & A2). split; [apply Forall_forall; intros a Ha; apply plain_args; apply in_app_iff; auto|]. split; auto. split; auto. split; auto. destruct swapped_mode as (M1 & M2). split; auto. split; auto.
  destruct C50_reduced_example as (_ & _ & _ & _ & _ & S1 & S2 & _). split; auto. split; auto. split; [apply swapped_no_hidden|].
  split; [eexists; split; [vm_compute; reflexivity|repeat constructor; unfold negatable_row; repeat constructor; lia]|].
  assert (MA : m_detect_mode (one_file swapped) ad_args = Ok VertexEnumeration) by (vm_compute; reflexivity).
  apply (main_mode texts sorted_order (one_file swapped) 40 4 ad_args _ MA), (vertex_main sorted_order (one_file swapped) 40 4 ad_args _ INT32 A1 A2). unfold m_vertex_ad.
  assert (EI : m_input_inequalities (one_file swapped) 40 ad_args = Ok (Some ([[-1; 0; 0]; [0; -2; 0]; [1; 1; -1]; [-1; -1; 1]; [0; 0; -1]]%Z, [lit "x"; lit "y"], [exchange2], []))) by (vm_compute; reflexivity). rewrite EI.
  assert (ET : m_number_of_threads 4 ad_args = Ok 1%Z) by (vm_compute; reflexivity). rewrite ET. left. split; [reflexivity|].
  change (m_cast_rows INT32 [[-1; 0; 0]; [0; -2; 0]; [1; 1; -1]; [-1; -1; 1]; [0; 0; -1]]%Z) with [[-1; 0; 0]; [0; -2; 0]; [1; 1; -1]; [-1; -1; 1]; [0; 0; -1]]%Z. change (m_cast_rows INT32 []) with (@nil vec). change (Z.to_nat 1) with 1.
  exists (State (Jobs 1 [[1; 0; 1]; []]%Z [[]] [[1; 0; 1]]%Z [[1; 0; 1]]%Z) None [Stopped] []).
  assert (R : exists ls, ListModel.run (m_vad_neighbours INT32 sorted_order 40 [[-1; 0; 0]; [0; -2; 0]; [1; 1; -1]; [-1; -1; 1]; [0; 0; -1]]%Z [exchange2]) (initial [[1; 0; 1]; [1; 0; 1]]%Z [] 1 0) ls
    (State (Jobs 1 [[1; 0; 1]; []]%Z [[]] [[1; 0; 1]]%Z [[1; 0; 1]]%Z) None [Stopped] [])).
  { apply (exec_all_ok _ (repeat CMain 3 ++ repeat (CThread 0) 10)). vm_compute. reflexivity. }
  destruct R as (ls & R). exists [[1; 0; 1]; [1; 0; 1]]%Z, [], ls, (line "  1  0  1").
  split; [vm_compute; reflexivity|]. split; [exists 0; split; [reflexivity|left; cbn; auto]|]. split; [exact R|]. split; [split; [reflexivity|split; [reflexivity|]]; cbn; intuition|].
  split; [|split; [vm_compute; reflexivity|reflexivity]].
  intros r [<-|[]]; unfold m_vad_processed; eexists; vm_compute; reflexivity.
Qed.

(** The file of C48 with the points (1/2, 0) and (0, 1/2), the rays (1, 0) and (0, 2), and the map that exchanges x and y. *)
Lemma mirror_facets : three_different_facets 3 (file_rows mirror_contents NoSorting).
Proof.
  assert (HF : m_fme (arith INT32) sorted_order (file_rows mirror_contents NoSorting) = Ok [[0; -1; 0]; [-1; 0; 0]; [-2; -2; 1]]%Z) by (vm_compute; reflexivity).
  assert (HS := file_is_sane (Some mirror) mirror_contents mirror_text).
  assert (HG : agree mirror_contents 2) by apply C48_reduced_example.
  destruct (file_rows_facts mirror_contents NoSorting 2 HS HG ltac:(discriminate)) as (_ & HD & HH & HR). specialize (HR INT32 ltac:(discriminate)).
  assert (Hf : forall f, In f [[0; -1; 0]; [-1; 0; 0]; [-2; -2; 1]]%Z -> facet 3 (file_rows mirror_contents NoSorting) f).
  { intros f Hf. apply (rows_facets INT32 sorted_order 3 (file_rows mirror_contents NoSorting) ltac:(discriminate) sorted_order_ok HR HD _ f) in HF; [tauto| |exact Hf]. exists [1; 0; 0]%Z. split; [cbn; auto|discriminate]. }
  exists [0; -1; 0]%Z, [-1; 0; 0]%Z, [-2; -2; 1]%Z. split; [apply Hf; cbn; auto|]. split; [apply Hf; cbn; auto|]. split; [apply Hf; cbn; auto|].
  split; [|split]; intros (k & j & Hk & Hj & H); assert (H1 := H [1; 0; 0]%Z ltac:(cbn; auto)); assert (H2 := H [0; 2; 0]%Z ltac:(cbn; auto)); assert (H3 := H [1; 0; 2]%Z ltac:(cbn; auto)); cbn in H1, H2, H3; lia.
Qed.
Example C53_reduced_example : forall texts,
  ~ describes_system mirror /\ file_symmetries mirror_contents 2 /\ maps_normalise SAFE 2 [] (c_maps mirror_contents) /\ equations_allow INT32 2 [] (c_maps mirror_contents) /\ three_different_facets 3 (file_rows mirror_contents NoSorting) /\
  only_ends (m_main texts sorted_order (one_file mirror) 40 4 dd_args) (line "Reduced Inequalities:" ++ line "-2x -2y <= -1" ++ line "-y <= 0") (Status 0) /\
  m_main texts sorted_order (one_file mirror) 40 4 ad_args (line "Reduced Inequalities:" ++ line "-y <= 0" ++ line "-2x -2y <= -1") (Status 0) /\
  only_ends (m_main texts sorted_order (one_file swapped) 40 4 dd_args) (line "Reduced Vertices:" ++ line "1 0 ") (Status 0).
Proof.
  intros texts. destruct asks_ad as (_ & A1 & A2), asks_dd as (_ & D1 & D2). destruct C48_reduced_example as (_ & _ & _ & _ & S1 & S2 & _). split; [apply not_said; exists true, true, false; split; [vm_compute; reflexivity|auto]|].
  split; auto. split; auto. split; [split; [split; [constructor|intros i Hi; cbn in Hi; lia]|left; reflexivity]|]. split; [apply mirror_facets|]. split; [|split].
  - assert (MD : m_detect_mode (one_file mirror) dd_args = Ok FacetEnumeration) by (vm_compute; reflexivity). intros out e.
    rewrite (main_mode texts sorted_order (one_file mirror) 40 4 dd_args _ MD), (facet_main sorted_order (one_file mirror) 40 4 dd_args _ SAFE D1 D2).
    assert (E : m_facet_program SAFE sorted_order (one_file mirror) 40 dd_args = Some (line "Reduced Inequalities:" ++ line "-2x -2y <= -1" ++ line "-y <= 0", Ok tt)) by (vm_compute; reflexivity). rewrite E, dd_ends. reflexivity.
  - assert (MA : m_detect_mode (one_file mirror) ad_args = Ok FacetEnumeration) by (vm_compute; reflexivity).
    apply (main_mode texts sorted_order (one_file mirror) 40 4 ad_args _ MA), (facet_main sorted_order (one_file mirror) 40 4 ad_args _ INT32 A1 A2). unfold m_facet_ad.
    assert (EI : m_input_vertices (one_file mirror) 40 ad_args = Ok (Some ([[1; 0; 0]; [0; 2; 0]; [1; 0; 2]; [0; 1; 2]]%Z, [lit "x"; lit "y"], [exchange2], []))) by (vm_compute; reflexivity). rewrite EI.
    assert (ET : m_number_of_threads 4 ad_args = Ok 1%Z) by (vm_compute; reflexivity). rewrite ET. left. split; [reflexivity|].
    change (m_cast_rows INT32 [[1; 0; 0]; [0; 2; 0]; [1; 0; 2]; [0; 1; 2]]%Z) with [[1; 0; 0]; [0; 2; 0]; [1; 0; 2]; [0; 1; 2]]%Z. change (m_cast_rows INT32 []) with (@nil vec). change (Z.to_nat 1) with 1.
    exists (State (Jobs 1 [[0; -1; 0]; [-2; -2; 1]; []]%Z [[]] [[0; -1; 0]; [-2; -2; 1]]%Z [[0; -1; 0]; [-2; -2; 1]]%Z) None [Stopped] []).
    assert (R : exists ls, ListModel.run (m_ad_neighbours INT32 sorted_order 40 [[1; 0; 0]; [0; 2; 0]; [1; 0; 2]; [0; 1; 2]]%Z [exchange2]) (initial [[0; -1; 0]]%Z [] 1 0) ls
      (State (Jobs 1 [[0; -1; 0]; [-2; -2; 1]; []]%Z [[]] [[0; -1; 0]; [-2; -2; 1]]%Z [[0; -1; 0]; [-2; -2; 1]]%Z) None [Stopped] [])).
    { apply (exec_all_ok _ (repeat CMain 2 ++ repeat (CThread 0) 15)). vm_compute. reflexivity. }
    destruct R as (ls & R). exists [], [exchange2], [[0; -1; 0]]%Z, [], ls, [], (line "-y <= 0" ++ line "-2x -2y <= -1").
    split; [vm_compute; reflexivity|]. split; [vm_compute; reflexivity|]. split; [exists 0; split; [reflexivity|left; cbn; auto]|]. split; [exact R|]. split; [split; [reflexivity|split; [reflexivity|]]; cbn; intuition|].
    split; [|split; [reflexivity|split; [vm_compute; reflexivity|reflexivity]]].
    intros r [<-|[<-|[]]]; unfold m_ad_processed; eexists; vm_compute; reflexivity.
  - assert (MD : m_detect_mode (one_file swapped) dd_args = Ok VertexEnumeration) by (vm_compute; reflexivity). intros out e.
    rewrite (main_mode texts sorted_order (one_file swapped) 40 4 dd_args _ MD), (vertex_main sorted_order (one_file swapped) 40 4 dd_args _ SAFE D1 D2).
    assert (E : m_vertex_program SAFE sorted_order (one_file swapped) 40 dd_args = Some (line "Reduced Vertices:" ++ line "1 0 ", Ok tt)) by (vm_compute; reflexivity). rewrite E, dd_ends. reflexivity.
Qed.
