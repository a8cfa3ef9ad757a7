(** * PropertiesKnown: known facets and vertices (option -k) from the command line to the output (C58). *)
From Coq Require Import List ZArith QArith Arith Bool Ascii String Lia Lqa Permutation.
From Verif Require Import Base Spec LinAlg Cone ListUtil ArithModel MatrixModel FmeModel SafeIntModel IntTypes RowLcm StreamModel StreamProofs SortModel CliModel PropertiesCli InputModel InputProofs VertexInput ClassesModel
  ConstraintModel ConstraintInput ConstraintSection PropertiesVertices PropertiesConstraints OutputModel OutputProofs PropertiesOutput Hull Corners FmeCore FmePure FmePrepare FmeCorrect Refine MatrixRefine FmeRefine FmeTheorems DimTheorems NormTheorems
  Samples ClassesProofs ApplyTheorems OrbitTheorems OrbitExact PropertiesMaps PropertiesFme MapModel PropertiesProgram RotationModel RotationTheorems PropertiesRotation HeuristicTheorems
  NormalForm Symmetry Adjacency PropertiesAd HullSame VertexSymmetry VertexImages PropertiesReduced FileModel FileProofs FileInput SystemFile PropertiesFile PropertiesSystem PropertiesMapFile
  ListModel AdModel VertexAdModel VertexGraph VertexEdge VertexAd VertexAdExact SafeClasses SafeFacets PropertiesVertexAd MainModel ModeDetection ListExec KnownFile PropertiesMain PropertiesMainAd.
Import ListNotations.
Open Scope nat_scope.
Open Scope list_scope.

(** The rows of the known inequalities are facets of the hull of the rows [V], and not the trivial one. *)
Definition facets_known (n : nat) (V : list vec) (K : list wide) : Prop :=
  forall k, In k K -> facet (S n) V (wide_row k) /\ ~ equivalent_ineq V (wide_row k) (trivial_row (S n)).
(** The known points are vertices and the known rays extreme directions of the solutions. *)
Definition generators_known_for (n : nat) (s : system) (g : generators) : Prop :=
  (forall p, In p (fst g) -> vertex_of n (all_satisfied (constraints_of s)) (coordinates_of p)) /\ (forall d, In d (snd g) -> extreme_move n (constraints_of s) (coordinates_of d)).

Lemma known_rows_facets t n V names content K : t <> INT16 -> readable_names names -> known_facets_text names content K -> facets_known n V K -> are_facets t (S n) V (map wide_row K).
Proof.
  intros Ht HN HX HK r Hr. apply in_map_iff in Hr as (k & <- & Hk). destruct (HK k Hk) as (K1 & K2). split; auto. split; auto.
  assert (G := known_facets_good names content K HN HX). rewrite Forall_forall in G. destruct (G k Hk) as (_ & _ & _ & I). eapply Forall_impl; [|exact I]. intros z Hz. apply int_representable; auto.
Qed.
Lemma known_rows_generators t n s so g content : t <> INT16 -> fits_together s n -> equations_fit s n -> sound_system s -> known_vertices_text ([], []) (Some content) g -> generators_known_for n s g ->
  are_generators t n (system_rows s so) (generator_rows_of g).
Proof.
  intros Ht Hn He HS HX (HP & HD) r Hr. destruct (generators_sane _ _ _ HX no_generators_sane) as ((P1 & P2) & (R1 & R2)). rewrite Forall_forall in P1, P2, R1, R2.
  unfold generator_rows_of in Hr. apply in_app_iff in Hr as [Hr|Hr]; assert (Hr0 := Hr); apply in_map_iff in Hr as (p & <- & Hp); split;
    try (first [specialize (P2 _ Hr0); eapply Forall_impl; [|exact P2]|specialize (R2 _ Hr0); eapply Forall_impl; [|exact R2]]; intros z Hz; apply int_representable; auto; fail).
  - left. exists (coordinates_of p). specialize (HP p Hp). split; [|apply (system_corner s so n); auto]. apply point_row_stands; auto. destruct HP as (L & _). unfold coordinates_of in L. rewrite map_length in L. auto.
  - right. exists (coordinates_of p). specialize (HD p Hp). split; [|apply (system_extreme s so n); auto]. apply ray_row_stands; auto. destruct HD as (L & _). unfold coordinates_of in L. rewrite map_length in L. auto.
Qed.
Lemma consistent_agree content c n : file_text nothing (Some content) c -> agree c n -> consistent_file c = true.
Proof.
  intros HX HG. assert (HSane := file_is_sane (Some content) c HX). unfold consistent_file.
  assert (HC : m_consistent_vertices (map point_row (c_points c)) (map ray_row (c_rays c)) (c_names c) (c_maps c) (match c_dimension c with Some d => d | None => size_max end) = Ok tt).
  { apply consistent_iff; [|apply agree_iff; eauto]. destruct HSane as (_ & _ & Hd). destruct (c_dimension c); unfold size_max in *; lia. }
  rewrite HC. reflexivity.
Qed.
Lemma consistent_fits content s n : system_text no_system (Some content) s -> fits_together s n -> consistent_system s = true.
Proof. intros HX Hn. assert (HS := system_sound _ _ _ HX no_system_sound). unfold consistent_system. rewrite (proj2 (fits_together_iff s HS) (ex_intro _ n Hn)). reflexivity. Qed.
Lemma known_input_facets fs args name so content c n kname kcontent K : asks_file args name so -> fs name = Some content -> early_keyword content -> file_text nothing (Some content) c -> agree c n ->
  names_facets args kname -> fs kname = Some kcontent -> readable_names (c_names c) -> known_facets_text (c_names c) kcontent K ->
  exists fuel0, forall fuel, fuel0 <= fuel -> m_input_vertices fs fuel args = Ok (Some (file_rows c so, c_names c, c_maps c, map wide_row K)).
Proof.
  intros HA HF HK HX HG HKn HKf HNr HKt. destruct (input_vertices_with fs args name so content c HA HF HK HX) as (f0 & KI). exists f0. intros fuel Hf.
  rewrite (KI fuel Hf), (consistent_agree content c n HX HG), (known_facets_read fs args (c_names c) kname kcontent K); auto; apply HA.
Qed.
Lemma known_input_vertices fs args name so content s n kname kcontent g : asks_file args name so -> fs name = Some content -> early_keyword content -> system_text no_system (Some content) s -> fits_together s n ->
  names_vertices args kname -> fs kname = Some kcontent -> known_vertices_text ([], []) (Some kcontent) g ->
  exists fuel0, forall fuel, fuel0 <= fuel -> m_input_inequalities fs fuel args = Ok (Some (system_rows s so, s_names s, s_maps s, generator_rows_of g)).
Proof.
  intros HA HF HK HX HG HKn HKf HKt. destruct (input_inequalities_with fs args name so content s HA HF HK HX) as (f0 & KI). destruct (known_vertices_read fs args kname kcontent g HKn) as (f1 & K1); auto; try apply HA.
  exists (f0 + f1). intros fuel Hf. rewrite (KI fuel ltac:(lia)), (consistent_fits content s n HX HG), (K1 fuel ltac:(lia)). reflexivity.
Qed.

(** ** Known data that cannot be read *)
(** A file with known facets that cannot be opened, or whose first section is not one of inequalities, and a file with known vertices that cannot be opened: nothing is printed and the status is 1. *)
Theorem C58_refused : forall texts order fs args name so content c n kname, Forall ordinary args -> (exists m, chooses_method args m) -> (exists t, chooses_type args t) ->
  asks_file args name so -> fs name = Some content -> early_keyword content -> file_text nothing (Some content) c -> ~ describes_system content -> agree c n ->
  names_facets args kname -> (fs kname = None \/ exists kcontent, fs kname = Some kcontent /\ no_known_facets kcontent) ->
  exists fuel0, forall fuel hardware, fuel0 <= fuel -> only_ends (m_main texts order fs fuel hardware args) [] (Status 1).
Proof.
  intros texts order fs args name so content c n kname HO (m & HM) (t & HT) HA HF HK HX HS HG HKn HKf. destruct (input_vertices_with fs args name so content c HA HF HK HX) as (f0 & KI). exists f0. intros fuel hardware Hf out e.
  destruct (C53_mode fs args name content HO (proj1 HA) HF) as (_ & M & _). rewrite (main_mode texts order fs fuel hardware args _ (M HS)), (facet_main order fs fuel hardware args m t HM HT).
  assert (EI : m_input_vertices fs fuel args = Throw) by (rewrite (KI fuel Hf), (consistent_agree content c n HX HG), (known_facets_throw fs args (c_names c) kname HKn HKf); reflexivity).
  destruct m; unfold m_facet_ad, m_facet_program; rewrite EI; cbn [calco m_dd_ends m_caught]; reflexivity.
Qed.
Print Assumptions C58_refused.
Theorem C58_refused_vertices : forall texts order fs args name so content s n kname, Forall ordinary args -> (exists m, chooses_method args m) -> (exists t, chooses_type args t) ->
  asks_file args name so -> fs name = Some content -> early_keyword content -> system_text no_system (Some content) s -> ~ describes_hull content -> describes_system content -> fits_together s n ->
  names_vertices args kname -> fs kname = None ->
  exists fuel0, forall fuel hardware, fuel0 <= fuel -> only_ends (m_main texts order fs fuel hardware args) [] (Status 1).
Proof.
  intros texts order fs args name so content s n kname HO (m & HM) (t & HT) HA HF HK HX HS1 HS2 HG HKn HKf. destruct (input_inequalities_with fs args name so content s HA HF HK HX) as (f0 & KI). exists f0. intros fuel hardware Hf out e.
  destruct (C53_mode fs args name content HO (proj1 HA) HF) as (_ & _ & M). rewrite (main_mode texts order fs fuel hardware args _ (M (conj HS1 HS2))), (vertex_main order fs fuel hardware args m t HM HT).
  assert (EI : m_input_inequalities fs fuel args = Throw) by (rewrite (KI fuel Hf), (consistent_fits content s n HX HG), (known_vertices_throw fs fuel args kname HKn HKf); reflexivity).
  destruct m; unfold m_vertex_ad, m_vertex_program; rewrite EI; cbn [calco m_dd_ends m_caught]; reflexivity.
Qed.
Print Assumptions C58_refused_vertices.

(** ** Double description *)
(** Known data that can be read, whatever they say, change nothing. *)
Theorem C58_double_description : forall t order fs args args0 name so content c n kname kcontent K,
  Forall ordinary args -> Forall ordinary args0 -> chooses_method args DoubleDescription -> chooses_method args0 DoubleDescription -> chooses_type args t -> chooses_type args0 t ->
  asks_file args name so -> asks args0 name so -> fs name = Some content -> early_keyword content -> file_text nothing (Some content) c -> ~ describes_system content -> agree c n ->
  names_facets args kname -> fs kname = Some kcontent -> readable_names (c_names c) -> known_facets_text (c_names c) kcontent K ->
  exists fuel0, forall texts fuel hardware out e, fuel0 <= fuel -> (m_main texts order fs fuel hardware args out e <-> m_main texts order fs fuel hardware args0 out e).
Proof.
  intros t order fs args args0 name so content c n kname kcontent K HO HO0 HM HM0 HT HT0 HA HA0 HF HK HX HS HG HKn HKf HNr HKt.
  destruct (known_input_facets fs args name so content c n kname kcontent K HA HF HK HX HG HKn HKf HNr HKt) as (f1 & K1). destruct (input_vertices_with fs args0 name so content c (asks_asks_file _ _ _ HA0) HF HK HX) as (f0 & K0).
  exists (f0 + f1). intros texts fuel hardware out e Hf.
  destruct (C53_mode fs args name content HO (proj1 HA) HF) as (_ & M & _). destruct (C53_mode fs args0 name content HO0 (proj1 HA0) HF) as (_ & M0 & _).
  rewrite (main_mode texts order fs fuel hardware args _ (M HS)), (main_mode texts order fs fuel hardware args0 _ (M0 HS)), (facet_main order fs fuel hardware args _ t HM HT), (facet_main order fs fuel hardware args0 _ t HM0 HT0).
  unfold m_facet_program. rewrite (K1 fuel ltac:(lia)), (K0 fuel ltac:(lia)), (consistent_agree content c n HX HG). unfold m_known_facets. destruct (asks_ok args0 name so HA0) as (_ & E & _). rewrite E. reflexivity.
Qed.
Print Assumptions C58_double_description.
Theorem C58_double_description_vertices : forall t order fs args args0 name so content s n kname kcontent g,
  Forall ordinary args -> Forall ordinary args0 -> chooses_method args DoubleDescription -> chooses_method args0 DoubleDescription -> chooses_type args t -> chooses_type args0 t ->
  asks_file args name so -> asks args0 name so -> fs name = Some content -> early_keyword content -> system_text no_system (Some content) s -> ~ describes_hull content -> describes_system content -> fits_together s n ->
  names_vertices args kname -> fs kname = Some kcontent -> known_vertices_text ([], []) (Some kcontent) g ->
  exists fuel0, forall texts fuel hardware out e, fuel0 <= fuel -> (m_main texts order fs fuel hardware args out e <-> m_main texts order fs fuel hardware args0 out e).
Proof.
  intros t order fs args args0 name so content s n kname kcontent g HO HO0 HM HM0 HT HT0 HA HA0 HF HK HX HS1 HS2 HG HKn HKf HKt.
  destruct (known_input_vertices fs args name so content s n kname kcontent g HA HF HK HX HG HKn HKf HKt) as (f1 & K1). destruct (input_inequalities_with fs args0 name so content s (asks_asks_file _ _ _ HA0) HF HK HX) as (f0 & K0).
  exists (f0 + f1). intros texts fuel hardware out e Hf.
  destruct (C53_mode fs args name content HO (proj1 HA) HF) as (_ & _ & M). destruct (C53_mode fs args0 name content HO0 (proj1 HA0) HF) as (_ & _ & M0).
  rewrite (main_mode texts order fs fuel hardware args _ (M (conj HS1 HS2))), (main_mode texts order fs fuel hardware args0 _ (M0 (conj HS1 HS2))), (vertex_main order fs fuel hardware args _ t HM HT), (vertex_main order fs fuel hardware args0 _ t HM0 HT0).
  unfold m_vertex_program. rewrite (K1 fuel ltac:(lia)), (K0 fuel ltac:(lia)), (consistent_fits content s n HX HG). unfold m_known_vertices. destruct (asks_ok args0 name so HA0) as (_ & _ & E & _). rewrite E. reflexivity.
Qed.
Print Assumptions C58_double_description_vertices.

(** ** Adjacency decomposition *)
(** Known facets: whenever the program ends with status 0, whatever the number of threads, their schedule and the moment the known facets are put, it has printed the hull. *)
Theorem C58_adjacency : forall t order fs args name so content c n kname kcontent K (E F : list vec),
  t <> INT16 -> sort_order order -> Forall ordinary args -> chooses_method args AdjacencyDecomposition -> chooses_type args t ->
  asks_file args name so -> fs name = Some content -> early_keyword content -> file_text nothing (Some content) c -> ~ describes_system content ->
  agree c n -> c_points c <> [] -> c_maps c = [] -> good_names (c_names c) -> three_different_facets (S n) (file_rows c so) ->
  names_facets args kname -> fs kname = Some kcontent -> readable_names (c_names c) -> known_facets_text (c_names c) kcontent K -> facets_known n (file_rows c so) K ->
  m_extract_equations (arith EXACT) (file_rows c so) = Ok E -> m_fme (arith EXACT) order (file_rows c so) = Ok F -> Forall negatable_row E -> Forall negatable_row F ->
  exists fuel0, forall texts fuel hardware out, fuel0 <= fuel -> m_main texts order fs fuel hardware args out (Status 0) ->
    exists equations Pe inequalities Pf,
      out = facet_text equations inequalities (match Pe with [] => true | _ => false end) false /\
      written (denotes (c_names c) n Equation) equations Pe /\ written (line_denotes (c_names c) n Inequality) inequalities Pf /\
      forall p : list Q, length p = n ->
        (hull n (map coordinates_of (c_points c)) (map coordinates_of (c_rays c)) p <-> forall k, In k (Pe ++ Pf) -> satisfies k p).
Proof.
  intros t order fs args name so content c n kname kcontent K E F Ht Ho HO HM HT HA HF HK HX HS HG Hne Hm HN H3 HKn HKf HNr HKt HKk HE HFm BE BF.
  assert (HSane := file_is_sane (Some content) c HX).
  destruct (file_rows_facts c so n HSane HG Hne) as (HP & HD & HH & HR). assert (HNl : c_names c = [] \/ length (c_names c) = n) by apply HG.
  destruct (known_input_facets fs args name so content c n kname kcontent K HA HF HK HX HG HKn HKf HNr HKt) as (f0 & KI).
  exists f0. intros texts fuel hardware out Hf H.
  destruct (C53_mode fs args name content HO (proj1 HA) HF) as (_ & M & _). apply (main_mode texts order fs fuel hardware args _ (M HS)), (facet_main order fs fuel hardware args _ t HM HT) in H.
  unfold m_facet_ad in H. rewrite (KI fuel Hf) in H. rewrite !cast_rows_same in H by auto. rewrite Hm in H. 
  destruct (C37_threads_positive hardware args) as [_ TP]. destruct (m_number_of_threads hardware args) as [threads| |]; [|destruct H; discriminate|discriminate]. specialize (TP threads eq_refl).
  destruct H as [(_ & s & H)|[H|H]].
  - destruct (C52_facets t order n (file_rows c so) E F (c_names c) fuel (Z.to_nat threads) (map wide_row K) s out Ht Ho (HR t Ht) HD HH H3 (known_rows_facets t n (file_rows c so) (c_names c) kcontent K Ht HNr HKt HKk) ltac:(lia) HN HNl HE HFm BE BF H)
      as (equations & Pe & inequalities & Pf & EO & W1 & W2 & _ & HQ).
    exists equations, Pe, inequalities, Pf. split; auto. split; auto. split; auto. intros p Hp. rewrite <- (HQ p Hp). symmetry. apply rows_hull; auto; apply HSane.
  - exfalso. unfold m_ad_stops in H. destruct (m_extract_equations (arith t) (file_rows c so)) as [E'| |]; [|destruct H; discriminate|discriminate].
    destruct (m_ad_equations t (c_names c) E') as [head r]. destruct r as [[]| |]; [|destruct H; discriminate|destruct H; discriminate].
    destruct (m_ad_reduce t (file_rows c so) []) as [[? reduced]| |]; [|destruct H; discriminate|discriminate].
    match type of H with context [m_ad_start ?a ?b ?c ?d ?e ?f ?g] => destruct (m_ad_start a b c d e f g) as [[start|]| |] end; [|destruct H|destruct H; discriminate|discriminate].
    destruct H as (lines & r & _ & N & _ & X). destruct r as [[]| |]; [congruence|discriminate|discriminate].
  - exfalso. destruct H as [(? & ? & ? & ? & _ & _ & _ & X)|H]; [discriminate|]. destruct H as (? & ? & ? & ? & ? & ? & ? & _ & _ & _ & _ & [(_ & [(_ & X)|(_ & X)])|(_ & _ & _ & [(_ & X)|(_ & X)])]); discriminate.
Qed.
Print Assumptions C58_adjacency.
(** With symmetry maps. *)
Theorem C58_adjacency_reduced : forall t order fs args name so content c n kname kcontent K (E F : list vec),
  t <> INT16 -> sort_order order -> Forall ordinary args -> chooses_method args AdjacencyDecomposition -> chooses_type args t ->
  asks_file args name so -> fs name = Some content -> early_keyword content -> file_text nothing (Some content) c -> ~ describes_system content ->
  agree c n -> c_points c <> [] -> file_symmetries c n -> equations_allow t n E (c_maps c) -> good_names (c_names c) -> three_different_facets (S n) (file_rows c so) ->
  names_facets args kname -> fs kname = Some kcontent -> readable_names (c_names c) -> known_facets_text (c_names c) kcontent K -> facets_known n (file_rows c so) K ->
  m_extract_equations (arith EXACT) (file_rows c so) = Ok E -> m_fme (arith EXACT) order (file_rows c so) = Ok F -> Forall negatable_row E -> Forall negatable_row F ->
  exists fuel0, forall texts fuel hardware out, fuel0 <= fuel -> m_main texts order fs fuel hardware args out (Status 0) ->
    exists equations Pe inequalities Pf,
      out = facet_text equations inequalities (match Pe with [] => true | _ => false end) (nonempty (c_maps c)) /\
      written (denotes (c_names c) n Equation) equations Pe /\ written (line_denotes (c_names c) n Inequality) inequalities Pf /\
      forall p : list Q, length p = n ->
        (hull n (map coordinates_of (c_points c)) (map coordinates_of (c_rays c)) p <->
         (forall k, In k Pe -> satisfies k p) /\ forall q k, moved (c_maps c) p q -> In k Pf -> satisfies k q).
Proof.
  intros t order fs args name so content c n kname kcontent K E F Ht Ho HO HM HT HA HF HK HX HS HG Hne Hsym Hal HN H3 HKn HKf HNr HKt HKk HE HFm BE BF.
  assert (HSane := file_is_sane (Some content) c HX).
  destruct (file_rows_facts c so n HSane HG Hne) as (HP & HD & HH & HR). assert (HNl : c_names c = [] \/ length (c_names c) = n) by apply HG.
  destruct (known_input_facets fs args name so content c n kname kcontent K HA HF HK HX HG HKn HKf HNr HKt) as (f0 & KI).
  exists f0. intros texts fuel hardware out Hf H.
  destruct (C53_mode fs args name content HO (proj1 HA) HF) as (_ & M & _). apply (main_mode texts order fs fuel hardware args _ (M HS)), (facet_main order fs fuel hardware args _ t HM HT) in H.
  unfold m_facet_ad in H. rewrite (KI fuel Hf) in H. rewrite !cast_rows_same in H by auto. 
  destruct (C37_threads_positive hardware args) as [_ TP]. destruct (m_number_of_threads hardware args) as [threads| |]; [|destruct H; discriminate|discriminate]. specialize (TP threads eq_refl).
  destruct H as [(_ & s & H)|[H|H]].
  - destruct (C52_symmetric_facets t order n (file_rows c so) E F (c_names c) (c_maps c) fuel (Z.to_nat threads) (map wide_row K) s out Ht Ho (HR t Ht) HD HH H3 (file_symmetric c so n HSane HG Hsym) Hal (known_rows_facets t n (file_rows c so) (c_names c) kcontent K Ht HNr HKt HKk) ltac:(lia) HN HNl HE HFm BE BF H)
      as (equations & Pe & inequalities & Pf & EO & W1 & W2 & _ & HQ).
    exists equations, Pe, inequalities, Pf. split; auto. split; auto. split; auto. intros p Hp. rewrite <- (HQ p Hp). symmetry. apply rows_hull; auto; apply HSane.
  - exfalso. unfold m_ad_stops in H. destruct (m_extract_equations (arith t) (file_rows c so)) as [E'| |]; [|destruct H; discriminate|discriminate].
    destruct (m_ad_equations t (c_names c) E') as [head r]. destruct r as [[]| |]; [|destruct H; discriminate|destruct H; discriminate].
    destruct (m_ad_reduce t (file_rows c so) (c_maps c)) as [[? reduced]| |]; [|destruct H; discriminate|discriminate].
    match type of H with context [m_ad_start ?a ?b ?c ?d ?e ?f ?g] => destruct (m_ad_start a b c d e f g) as [[start|]| |] end; [|destruct H|destruct H; discriminate|discriminate].
    destruct H as (lines & r & _ & N & _ & X). destruct r as [[]| |]; [congruence|discriminate|discriminate].
  - exfalso. destruct H as [(? & ? & ? & ? & _ & _ & _ & X)|H]; [discriminate|]. destruct H as (? & ? & ? & ? & ? & ? & ? & _ & _ & _ & _ & [(_ & [(_ & X)|(_ & X)])|(_ & _ & _ & [(_ & X)|(_ & X)])]); discriminate.
Qed.
Print Assumptions C58_adjacency_reduced.
(** With "-i safe" nothing is undefined. *)
Theorem C58_adjacency_safe : forall order fs args name so content c n kname kcontent K (E F : list vec),
  sort_order order -> Forall ordinary args -> chooses_method args AdjacencyDecomposition -> chooses_type args SAFE ->
  asks_file args name so -> fs name = Some content -> early_keyword content -> file_text nothing (Some content) c -> ~ describes_system content ->
  agree c n -> c_points c <> [] -> c_maps c = [] -> good_names (c_names c) -> three_different_facets (S n) (file_rows c so) ->
  names_facets args kname -> fs kname = Some kcontent -> readable_names (c_names c) -> known_facets_text (c_names c) kcontent K -> facets_known n (file_rows c so) K ->
  m_extract_equations (arith EXACT) (file_rows c so) = Ok E -> m_fme (arith EXACT) order (file_rows c so) = Ok F -> Forall negatable_row E -> Forall negatable_row F ->
  exists fuel0, forall texts fuel hardware out e, fuel0 <= fuel -> m_main texts order fs fuel hardware args out e -> e = Status 0 \/ e = Status 1 \/ e = Terminated.
Proof.
  intros order fs args name so content c n kname kcontent K E F Ho HO HM HT HA HF HK HX HS HG Hne Hm HN H3 HKn HKf HNr HKt HKk HE HFm BE BF.
  assert (HSane := file_is_sane (Some content) c HX).
  destruct (file_rows_facts c so n HSane HG Hne) as (HP & HD & HH & HR). assert (HNl : c_names c = [] \/ length (c_names c) = n) by apply HG.
  destruct (known_input_facets fs args name so content c n kname kcontent K HA HF HK HX HG HKn HKf HNr HKt) as (f0 & KI).
  exists f0. intros texts fuel hardware out e Hf H.
  destruct (C53_mode fs args name content HO (proj1 HA) HF) as (_ & M & _). apply (main_mode texts order fs fuel hardware args _ (M HS)), (facet_main order fs fuel hardware args _ SAFE HM HT) in H.
  unfold m_facet_ad in H. rewrite (KI fuel Hf) in H. rewrite !cast_rows_same in H by (auto; discriminate). rewrite Hm in H. 
  destruct (C37_threads_positive hardware args) as [TU TP]. destruct (m_number_of_threads hardware args) as [threads| |]; [|tauto|congruence]. specialize (TP threads eq_refl).
  destruct H as [(-> & _)|H]; [auto|]. right.
  apply (facet_ad_safe order n (file_rows c so) E F (c_names c) [] fuel (map wide_row K) Ho (HR SAFE ltac:(discriminate)) HD HH H3 (or_introl eq_refl) ltac:(discriminate) (known_rows_facets SAFE n (file_rows c so) (c_names c) kcontent K ltac:(discriminate) HNr HKt HKk) HN HNl HE HFm BE BF (Z.to_nat threads) out e); auto.
Qed.
Print Assumptions C58_adjacency_safe.
Theorem C58_adjacency_reduced_safe : forall order fs args name so content c n kname kcontent K (E F : list vec),
  sort_order order -> Forall ordinary args -> chooses_method args AdjacencyDecomposition -> chooses_type args SAFE ->
  asks_file args name so -> fs name = Some content -> early_keyword content -> file_text nothing (Some content) c -> ~ describes_system content ->
  agree c n -> c_points c <> [] -> file_symmetries c n -> equations_allow SAFE n E (c_maps c) -> (E <> [] -> m_normalize_maps SAFE E (c_maps c) <> UB) -> good_names (c_names c) -> three_different_facets (S n) (file_rows c so) ->
  names_facets args kname -> fs kname = Some kcontent -> readable_names (c_names c) -> known_facets_text (c_names c) kcontent K -> facets_known n (file_rows c so) K ->
  m_extract_equations (arith EXACT) (file_rows c so) = Ok E -> m_fme (arith EXACT) order (file_rows c so) = Ok F -> Forall negatable_row E -> Forall negatable_row F ->
  exists fuel0, forall texts fuel hardware out e, fuel0 <= fuel -> m_main texts order fs fuel hardware args out e -> e = Status 0 \/ e = Status 1 \/ e = Terminated.
Proof.
  intros order fs args name so content c n kname kcontent K E F Ho HO HM HT HA HF HK HX HS HG Hne Hsym Hal Hu HN H3 HKn HKf HNr HKt HKk HE HFm BE BF.
  assert (HSane := file_is_sane (Some content) c HX).
  destruct (file_rows_facts c so n HSane HG Hne) as (HP & HD & HH & HR). assert (HNl : c_names c = [] \/ length (c_names c) = n) by apply HG.
  destruct (known_input_facets fs args name so content c n kname kcontent K HA HF HK HX HG HKn HKf HNr HKt) as (f0 & KI).
  exists f0. intros texts fuel hardware out e Hf H.
  destruct (C53_mode fs args name content HO (proj1 HA) HF) as (_ & M & _). apply (main_mode texts order fs fuel hardware args _ (M HS)), (facet_main order fs fuel hardware args _ SAFE HM HT) in H.
  unfold m_facet_ad in H. rewrite (KI fuel Hf) in H. rewrite !cast_rows_same in H by (auto; discriminate). 
  destruct (C37_threads_positive hardware args) as [TU TP]. destruct (m_number_of_threads hardware args) as [threads| |]; [|tauto|congruence].
  destruct H as [(-> & _)|H]; [auto|]. right.
  apply (facet_ad_safe order n (file_rows c so) E F (c_names c) (c_maps c) fuel (map wide_row K) Ho (HR SAFE ltac:(discriminate)) HD HH H3 (or_intror (conj (file_symmetric c so n HSane HG Hsym) Hal)) Hu (known_rows_facets SAFE n (file_rows c so) (c_names c) kcontent K ltac:(discriminate) HNr HKt HKk) HN HNl HE HFm BE BF (Z.to_nat threads) out e); auto.
Qed.
Print Assumptions C58_adjacency_reduced_safe.
(** Known vertices and rays. *)
Theorem C58_vertex_adjacency : forall t order fs args name so content s n kname kcontent g (F : list vec),
  t <> INT16 -> sort_order order -> Forall ordinary args -> chooses_method args AdjacencyDecomposition -> chooses_type args t ->
  asks_file args name so -> fs name = Some content -> early_keyword content -> system_text no_system (Some content) s -> ~ describes_hull content -> describes_system content ->
  fits_together s n -> equations_fit s n -> 0 < n -> constraint_symmetries s n -> pointed n (constraints_of s) ->
  names_vertices args kname -> fs kname = Some kcontent -> known_vertices_text ([], []) (Some kcontent) g -> generators_known_for n s g ->
  m_fme (arith EXACT) order (system_rows s so) = Ok F -> Forall negatable_row F ->
  exists fuel0, forall texts fuel hardware out, fuel0 <= fuel -> m_main texts order fs fuel hardware args out (Status 0) ->
    exists lines (rows : list vec),
      out = (if nonempty (s_maps s) then lit "Reduced " else []) ++ lit "Vertices / Rays:" ++ newline :: lines /\ section_lines lines (map whole rows) /\ NoDup rows /\
      lists_generators n s rows /\
      (no_hidden_edge n (all_satisfied (constraints_of s)) -> lists_all_generators n s rows).
Proof.
  intros t order fs args name so content s n kname kcontent g F Ht Ho HO HM HT HA HF HK HX HS1 HS2 Hn He H0 Hsym HP HKn HKf HKt HKk HE HB.
  assert (HS := system_sound _ _ _ HX no_system_sound). destruct (system_rows_facts s so n Hn He HS) as (HD & HU & HR).
  destruct (known_input_vertices fs args name so content s n kname kcontent g HA HF HK HX Hn HKn HKf HKt) as (f0 & KI). assert (NL := pointed_no_line s so n Hn He HS HP).
  assert (SC := fun p => system_corner s so n p Hn He HS). assert (SE := fun p => system_extreme s so n p Hn He HS).
  exists f0. intros texts fuel hardware out Hf H.
  destruct (C53_mode fs args name content HO (proj1 HA) HF) as (_ & _ & M). apply (main_mode texts order fs fuel hardware args _ (M (conj HS1 HS2))), (vertex_main order fs fuel hardware args _ t HM HT) in H.
  unfold m_vertex_ad in H. rewrite (KI fuel Hf) in H. rewrite !cast_rows_same in H by auto. 
  destruct (C37_threads_positive hardware args) as [_ TP]. destruct (m_number_of_threads hardware args) as [threads| |]; [|destruct H; discriminate|discriminate]. specialize (TP threads eq_refl).
  destruct H as [(_ & st & H)|[H|H]].
  - destruct (C57_text t order n (system_rows s so) F (s_maps s) fuel (Z.to_nat threads) (generator_rows_of g) st out Ht Ho (HR t Ht) HD H0 NL HU (system_symmetric s so n Hn He HS Hsym) (known_rows_generators t n s so g kcontent Ht Hn He HS HKt HKk) ltac:(lia) HE HB H)
      as (lines & rows & EO & W & ND & (G1 & G2 & G3 & G4 & G5) & G6).
    exists lines, rows. split; auto. split; auto. split; auto. split.
    + split; auto. split; [intros q Hq; apply SC; auto|]. split; auto. split; [intros d Hd; apply SE; auto|auto].
    + intros HE'. destruct G6 as (C1 & C2).
      * apply (hidden_edge_ext n (all_satisfied (constraints_of s))); auto. intros p Hp. symmetry. apply (solves_system s so n); auto.
      * split; [intros p Hp; apply C1; apply SC; auto|intros d Hd; apply C2; apply SE; auto].
  - exfalso. unfold m_vad_stops in H. match type of H with context [m_vad_start ?a ?b ?c ?d ?e ?f] => destruct (m_vad_start a b c d e f) as [[start|]| |] end; [|destruct H|destruct H; discriminate|discriminate].
    destruct H as (lines & r & _ & N & _ & X). destruct r as [[]| |]; [congruence|discriminate|discriminate].
  - exfalso. destruct H as [(? & ? & _ & _ & X)|H]; [discriminate|]. destruct H as (? & ? & ? & ? & ? & _ & _ & _ & [(_ & [(_ & X)|(_ & X)])|(_ & _ & _ & [(_ & X)|(_ & X)])]); discriminate.
Qed.
Print Assumptions C58_vertex_adjacency.
Theorem C58_vertex_adjacency_safe : forall order fs args name so content s n kname kcontent g (F : list vec),
  sort_order order -> Forall ordinary args -> chooses_method args AdjacencyDecomposition -> chooses_type args SAFE ->
  asks_file args name so -> fs name = Some content -> early_keyword content -> system_text no_system (Some content) s -> ~ describes_hull content -> describes_system content ->
  fits_together s n -> equations_fit s n -> 0 < n -> constraint_symmetries s n -> pointed n (constraints_of s) ->
  names_vertices args kname -> fs kname = Some kcontent -> known_vertices_text ([], []) (Some kcontent) g -> generators_known_for n s g ->
  m_fme (arith EXACT) order (system_rows s so) = Ok F -> Forall negatable_row F ->
  exists fuel0, forall texts fuel hardware out e, fuel0 <= fuel -> m_main texts order fs fuel hardware args out e -> e = Status 0 \/ e = Status 1 \/ e = Terminated.
Proof.
  intros order fs args name so content s n kname kcontent g F Ho HO HM HT HA HF HK HX HS1 HS2 Hn He H0 Hsym HP HKn HKf HKt HKk HE HB.
  assert (HS := system_sound _ _ _ HX no_system_sound). destruct (system_rows_facts s so n Hn He HS) as (HD & HU & HR).
  destruct (known_input_vertices fs args name so content s n kname kcontent g HA HF HK HX Hn HKn HKf HKt) as (f0 & KI). assert (NL := pointed_no_line s so n Hn He HS HP).
  exists f0. intros texts fuel hardware out e Hf H.
  destruct (C53_mode fs args name content HO (proj1 HA) HF) as (_ & _ & M). apply (main_mode texts order fs fuel hardware args _ (M (conj HS1 HS2))), (vertex_main order fs fuel hardware args _ SAFE HM HT) in H.
  unfold m_vertex_ad in H. rewrite (KI fuel Hf) in H. rewrite !cast_rows_same in H by (auto; discriminate). 
  destruct (C37_threads_positive hardware args) as [TU TP]. destruct (m_number_of_threads hardware args) as [threads| |]; [|tauto|congruence]. specialize (TP threads eq_refl).
  destruct H as [(-> & _)|H]; auto. right.
  apply (vertex_ad_safe order n (system_rows s so) F (s_maps s) fuel (generator_rows_of g) Ho (HR SAFE ltac:(discriminate)) HD H0 NL HU (system_symmetric s so n Hn He HS Hsym) (generators_known SAFE n (system_rows s so) (generator_rows_of g) HD HU (known_rows_generators SAFE n s so g kcontent ltac:(discriminate) Hn He HS HKt HKk)) HE HB (Z.to_nat threads) out e); auto. lia.
Qed.
Print Assumptions C58_vertex_adjacency_safe.

(** ** Examples *)
Definition two_files (content kcontent : text) : files := fun name => if text_eqb name (lit "f") then Some content else if text_eqb name (lit "k") then Some kcontent else None.
Definition known_args : list text := [lit "-k"; lit "k"; lit "-t"; lit "1"; lit "f"].
Lemma asks_known : asks_file known_args (lit "f") NoSorting /\ chooses_method known_args AdjacencyDecomposition /\ chooses_type known_args INT32 /\ Forall ordinary known_args /\
  names_facets known_args (lit "k") /\ names_vertices known_args (lit "k").
Proof.
  split; [split; [|split; [cbn; intuition discriminate|split; [cbn; intuition discriminate|left; split; [not_concerning|reflexivity]]]]|split; [|split; [|split]]].
  - apply (line_parameter "k" (lit "k")); try discriminate. apply (line_parameter "t" (lit "1")); try discriminate. apply line_free; [split; [discriminate|intros (p & E); discriminate]|]. apply PropertiesCli.line_end.
  - left. split; [not_concerning|reflexivity].
  - left. split; [not_concerning|reflexivity].
  - apply Forall_forall. intros a H. cbn in H. repeat destruct H as [<-|H]; try contradiction;
      (repeat split; try (intros [K|[K|[K|[K|[]]]]]; discriminate); try discriminate; try (intros (q & K); discriminate)).
  - split; (split; [discriminate|]); left; apply (parameter_next "k" (lit "known-data") []); constructor.
Qed.
(** The file with x >= 0 only. *)
Definition one_facet : text := line "Inequalities:" ++ line "-x <= 0".
Definition one_facet_list : list wide := [(2, {| terms := [(0, (-1)%Z)]; operator := LessEqual; constant := 0 |})].
Lemma one_facet_text : known_facets_text [lit "x"; lit "y"] one_facet one_facet_list.
Proof.
  apply (known_facets_section _ (lit "Inequalities:") (line "-x <= 0") one_facet_list [] [] None); [apply keyword_itself; vm_compute; tauto| |apply follows_end; constructor].
  apply (written_line _ (lit "-x <= 0")); [exact segment_left|constructor].
Qed.
Example C58_example : forall texts,
  asks_file known_args (lit "f") NoSorting /\ chooses_method known_args AdjacencyDecomposition /\ chooses_type known_args INT32 /\ Forall ordinary known_args /\ names_facets known_args (lit "k") /\
  readable_names (c_names half_strip_contents) /\ known_facets_text (c_names half_strip_contents) one_facet one_facet_list /\ facets_known 2 (file_rows half_strip_contents NoSorting) one_facet_list /\
  m_main texts sorted_order (two_files half_strip one_facet) 20 4 known_args (line "Inequalities:" ++ line "-x <= 0" ++ line "-y <= 0" ++ line "2x <= 1") (Status 0).
Proof.
  intros texts. destruct asks_known as (A0 & A1 & A2 & A3 & A4 & A5). split; auto. split; auto. split; auto. split; auto. split; auto. split; [exact xy_names|]. split; [exact one_facet_text|]. split.
  { intros k [<-|[]]. change (wide_row (2, {| terms := [(0, (-1)%Z)]; operator := LessEqual; constant := 0 |})) with [-1; 0; 0]%Z. split.
    - assert (HF : m_fme (arith INT32) sorted_order (file_rows half_strip_contents NoSorting) = Ok [[-1; 0; 0]; [0; -1; 0]; [2; 0; -1]]%Z) by (vm_compute; reflexivity).
      assert (HS := file_is_sane (Some half_strip) half_strip_contents half_strip_text).
      assert (HG : agree half_strip_contents 2). { split; [discriminate|]. split; [cbn; intuition (subst; reflexivity)|]. split; [intros m []|]. split; [right; reflexivity|left; reflexivity]. }
      destruct (file_rows_facts half_strip_contents NoSorting 2 HS HG ltac:(discriminate)) as (_ & HD & HH & HR). specialize (HR INT32 ltac:(discriminate)).
      apply (rows_facets INT32 sorted_order 3 (file_rows half_strip_contents NoSorting) ltac:(discriminate) sorted_order_ok HR HD _ [-1; 0; 0]%Z) in HF; [tauto| |cbn; auto]. exists [0; 1; 0]%Z. split; [cbn; auto|discriminate].
    - intros (k & j & Hk & Hj & H). assert (H1 := H [0; 0; 1]%Z ltac:(cbn; auto)). assert (H2 := H [1; 0; 2]%Z ltac:(cbn; auto)). cbn in H1, H2. lia. }
  assert (MA : m_detect_mode (two_files half_strip one_facet) known_args = Ok FacetEnumeration) by (vm_compute; reflexivity).
  apply (main_mode texts sorted_order (two_files half_strip one_facet) 20 4 known_args _ MA), (facet_main sorted_order (two_files half_strip one_facet) 20 4 known_args _ INT32 A1 A2). unfold m_facet_ad.
  assert (EI : m_input_vertices (two_files half_strip one_facet) 20 known_args = Ok (Some ([[0; 1; 0]; [0; 0; 1]; [1; 0; 2]]%Z, [lit "x"; lit "y"], [], [[-1; 0; 0]]%Z))) by (vm_compute; reflexivity). rewrite EI.
  assert (ET : m_number_of_threads 4 known_args = Ok 1%Z) by (vm_compute; reflexivity). rewrite ET. left. split; [reflexivity|].
  change (m_cast_rows INT32 [[0; 1; 0]; [0; 0; 1]; [1; 0; 2]]%Z) with [[0; 1; 0]; [0; 0; 1]; [1; 0; 2]]%Z. change (m_cast_rows INT32 [[-1; 0; 0]]%Z) with [[-1; 0; 0]]%Z. change (Z.to_nat 1) with 1.
  exists (State (Jobs 1 [[-1; 0; 0]; [0; -1; 0]; [2; 0; -1]; []]%Z [[]] [[-1; 0; 0]; [0; -1; 0]; [2; 0; -1]]%Z [[-1; 0; 0]; [0; -1; 0]; [2; 0; -1]]%Z) None [Stopped] []).
  assert (R : exists ls, ListModel.run (m_ad_neighbours INT32 sorted_order 20 [[0; 1; 0]; [0; 0; 1]; [1; 0; 2]]%Z []) (initial [[-1; 0; 0]]%Z [[-1; 0; 0]]%Z 1 0) ls
    (State (Jobs 1 [[-1; 0; 0]; [0; -1; 0]; [2; 0; -1]; []]%Z [[]] [[-1; 0; 0]; [0; -1; 0]; [2; 0; -1]]%Z [[-1; 0; 0]; [0; -1; 0]; [2; 0; -1]]%Z) None [Stopped] [])).
  { apply (exec_all_ok _ (repeat CMain 2 ++ [CThread 0; CThread 0; CKnown] ++ repeat (CThread 0) 19)). vm_compute. reflexivity. }
  destruct R as (ls & R). exists [], [], [[-1; 0; 0]]%Z, [[-1; 0; 0]]%Z, ls, [], (line "-x <= 0" ++ line "-y <= 0" ++ line "2x <= 1").
  split; [vm_compute; reflexivity|]. split; [vm_compute; reflexivity|]. split; [exists 1; split; [vm_compute; reflexivity|left; cbn; auto]|]. split; [exact R|]. split; [split; [reflexivity|split; [reflexivity|]]; cbn; intuition|].
  split; [|split; [reflexivity|split; [vm_compute; reflexivity|reflexivity]]].
  intros r [<-|[<-|[<-|[]]]]; unfold m_ad_processed; eexists; vm_compute; reflexivity.
Qed.
(** Known vertices: of the segment between (1, 0) and (0, 1) the vertex (0, 1) is known. *)
Definition one_vertex : text := line "Vertices:" ++ line "0 1".
Lemma one_vertex_text : known_vertices_text ([], []) (Some one_vertex) ([[(0, 1); (1, 1)]]%Z, []).
Proof.
  apply (known_vertices_points _ (lit "Vertices:") (line "0 1") [[(0, 1); (1, 1)]]%Z [] [] None).
  - apply keyword_itself. vm_compute. tauto.
  - apply (section_point [] (lit "0 1") [(0, 1); (1, 1)]%Z []); [repeat constructor|apply (two_wholes "0" "1" 0 1); try reflexivity; try discriminate; lia|constructor].
  - apply follow_end. constructor. constructor.
  - exists (map (row_of false) [[(0, 1); (1, 1)]]%Z). split; [|repeat constructor; cbv; discriminate].
    constructor; [|constructor]; (apply represents_iff; [|reflexivity]); repeat constructor; try (apply small_int; cbn; lia); discriminate.
  - apply known_vertices_none.
Qed.
Lemma swapped_solution a b : all_satisfied (constraints_of swapped_system) [a; b] -> (a + b == 1 /\ 0 <= a /\ 0 <= b)%Q.
Proof.
  intros H. assert (H1 := H {| terms := [(0, 1%Z); (1, 1%Z)]; operator := Equal; constant := 1 |} ltac:(cbn; tauto)).
  assert (H2 := H {| terms := [(0, (-1)%Z)]; operator := LessEqual; constant := 0 |} ltac:(cbn; tauto)). assert (H3 := H {| terms := [(1, 2%Z)]; operator := GreaterEqual; constant := 0 |} ltac:(cbn; tauto)).
  unfold satisfies, linear_form, coordinate_of in H1, H2, H3. cbn in H1, H2, H3. unfold inject_Z in *. lra.
Qed.
Example C58_vertices_example : forall texts,
  names_vertices known_args (lit "k") /\ known_vertices_text ([], []) (Some one_vertex) ([[(0, 1); (1, 1)]]%Z, []) /\ generators_known_for 2 swapped_system ([[(0, 1); (1, 1)]]%Z, []) /\
  m_main texts sorted_order (two_files swapped one_vertex) 40 4 known_args (line "Reduced Vertices / Rays:" ++ line "  1  0  1") (Status 0).
Proof.
  intros texts. destruct asks_known as (A0 & A1 & A2 & A3 & A4 & A5). split; auto. split; [exact one_vertex_text|]. split.
  { split; [|intros d []]. intros p [<-|[]]. change (coordinates_of [(0, 1); (1, 1)]%Z) with [0; 1]%Q. split; [reflexivity|]. split.
    - intros k Hk. cbn in Hk. destruct Hk as [<-|[<-|[<-|[]]]]; unfold satisfies, linear_form, coordinate_of; cbn; unfold inject_Z; lra.
    - intros q r c Lq Lr Sq Sr C1 C2 B. destruct q as [|q1 [|q2 [|]]]; try discriminate Lq. destruct r as [|r1 [|r2 [|]]]; try discriminate Lr.
      apply swapped_solution in Sq, Sr. assert (B0 := B 0). cbn in B0. assert (q1 == 0)%Q by nra. constructor; [lra|constructor; [lra|constructor]]. }
  assert (MA : m_detect_mode (two_files swapped one_vertex) known_args = Ok VertexEnumeration) by (vm_compute; reflexivity).
  apply (main_mode texts sorted_order (two_files swapped one_vertex) 40 4 known_args _ MA), (vertex_main sorted_order (two_files swapped one_vertex) 40 4 known_args _ INT32 A1 A2). unfold m_vertex_ad.
  assert (EI : m_input_inequalities (two_files swapped one_vertex) 40 known_args = Ok (Some ([[-1; 0; 0]; [0; -2; 0]; [1; 1; -1]; [-1; -1; 1]; [0; 0; -1]]%Z, [lit "x"; lit "y"], [exchange2], [[0; 1; 1]]%Z))) by (vm_compute; reflexivity). rewrite EI.
  assert (ET : m_number_of_threads 4 known_args = Ok 1%Z) by (vm_compute; reflexivity). rewrite ET. left. split; [reflexivity|].
  change (m_cast_rows INT32 [[-1; 0; 0]; [0; -2; 0]; [1; 1; -1]; [-1; -1; 1]; [0; 0; -1]]%Z) with [[-1; 0; 0]; [0; -2; 0]; [1; 1; -1]; [-1; -1; 1]; [0; 0; -1]]%Z. change (m_cast_rows INT32 [[0; 1; 1]]%Z) with [[0; 1; 1]]%Z. change (Z.to_nat 1) with 1.
  exists (State (Jobs 1 [[1; 0; 1]; []]%Z [[]] [[1; 0; 1]]%Z [[1; 0; 1]]%Z) None [Stopped] []).
  assert (R : exists ls, ListModel.run (m_vad_neighbours INT32 sorted_order 40 [[-1; 0; 0]; [0; -2; 0]; [1; 1; -1]; [-1; -1; 1]; [0; 0; -1]]%Z [exchange2]) (initial [[1; 0; 1]]%Z [[1; 0; 1]]%Z 1 0) ls
    (State (Jobs 1 [[1; 0; 1]; []]%Z [[]] [[1; 0; 1]]%Z [[1; 0; 1]]%Z) None [Stopped] [])).
  { apply (exec_all_ok _ (repeat CMain 2 ++ [CKnown] ++ repeat (CThread 0) 10)). vm_compute. reflexivity. }
  destruct R as (ls & R). exists [[1; 0; 1]]%Z, [[1; 0; 1]]%Z, ls, (line "  1  0  1").
  split; [vm_compute; reflexivity|]. split; [exists 1; split; [vm_compute; reflexivity|left; cbn; auto]|]. split; [exact R|]. split; [split; [reflexivity|split; [reflexivity|]]; cbn; intuition|].
  split; [|split; [vm_compute; reflexivity|reflexivity]].
  intros r [<-|[]]; unfold m_vad_processed; eexists; vm_compute; reflexivity.
Qed.

(** Observations about the program's own output as known data. Facets printed together with equations, or in reduced form, are refused as known facets; the vertices and rays printed by adjacency
    decomposition are read as known vertices, but none of them is found, since the title "Vertices / Rays:" is not a keyword (and its rows would have a column too many). *)
Example C58_own_facets_refused : forall equations inequalities,
  (forall reduced, no_known_facets (facet_text equations inequalities false reduced)) /\ no_known_facets (facet_text equations inequalities true true).
Proof.
  intros equations inequalities. split.
  - intros reduced. unfold facet_text. cbv iota. rewrite <- app_assoc. cbn [app]. apply no_facets_title. apply keyword_itself. vm_compute. tauto.
  - unfold facet_text. cbv iota. cbn [app]. apply (no_facets_title (lit "Reduced Inequalities:")). apply keyword_itself. vm_compute. tauto.
Qed.
Example C58_own_vertices_ignored : known_vertices_text ([], []) (Some (line "Vertices / Rays:" ++ line "  1  0  1" ++ line "  0  1  0")) ([], []).
Proof.
  assert (P : forall w, ~ In newline (lit w) -> m_is_keyword (m_trim (lit w)) = false -> MapInput.plain_line (lit w)) by (intros w H1 H2; destruct (plain_or_keyword (lit w) H1) as [H|H]; [exact H|congruence]).
  apply (known_vertices_line _ (lit "Vertices / Rays:")); [left; apply P; [cbn; intuition discriminate|reflexivity]|].
  apply (known_vertices_line _ (lit "  1  0  1")); [left; apply P; [cbn; intuition discriminate|reflexivity]|].
  apply (known_vertices_line _ (lit "  0  1  0")); [left; apply P; [cbn; intuition discriminate|reflexivity]|].
  apply known_vertices_rest. apply (P EmptyString); [intros []|reflexivity].
Qed.
