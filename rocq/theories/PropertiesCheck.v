(** * PropertiesCheck: the option -c from the command line to the output (C59). *)
From Coq Require Import List ZArith QArith Arith Bool Ascii String Lia Lqa Permutation.
From Verif Require Import Base Spec LinAlg Cone ListUtil ArithModel MatrixModel FmeModel SafeIntModel IntTypes RowLcm StreamModel StreamProofs SortModel CliModel PropertiesCli InputModel InputProofs VertexInput ClassesModel
  ConstraintModel ConstraintInput ConstraintSection PropertiesVertices PropertiesConstraints OutputModel OutputProofs PropertiesOutput Hull Corners FmeCore FmePure FmePrepare FmeCorrect Refine MatrixRefine FmeRefine FmeTheorems DimTheorems NormTheorems
  Samples ClassesProofs ApplyTheorems OrbitTheorems OrbitExact PropertiesMaps PropertiesFme MapModel PropertiesProgram RotationModel RotationTheorems PropertiesRotation HeuristicTheorems ValidityModel PropertiesValidity
  NormalForm Symmetry Adjacency ValidityProofs PropertiesAd HullSame VertexSymmetry VertexImages PropertiesReduced FileModel FileProofs FileInput SystemFile PropertiesFile PropertiesSystem PropertiesMapFile
  ListModel AdModel VertexAdModel VertexGraph VertexEdge VertexAd VertexAdExact SafeClasses SafeFacets PropertiesVertexAd TypedModel TypedAdModel MainModel ModeDetection ListExec KnownFile PropertiesMain PropertiesMainAd PropertiesKnown Checked CheckedFile.
Import ListNotations.
Open Scope nat_scope.
Open Scope list_scope.

(** ** The checks only refuse *)
Lemma dd_refuses (p p0 : option prints) : (p = p0 \/ p = Some ([], Throw) \/ p = Some ([], UB)) ->
  (forall out e, m_dd_ends p out e <-> m_dd_ends p0 out e) \/ only_ends (m_dd_ends p) [] (Status 1) \/ (forall out e, m_dd_ends p out e -> e = Undefined).
Proof. intros [->|[->| ->]]; [left; reflexivity|right; left; intros out e; reflexivity|right; right; intros out e (_ & ->); reflexivity]. Qed.
Lemma calco_stricter {X} (x y : res (option X)) k : stricter x y -> calco y k = calco x k \/ calco y k = Some ([], Throw) \/ calco y k = Some ([], UB).
Proof. intros [->|[->| ->]]; auto. Qed.
(** The same command line with the flag -c (or --check) and without it: the program does the same, or prints nothing and ends with status 1; or its behaviour is undefined (the checks calculate with int). *)
Theorem C59_only_refuses : forall flag pre post texts order fs fuel hardware, check_flag flag -> complete pre -> pre ++ post <> [] ->
  let checked := m_main texts order fs fuel hardware (pre ++ flag :: post) in let unchecked := m_main texts order fs fuel hardware (pre ++ post) in
  (forall out e, checked out e <-> unchecked out e) \/ only_ends checked [] (Status 1) \/ (forall out e, checked out e -> e = Undefined).
Proof.
  intros flag pre post texts order fs fuel hardware HF HC Hn. cbv zeta. unfold m_main. rewrite (detect_mode_with flag pre post HF HC fs Hn).
  destruct (m_detect_mode fs (pre ++ post)) as [mode| |]; [|left; reflexivity|left; reflexivity]. cbn [m_uncaught]. destruct mode; try (left; reflexivity).
  - unfold m_facet_main. rewrite (method_with flag pre post HF HC), (type_with flag pre post HF HC). destruct (m_method (pre ++ post)) as [method| |]; [|left; reflexivity|left; reflexivity]. cbn [m_uncaught].
    destruct (m_integer_type (pre ++ post)) as [choice| |]; [|left; reflexivity|left; reflexivity]. cbn [m_uncaught]. assert (HS := input_vertices_strict flag pre post HF HC fs fuel).
    destruct (m_selected choice) as [t|], method; try (left; reflexivity); try (apply dd_refuses, calco_stricter, HS).
    all: unfold m_facet_ad, m_inf_facet_ad, g_facet_ad; rewrite (threads_with flag pre post HF HC hardware); destruct HS as [->|[->| ->]]; [left; reflexivity|right; left; intros out e; reflexivity|right; right; auto].
  - unfold m_vertex_main. rewrite (method_with flag pre post HF HC), (type_with flag pre post HF HC). destruct (m_method (pre ++ post)) as [method| |]; [|left; reflexivity|left; reflexivity]. cbn [m_uncaught].
    destruct (m_integer_type (pre ++ post)) as [choice| |]; [|left; reflexivity|left; reflexivity]. cbn [m_uncaught]. assert (HS := input_inequalities_strict flag pre post HF HC fs fuel).
    destruct (m_selected choice) as [t|], method; try (left; reflexivity); try (apply dd_refuses, calco_stricter, HS).
    all: unfold m_vertex_ad, m_inf_vertex_ad, g_vertex_ad; rewrite (threads_with flag pre post HF HC hardware); destruct HS as [->|[->| ->]]; [left; reflexivity|right; left; intros out e; reflexivity|right; right; auto].
  - left. unfold m_help_command. rewrite (help_flag flag pre post HF HC). reflexivity.
Qed.
Print Assumptions C59_only_refuses.

(** So what it prints when it succeeds is what it prints without the flag. *)
Lemma succeeds_unchecked flag pre post texts order fs fuel hardware out : check_flag flag -> complete pre -> pre ++ post <> [] ->
  m_main texts order fs fuel hardware (pre ++ flag :: post) out (Status 0) -> m_main texts order fs fuel hardware (pre ++ post) out (Status 0).
Proof.
  intros HF HC Hn H. destruct (C59_only_refuses flag pre post texts order fs fuel hardware HF HC Hn) as [K|[K|K]]; [apply K; auto|apply K in H; destruct H; discriminate|apply K in H; discriminate].
Qed.

(** ** Maps that were checked are symmetries *)
Lemma facet_main_reads order fs fuel hardware args out : m_facet_main order fs fuel hardware args out (Status 0) -> exists r, m_input_vertices fs fuel args = Ok (Some r).
Proof.
  intros H. unfold m_facet_main in H. destruct (m_method args) as [method| |]; [|destruct H; discriminate|discriminate]. cbn [m_uncaught] in H. destruct (m_integer_type args) as [choice| |]; [|destruct H; discriminate|discriminate]. cbn [m_uncaught] in H.
  destruct (m_input_vertices fs fuel args) as [[r|]| |] eqn:E; [eauto|exfalso..];
    destruct (m_selected choice) as [t|], method; unfold m_facet_ad, m_inf_facet_ad, g_facet_ad, m_facet_program, m_inf_facet_program in H; try rewrite E in H; cbn [calco] in H; try (destruct H; discriminate H0); try contradiction; try discriminate;
    destruct H; discriminate.
Qed.
Lemma vertices_read_accepted fs args name t c : m_filename args = Ok name -> m_check_validity args = true -> fs name = Some t -> early_keyword t -> file_text nothing (Some t) c -> maps_first t ->
  exists fuel0, forall fuel r, fuel0 <= fuel -> m_input_vertices fs fuel args = Ok (Some r) -> accepted c.
Proof.
  intros A1 A3 HF HE HT HM. destruct (inner_accepted nothing (Some t) c HT) as (f0 & K). exists f0. intros fuel r Hf H. unfold m_input_vertices in H. rewrite A1 in H. cbn [bind] in H. unfold m_open in H. rewrite HF in H. cbn [bind] in H.
  rewrite early_keyword_ok in H by auto. cbn [negb] in H. rewrite A3 in H. change no_inner with (to_inner nothing) in H. apply bindo_some in H as (d & H & _).
  apply (K fuel d Hf [] (opened t)); auto; [left; reflexivity| |split; reflexivity]. destruct HM as [HM HU]. split; auto.
Qed.
Lemma main_accepted flag pre post order fs name so content c :
  check_flag flag -> complete pre -> Forall ordinary (pre ++ post) -> asks_file (pre ++ post) name so ->
  fs name = Some content -> early_keyword content -> file_text nothing (Some content) c -> ~ describes_system content -> maps_first content ->
  exists fuel0, forall texts fuel hardware out, fuel0 <= fuel -> m_main texts order fs fuel hardware (pre ++ flag :: post) out (Status 0) ->
    accepted c /\ m_main texts order fs fuel hardware (pre ++ post) out (Status 0).
Proof.
  intros HF HC HO HA HN HK HT HS HM. assert (Hn : pre ++ post <> []) by (intros E; rewrite E in HA; destruct HA as (HA & _); inversion HA).
  destruct (vertices_read_accepted fs (pre ++ flag :: post) name content c) as (f0 & K); auto; [rewrite filename_with by auto; apply (asks_file_ok _ _ _ HA)|apply with_flag; auto|].
  exists f0. intros texts fuel hardware out Hf H. split; [|revert H; apply succeeds_unchecked; auto].
  destruct (C53_mode fs (pre ++ post) name content HO (proj1 HA) HN) as (_ & M & _). specialize (M HS). rewrite <- (detect_mode_with flag pre post HF HC fs Hn) in M.
  apply (main_mode texts order fs fuel hardware _ _ M), facet_main_reads in H. destruct H as (r & H). apply (K fuel r); auto.
Qed.
Lemma file_accepted content c n : file_text nothing (Some content) c -> agree c n -> accepted c -> file_symmetries c n.
Proof. intros HT HG HA. apply accepted_symmetries; auto; [apply (file_is_sane (Some content)); auto|apply (file_affine nothing (Some content)); auto; constructor]. Qed.
Lemma accepted_or_not c : accepted c \/ ~ accepted c.
Proof.
  unfold accepted. destruct (m_check_maps (arith INT32) Vertex_tag (map point_row (c_points c)) (c_maps c)) as [[]| |]; [|right; intros (H & _); discriminate..]. destruct (m_check_maps (arith INT32) Vertex_tag (map ray_row (c_rays c)) (c_maps c)) as [[]| |]; [left; auto|right; intros (_ & H); discriminate..].
Qed.
(** The same call without the flag asks for the file, and the maps stand before the points and rays.  If the program with the flag succeeds, the maps are symmetries of the points and of the rays, and the
    output is that of the program without the flag. *)
Theorem C59_symmetries : forall flag pre post order fs name so content c n,
  check_flag flag -> complete pre -> Forall ordinary (pre ++ post) -> asks_file (pre ++ post) name so ->
  fs name = Some content -> early_keyword content -> file_text nothing (Some content) c -> ~ describes_system content -> maps_first content -> agree c n ->
  exists fuel0, forall texts fuel hardware out, fuel0 <= fuel -> m_main texts order fs fuel hardware (pre ++ flag :: post) out (Status 0) ->
    file_symmetries c n /\ m_main texts order fs fuel hardware (pre ++ post) out (Status 0).
Proof.
  intros flag pre post order fs name so content c n HF HC HO HA HN HK HT HS HM HG. destruct (main_accepted flag pre post order fs name so content c) as (f0 & K); auto.
  exists f0. intros texts fuel hardware out Hf H. destruct (K texts fuel hardware out Hf H) as (K1 & K2). split; auto. apply (file_accepted content); auto.
Qed.
Print Assumptions C59_symmetries.
(** So with the flag the output is correct without the assumption that the maps are symmetries (compare C53_facets_reduced): double description ... *)
Theorem C59_facets : forall flag pre post t order fs name so content c n (E F : list vec),
  check_flag flag -> complete pre -> let args := pre ++ post in
  t <> INT16 -> sort_order order -> Forall ordinary args -> chooses_method args DoubleDescription -> chooses_type args t ->
  asks args name so -> fs name = Some content -> early_keyword content -> file_text nothing (Some content) c -> ~ describes_system content -> maps_first content ->
  agree c n -> c_points c <> [] -> maps_normalise t n E (c_maps c) -> good_names (c_names c) ->
  m_extract_equations (arith t) (file_rows c so) = Ok E -> m_fme (arith t) order (file_rows c so) = Ok F -> Forall negatable_row E -> Forall negatable_row F ->
  exists fuel0, forall texts fuel hardware out, fuel0 <= fuel -> m_main texts order fs fuel hardware (pre ++ flag :: post) out (Status 0) ->
    exists equations Pe inequalities Pf,
      out = facet_text equations inequalities (match Pe with [] => true | _ => false end) (nonempty (c_maps c)) /\
      written (denotes (c_names c) n Equation) equations Pe /\ written (denotes (c_names c) n Inequality) inequalities Pf /\
      forall p : list Q, length p = n ->
        (hull n (map coordinates_of (c_points c)) (map coordinates_of (c_rays c)) p <->
         (forall k, In k Pe -> satisfies k p) /\ forall q k, moved (c_maps c) p q -> In k Pf -> satisfies k q).
Proof.
  intros flag pre post t order fs name so content c n E F HFl HC args Ht Ho HO HM HT HA HF HK HX HS HMf HG Hne Hnorm HN HE HFm BE BF.
  destruct (main_accepted flag pre post order fs name so content c HFl HC HO (asks_asks_file _ _ _ HA) HF HK HX HS HMf) as (f0 & K0).
  destruct (accepted_or_not c) as [Hacc|Hacc]; [|exists f0; intros texts fuel hardware out Hf H; exfalso; apply Hacc; apply (K0 texts fuel hardware out Hf H)].
  assert (Hsym := file_accepted content c n HX HG Hacc).
  destruct (C53_facets_reduced t order fs args name so content c n E F Ht Ho HO HM HT HA HF HK HX HS HG Hne Hsym Hnorm HN HE HFm BE BF) as (f1 & K1).
  exists (f0 + f1). intros texts fuel hardware out Hf H. apply (K1 texts fuel hardware out ltac:(lia)). apply (K0 texts fuel hardware out ltac:(lia) H).
Qed.
Print Assumptions C59_facets.
(** ... and adjacency decomposition. *)
Theorem C59_adjacency : forall flag pre post t order fs name so content c n (E F : list vec),
  check_flag flag -> complete pre -> let args := pre ++ post in
  t <> INT16 -> sort_order order -> Forall ordinary args -> chooses_method args AdjacencyDecomposition -> chooses_type args t ->
  asks args name so -> fs name = Some content -> early_keyword content -> file_text nothing (Some content) c -> ~ describes_system content -> maps_first content ->
  agree c n -> c_points c <> [] -> equations_allow t n E (c_maps c) -> good_names (c_names c) -> three_different_facets (S n) (file_rows c so) ->
  m_extract_equations (arith EXACT) (file_rows c so) = Ok E -> m_fme (arith EXACT) order (file_rows c so) = Ok F -> Forall negatable_row E -> Forall negatable_row F ->
  exists fuel0, forall texts fuel hardware out, fuel0 <= fuel -> m_main texts order fs fuel hardware (pre ++ flag :: post) out (Status 0) ->
    exists equations Pe inequalities Pf,
      out = facet_text equations inequalities (match Pe with [] => true | _ => false end) (nonempty (c_maps c)) /\
      written (denotes (c_names c) n Equation) equations Pe /\ written (line_denotes (c_names c) n Inequality) inequalities Pf /\
      forall p : list Q, length p = n ->
        (hull n (map coordinates_of (c_points c)) (map coordinates_of (c_rays c)) p <->
         (forall k, In k Pe -> satisfies k p) /\ forall q k, moved (c_maps c) p q -> In k Pf -> satisfies k q).
Proof.
  intros flag pre post t order fs name so content c n E F HFl HC args Ht Ho HO HM HT HA HF HK HX HS HMf HG Hne Hal HN H3 HE HFm BE BF.
  destruct (main_accepted flag pre post order fs name so content c HFl HC HO (asks_asks_file _ _ _ HA) HF HK HX HS HMf) as (f0 & K0).
  destruct (accepted_or_not c) as [Hacc|Hacc]; [|exists f0; intros texts fuel hardware out Hf H; exfalso; apply Hacc; apply (K0 texts fuel hardware out Hf H)].
  assert (Hsym := file_accepted content c n HX HG Hacc).
  destruct (C53_adjacency_reduced t order fs args name so content c n E F Ht Ho HO HM HT HA HF HK HX HS HG Hne Hsym Hal HN H3 HE HFm BE BF) as (f1 & K1).
  exists (f0 + f1). intros texts fuel hardware out Hf H. apply (K1 texts fuel hardware out ltac:(lia)). apply (K0 texts fuel hardware out ltac:(lia) H).
Qed.
Print Assumptions C59_adjacency.

(** ** Known facets that were checked *)
Lemma known_checked fs fuel args V names maps known : m_check_validity args = true -> m_input_vertices fs fuel args = Ok (Some (V, names, maps, known)) -> m_check_inequalities (arith INT32) V known = Ok tt.
Proof.
  intros HC H. unfold m_input_vertices in H. rewrite HC in H. apply bind_ok' in H as (filename & _ & H). apply bind_ok' in H as (s0 & _ & H). destruct (m_contains_keywords s0) as [b s]. destruct (negb b); [discriminate|].
  apply bindo_some in H as (d & _ & H). apply bind_ok' in H as (u & _ & H). apply bind_ok' in H as (o & _ & H). apply bind_ok' in H as (k & _ & H). apply bind_ok' in H as ([] & E & H).
  injection H as <- _ _ <-. exact E.
Qed.
Lemma check_or_not (V rows : list vec) : m_check_inequalities (arith INT32) V rows = Ok tt \/ m_check_inequalities (arith INT32) V rows <> Ok tt.
Proof. destruct (m_check_inequalities (arith INT32) V rows) as [[]| |]; [left|right|right]; congruence. Qed.
Lemma known_checked_facets n V names content K : dims (S n) V -> rows_representable INT32 V -> readable_names names -> known_facets_text names content K -> (forall k, In k K -> fst k = n) ->
  (forall k, In k K -> ~ equivalent_ineq V (wide_row k) (trivial_row (S n))) -> m_check_inequalities (arith INT32) V (map wide_row K) = Ok tt -> facets_known n V K.
Proof.
  intros HD HR HN HX HL HT HC k Hk. split; auto. assert (G := known_facets_good names content K HN HX). rewrite Forall_forall in G.
  assert (L : forall k, In k K -> length (wide_row k) = S n) by (intros k0 Hk0; rewrite wide_row_length, (HL k0 Hk0); auto).
  assert (VF : valid_facet (S n) V (wide_row k)).
  { apply (C36_accepted INT32 (S n) V (map wide_row K)); auto; [discriminate| | |apply in_map; auto]; apply Forall_forall; intros r Hr; apply in_map_iff in Hr as (k0 & <- & Hk0); [|apply L; auto].
    destruct (G k0 Hk0) as (_ & _ & _ & I). eapply Forall_impl; [|exact I]. intros z Hz. cbn. apply int_fits; auto. }
  apply (proper_facet_iff (S n) V (wide_row k)) in VF; auto. apply VF.
Qed.
(** With the flag neither the maps nor the known facets have to be right (compare C58_adjacency_reduced); only the trivial inequality is accepted although it is no facet of the hull if it is one of the cone over it. *)
Theorem C59_known_facets : forall flag pre post t order fs name so content c n kname kcontent K (E F : list vec),
  check_flag flag -> complete pre -> let args := pre ++ post in
  t <> INT16 -> sort_order order -> Forall ordinary args -> chooses_method args AdjacencyDecomposition -> chooses_type args t ->
  asks_file args name so -> fs name = Some content -> early_keyword content -> file_text nothing (Some content) c -> ~ describes_system content -> maps_first content ->
  agree c n -> c_points c <> [] -> equations_allow t n E (c_maps c) -> good_names (c_names c) -> three_different_facets (S n) (file_rows c so) ->
  names_facets args kname -> fs kname = Some kcontent -> readable_names (c_names c) -> known_facets_text (c_names c) kcontent K -> (forall k, In k K -> fst k = n) ->
  (forall k, In k K -> ~ equivalent_ineq (file_rows c so) (wide_row k) (trivial_row (S n))) ->
  m_extract_equations (arith EXACT) (file_rows c so) = Ok E -> m_fme (arith EXACT) order (file_rows c so) = Ok F -> Forall negatable_row E -> Forall negatable_row F ->
  exists fuel0, forall texts fuel hardware out, fuel0 <= fuel -> m_main texts order fs fuel hardware (pre ++ flag :: post) out (Status 0) ->
    exists equations Pe inequalities Pf,
      out = facet_text equations inequalities (match Pe with [] => true | _ => false end) (nonempty (c_maps c)) /\
      written (denotes (c_names c) n Equation) equations Pe /\ written (line_denotes (c_names c) n Inequality) inequalities Pf /\
      forall p : list Q, length p = n ->
        (hull n (map coordinates_of (c_points c)) (map coordinates_of (c_rays c)) p <->
         (forall k, In k Pe -> satisfies k p) /\ forall q k, moved (c_maps c) p q -> In k Pf -> satisfies k q).
Proof.
  intros flag pre post t order fs name so content c n kname kcontent K E F HFl HC args Ht Ho HO HM HT HA HF HK HX HS HMf HG Hne Hal HN H3 HKn HKf HNr HKt HKl HKx HE HFm BE BF.
  destruct (main_accepted flag pre post order fs name so content c HFl HC HO HA HF HK HX HS HMf) as (f0 & K0).
  destruct (known_input_facets fs args name so content c n kname kcontent K HA HF HK HX HG HKn HKf HNr HKt) as (f1 & KI).
  destruct (accepted_or_not c) as [Hacc|Hacc]; [|exists f0; intros texts fuel hardware out Hf H; exfalso; apply Hacc; apply (K0 texts fuel hardware out Hf H)].
  destruct (check_or_not (file_rows c so) (map wide_row K)) as [Hck|Hck].
  2:{ exists f1. intros texts fuel hardware out Hf H. exfalso. apply Hck. assert (Hn : args <> []) by (intros E0; rewrite E0 in HA; destruct HA as (HA & _); inversion HA).
      destruct (C53_mode fs args name content HO (proj1 HA) HF) as (_ & M & _). specialize (M HS). unfold args in M. rewrite <- (detect_mode_with flag pre post HFl HC fs Hn) in M.
      apply (main_mode texts order fs fuel hardware _ _ M), facet_main_reads in H. destruct H as (r & H).
      destruct (input_vertices_strict flag pre post HFl HC fs fuel) as [E0|[E0|E0]]; rewrite H in E0; [|discriminate..]. rewrite <- H in E0. fold args in E0. rewrite (KI fuel Hf) in E0.
      apply (known_checked fs fuel (pre ++ flag :: post) _ (c_names c) (c_maps c)); auto. apply with_flag; auto. }
  assert (Hsym := file_accepted content c n HX HG Hacc). assert (HSane := file_is_sane (Some content) c HX).
  destruct (file_rows_facts c so n HSane HG Hne) as (HP & HD & HH & HR).
  assert (HKk := known_checked_facets n (file_rows c so) (c_names c) kcontent K HD (HR INT32 ltac:(discriminate)) HNr HKt HKl HKx Hck).
  destruct (C58_adjacency_reduced t order fs args name so content c n kname kcontent K E F Ht Ho HO HM HT HA HF HK HX HS HG Hne Hsym Hal HN H3 HKn HKf HNr HKt HKk HE HFm BE BF) as (f2 & K2).
  exists (f0 + f2). intros texts fuel hardware out Hf H. apply (K2 texts fuel hardware out ltac:(lia)). apply (K0 texts fuel hardware out ltac:(lia) H).
Qed.
Print Assumptions C59_known_facets.

(** ** Constraints *)
Lemma vertex_main_reads order fs fuel hardware args out : m_vertex_main order fs fuel hardware args out (Status 0) -> exists r, m_input_inequalities fs fuel args = Ok (Some r).
Proof.
  intros H. unfold m_vertex_main in H. destruct (m_method args) as [method| |]; [|destruct H; discriminate|discriminate]. cbn [m_uncaught] in H. destruct (m_integer_type args) as [choice| |]; [|destruct H; discriminate|discriminate]. cbn [m_uncaught] in H.
  destruct (m_input_inequalities fs fuel args) as [[r|]| |] eqn:E; [eauto|exfalso..];
    destruct (m_selected choice) as [t|], method; unfold m_vertex_ad, m_inf_vertex_ad, g_vertex_ad, m_vertex_program, m_inf_vertex_program in H; try rewrite E in H; cbn [calco] in H; try (destruct H; discriminate H0); try contradiction; try discriminate;
    destruct H; discriminate.
Qed.
Lemma constraints_read_accepted fs args name t c : m_filename args = Ok name -> m_check_validity args = true -> fs name = Some t -> early_keyword t -> system_text no_system (Some t) c -> constraint_maps_first t ->
  exists fuel0, forall fuel r, fuel0 <= fuel -> m_input_inequalities fs fuel args = Ok (Some r) -> accepted_system c.
Proof.
  intros A1 A3 HF HE HT HM. destruct (outer_accepted no_system (Some t) c HT) as (f0 & K). exists f0. intros fuel r Hf H. unfold m_input_inequalities in H. rewrite A1 in H. cbn [bind] in H. unfold m_open in H. rewrite HF in H. cbn [bind] in H.
  rewrite early_keyword_ok in H by auto. cbn [negb] in H. rewrite A3 in H. change no_outer with (to_outer no_system) in H. apply bindo_some in H as (d & H & _).
  apply (K fuel d Hf [] (opened t)); auto; [left; reflexivity| |reflexivity]. split; [apply HM|]. right. split; [reflexivity|apply HM].
Qed.
Lemma main_accepted_system flag pre post order fs name so content s :
  check_flag flag -> complete pre -> Forall ordinary (pre ++ post) -> asks_file (pre ++ post) name so ->
  fs name = Some content -> early_keyword content -> system_text no_system (Some content) s -> ~ describes_hull content -> describes_system content -> constraint_maps_first content ->
  exists fuel0, forall texts fuel hardware out, fuel0 <= fuel -> m_main texts order fs fuel hardware (pre ++ flag :: post) out (Status 0) ->
    accepted_system s /\ m_main texts order fs fuel hardware (pre ++ post) out (Status 0).
Proof.
  intros HF HC HO HA HN HK HT HS1 HS2 HM. assert (Hn : pre ++ post <> []) by (intros E; rewrite E in HA; destruct HA as (HA & _); inversion HA).
  destruct (constraints_read_accepted fs (pre ++ flag :: post) name content s) as (f0 & K); auto; [rewrite filename_with by auto; apply (asks_file_ok _ _ _ HA)|apply with_flag; auto|].
  exists f0. intros texts fuel hardware out Hf H. split; [|revert H; apply succeeds_unchecked; auto].
  destruct (C53_mode fs (pre ++ post) name content HO (proj1 HA) HN) as (_ & _ & M). specialize (M (conj HS1 HS2)). rewrite <- (detect_mode_with flag pre post HF HC fs Hn) in M.
  apply (main_mode texts order fs fuel hardware _ _ M), vertex_main_reads in H. destruct H as (r & H). apply (K fuel r); auto.
Qed.
Lemma system_accepted_or_not s : accepted_system s \/ ~ accepted_system s.
Proof. unfold accepted_system. destruct (m_check_maps (arith INT32) Facet_tag (map wide_row (s_inequalities s)) (s_maps s)) as [[]| |]; [left; auto|right; discriminate..]. Qed.
(** The maps, which stand before the inequalities, permute the inequalities up to positive factors (the equations are not checked: they are a condition here). *)
Definition equation_symmetries (s : system) (n : nat) : Prop := forall m, In m (s_maps s) ->
  length m = S n /\ rearranges (fun k l : wide => exists a, ~ (a == 0)%Q /\ forall p, length p = n -> (excess (snd k) (moved_by m p) == a * excess (snd l) p)%Q) (s_equations s).
Lemma system_accepted content s n : system_text no_system (Some content) s -> fits_together s n -> equation_symmetries s n -> accepted_system s -> constraint_symmetries s n.
Proof.
  intros HT HG HE HA m Hm. destruct (accepted_constraints s n) with (m := m) as (M1 & M2 & M3); auto; [apply (system_sound _ _ _ HT no_system_sound)|apply (system_affine _ _ _ HT); constructor|intros m0 Hm0; apply (HE m0 Hm0)|].
  split; auto. split; auto. split; auto. apply (HE m Hm).
Qed.
Theorem C59_constraint_symmetries : forall flag pre post order fs name so content s n,
  check_flag flag -> complete pre -> Forall ordinary (pre ++ post) -> asks_file (pre ++ post) name so ->
  fs name = Some content -> early_keyword content -> system_text no_system (Some content) s -> ~ describes_hull content -> describes_system content -> constraint_maps_first content ->
  fits_together s n -> equation_symmetries s n ->
  exists fuel0, forall texts fuel hardware out, fuel0 <= fuel -> m_main texts order fs fuel hardware (pre ++ flag :: post) out (Status 0) ->
    constraint_symmetries s n /\ m_main texts order fs fuel hardware (pre ++ post) out (Status 0).
Proof.
  intros flag pre post order fs name so content s n HF HC HO HA HN HK HT HS1 HS2 HM HG HE. destruct (main_accepted_system flag pre post order fs name so content s) as (f0 & K); auto.
  exists f0. intros texts fuel hardware out Hf H. destruct (K texts fuel hardware out Hf H) as (K1 & K2). split; auto. apply (system_accepted content); auto.
Qed.
Print Assumptions C59_constraint_symmetries.
Theorem C59_vertices : forall flag pre post t order fs name so content s n (F : list vec),
  check_flag flag -> complete pre -> let args := pre ++ post in
  t <> INT16 -> sort_order order -> Forall ordinary args -> chooses_method args DoubleDescription -> chooses_type args t ->
  asks args name so -> fs name = Some content -> early_keyword content -> system_text no_system (Some content) s -> ~ describes_hull content -> describes_system content ->
  constraint_maps_first content -> fits_together s n -> equations_fit s n -> 0 < n -> equation_symmetries s n -> pointed n (constraints_of s) ->
  m_fme (arith t) order (system_rows s so) = Ok F -> Forall negatable_row F ->
  exists fuel0, forall texts fuel hardware out, fuel0 <= fuel -> m_main texts order fs fuel hardware (pre ++ flag :: post) out (Status 0) ->
  exists vertices P rays R,
    out = vertex_text vertices rays (match P with [] => true | _ => false end) (match R with [] => true | _ => false end) (nonempty (s_maps s)) /\
    section_lines vertices P /\ section_lines rays R /\
    (forall p : list Q, length p = n -> (all_satisfied (constraints_of s) p <-> exists points directions,
      (forall q, In q points -> exists q0, In q0 (map coordinates_of P) /\ moved (s_maps s) q0 q) /\ (forall d, In d directions -> exists d0, In d0 (map coordinates_of R) /\ turned (s_maps s) d0 d) /\
      hull n points directions p)) /\
    (forall p, vertex_of n (all_satisfied (constraints_of s)) p -> exists q p', In q (map coordinates_of P) /\ moved (s_maps s) p p' /\ same_point p' q) /\
    listed_once (fun p q => exists p', moved (s_maps s) p p' /\ same_point p' q) (map coordinates_of P) /\
    (forall d, extreme_move n (constraints_of s) d -> exists e d', In e (map coordinates_of R) /\ turned (s_maps s) d d' /\ multiple d' e) /\
    listed_once (fun d e => exists d', turned (s_maps s) d d' /\ multiple d' e) (map coordinates_of R).
Proof.
  intros flag pre post t order fs name so content s n F HFl HC args Ht Ho HO HM HT HA HF HK HX HS1 HS2 HMf HG He H0 Hes HP HFm BF.
  destruct (main_accepted_system flag pre post order fs name so content s HFl HC HO (asks_asks_file _ _ _ HA) HF HK HX HS1 HS2 HMf) as (f0 & K0).
  destruct (system_accepted_or_not s) as [Hacc|Hacc]; [|exists f0; intros texts fuel hardware out Hf H; exfalso; apply Hacc; apply (K0 texts fuel hardware out Hf H)].
  assert (Hsym := system_accepted content s n HX HG Hes Hacc).
  destruct (C53_vertices_reduced t order fs args name so content s n F Ht Ho HO HM HT HA HF HK HX HS1 HS2 HG He H0 Hsym HP HFm BF) as (f1 & K1).
  exists (f0 + f1). intros texts fuel hardware out Hf H. apply (K1 texts fuel hardware out ltac:(lia)). apply (K0 texts fuel hardware out ltac:(lia) H).
Qed.
Print Assumptions C59_vertices.

(** ** Known vertices that were checked *)
Lemma known_vertices_were_checked fs fuel args A names maps known : m_check_validity args = true -> m_input_inequalities fs fuel args = Ok (Some (A, names, maps, known)) -> m_check_vertices (arith INT32) A known = Ok tt.
Proof.
  intros HC H. unfold m_input_inequalities in H. rewrite HC in H. apply bind_ok' in H as (filename & _ & H). apply bind_ok' in H as (s0 & _ & H). destruct (m_contains_keywords s0) as [b s]. destruct (negb b); [discriminate|].
  apply bindo_some in H as (d & _ & H). apply bind_ok' in H as (u & _ & H). apply bind_ok' in H as (ps & _ & H). apply bind_ok' in H as (o & _ & H). apply bind_ok' in H as (l & _ & H). apply bind_ok' in H as (tr & _ & H).
  apply bindo_some in H as (k & _ & H). apply bind_ok' in H as ([] & E & H). injection H as <- _ _ <-. exact E.
Qed.
Lemma vertex_check_or_not (V rows : list vec) : m_check_vertices (arith INT32) V rows = Ok tt \/ m_check_vertices (arith INT32) V rows <> Ok tt.
Proof. destruct (m_check_vertices (arith INT32) V rows) as [[]| |]; [left|right|right]; congruence. Qed.
Lemma known_checked_generators n s so g content : fits_together s n -> equations_fit s n -> sound_system s -> pointed n (constraints_of s) -> rows_representable INT32 (system_rows s so) ->
  known_vertices_text ([], []) (Some content) g -> (forall p, In p (fst g ++ snd g) -> length p = n) ->
  m_check_vertices (arith INT32) (system_rows s so) (generator_rows_of g) = Ok tt -> generators_known_for n s g.
Proof.
  intros Hn He HS HP HR HX HL HC. destruct (generators_sane _ _ _ HX no_generators_sane) as ((P1 & P2) & (R1 & R2)). rewrite Forall_forall in P1, R1.
  assert (LR : forall q, In q (fst g ++ snd g) -> length (point_row q) = S n /\ length (ray_row q) = S n) by (intros q Hq; destruct (row_lengths q) as [K1 K2]; rewrite K1, K2, (HL q Hq); auto).
  destruct (system_rows_form s so n Hn He) as (rows & Erows & HPm & HD). assert (HU : In (unit_vec (S n) n (-1)) (system_rows s so)) by (rewrite Erows; apply in_app_iff; right; left; reflexivity).
  assert (HDs : dims (S n) (system_rows s so)) by (rewrite Erows; apply Forall_app; split; auto; repeat constructor; apply unit_vec_length).
  assert (X : forall x, In x (generator_rows_of g) -> extreme_ray (S n) (system_rows s so) x).
  { intros x Hx. apply (C36_vertices_accepted INT32 (S n) (system_rows s so) (generator_rows_of g)); auto; [discriminate| | |apply pointed_no_line; auto].
    - unfold generator_rows_of. apply Forall_app. split; eapply Forall_impl; try exact P2; try exact R2; intros r Hr; eapply Forall_impl; try exact Hr; intros z Hz; cbn; apply int_fits; auto.
    - unfold generator_rows_of. apply Forall_app. split; apply Forall_forall; intros r Hr; apply in_map_iff in Hr as (p & <- & Hp); apply LR; apply in_app_iff; auto. }
  split.
  - intros p Hp. apply (system_corner s so n); auto. destruct (point_row_stands n p (P1 p Hp) (HL p ltac:(apply in_app_iff; auto))) as (xs & l & E & Hx & Hl & HXc).
    apply (corner_extreme n (system_rows s so) (coordinates_of p) xs l); auto. rewrite <- E. apply X. apply in_app_iff. first [left; apply in_map; auto; fail|right; apply in_map; auto].
  - intros p Hp. apply (system_extreme s so n); auto. destruct (ray_row_stands n p (R1 p Hp) (HL p ltac:(apply in_app_iff; auto))) as (xs & l & E & Hx & Hl & HXc).
    apply (direction_extreme n (system_rows s so) (coordinates_of p) xs l); auto. rewrite <- E. apply X. apply in_app_iff. first [left; apply in_map; auto; fail|right; apply in_map; auto].
Qed.
(** With the flag the known vertices and rays do not have to be right, nor the maps, as far as the inequalities are concerned (compare C58_vertex_adjacency). *)
Theorem C59_known_vertices : forall flag pre post t order fs name so content s n kname kcontent g (F : list vec),
  check_flag flag -> complete pre -> let args := pre ++ post in
  t <> INT16 -> sort_order order -> Forall ordinary args -> chooses_method args AdjacencyDecomposition -> chooses_type args t ->
  asks_file args name so -> fs name = Some content -> early_keyword content -> system_text no_system (Some content) s -> ~ describes_hull content -> describes_system content ->
  constraint_maps_first content -> fits_together s n -> equations_fit s n -> 0 < n -> equation_symmetries s n -> pointed n (constraints_of s) ->
  names_vertices args kname -> fs kname = Some kcontent -> known_vertices_text ([], []) (Some kcontent) g -> (forall p, In p (fst g ++ snd g) -> length p = n) ->
  m_fme (arith EXACT) order (system_rows s so) = Ok F -> Forall negatable_row F ->
  exists fuel0, forall texts fuel hardware out, fuel0 <= fuel -> m_main texts order fs fuel hardware (pre ++ flag :: post) out (Status 0) ->
    exists lines (rows : list vec),
      out = (if nonempty (s_maps s) then lit "Reduced " else []) ++ lit "Vertices / Rays:" ++ newline :: lines /\ section_lines lines (map whole rows) /\ NoDup rows /\
      lists_generators n s rows /\
      (no_hidden_edge n (all_satisfied (constraints_of s)) -> lists_all_generators n s rows).
Proof.
  intros flag pre post t order fs name so content s n kname kcontent g F HFl HC args Ht Ho HO HM HT HA HF HK HX HS1 HS2 HMf HG He H0 Hes HP HKn HKf HKt HKl HFm BF.
  destruct (main_accepted_system flag pre post order fs name so content s HFl HC HO HA HF HK HX HS1 HS2 HMf) as (f0 & K0).
  destruct (known_input_vertices fs args name so content s n kname kcontent g HA HF HK HX HG HKn HKf HKt) as (f1 & KI).
  destruct (system_accepted_or_not s) as [Hacc|Hacc]; [|exists f0; intros texts fuel hardware out Hf H; exfalso; apply Hacc; apply (K0 texts fuel hardware out Hf H)].
  destruct (vertex_check_or_not (system_rows s so) (generator_rows_of g)) as [Hck|Hck].
  2:{ exists f1. intros texts fuel hardware out Hf H. exfalso. apply Hck. assert (Hn : args <> []) by (intros E0; rewrite E0 in HA; destruct HA as (HA & _); inversion HA).
      destruct (C53_mode fs args name content HO (proj1 HA) HF) as (_ & _ & M). specialize (M (conj HS1 HS2)). unfold args in M. rewrite <- (detect_mode_with flag pre post HFl HC fs Hn) in M.
      apply (main_mode texts order fs fuel hardware _ _ M), vertex_main_reads in H. destruct H as (r & H).
      destruct (input_inequalities_strict flag pre post HFl HC fs fuel) as [E0|[E0|E0]]; rewrite H in E0; [|discriminate..]. rewrite <- H in E0. fold args in E0. rewrite (KI fuel Hf) in E0.
      apply (known_vertices_were_checked fs fuel (pre ++ flag :: post) _ (s_names s) (s_maps s)); auto. apply with_flag; auto. }
  assert (Hsym := system_accepted content s n HX HG Hes Hacc). assert (HS := system_sound _ _ _ HX no_system_sound).
  assert (HKk := known_checked_generators n s so g kcontent HG He HS HP (proj2 (proj2 (system_rows_facts s so n HG He HS)) INT32 ltac:(discriminate)) HKt HKl Hck).
  destruct (C58_vertex_adjacency t order fs args name so content s n kname kcontent g F Ht Ho HO HM HT HA HF HK HX HS1 HS2 HG He H0 Hsym HP HKn HKf HKt HKk HFm BF) as (f2 & K2).
  exists (f0 + f2). intros texts fuel hardware out Hf H. apply (K2 texts fuel hardware out ltac:(lia)). apply (K0 texts fuel hardware out ltac:(lia) H).
Qed.
Print Assumptions C59_known_vertices.

(** ** Examples *)
Definition checked_args : list text := lit "-c" :: dd_args.
Lemma checked_facets texts fs fuel p : m_detect_mode fs checked_args = Ok FacetEnumeration -> m_facet_program SAFE sorted_order fs fuel checked_args = p ->
  forall out e, m_main texts sorted_order fs fuel 4 checked_args out e <-> m_dd_ends p out e.
Proof.
  intros M <- out e. rewrite (main_mode texts sorted_order fs fuel 4 checked_args _ M). unfold m_facet_main. change (m_method checked_args) with (Ok DoubleDescription). cbn [m_uncaught].
  let v := eval vm_compute in (m_integer_type checked_args) in change (m_integer_type checked_args) with v. cbn [m_uncaught m_selected]. reflexivity.
Qed.
Lemma checked_vertices texts fs fuel p : m_detect_mode fs checked_args = Ok VertexEnumeration -> m_vertex_program SAFE sorted_order fs fuel checked_args = p ->
  forall out e, m_main texts sorted_order fs fuel 4 checked_args out e <-> m_dd_ends p out e.
Proof.
  intros M <- out e. rewrite (main_mode texts sorted_order fs fuel 4 checked_args _ M). unfold m_vertex_main. change (m_method checked_args) with (Ok DoubleDescription). cbn [m_uncaught].
  let v := eval vm_compute in (m_integer_type checked_args) in change (m_integer_type checked_args) with v. cbn [m_uncaught m_selected]. reflexivity.
Qed.
(** Deciding whether the maps come first. *)
Fixpoint prefixb (w t : text) : bool := match w, t with [], _ => true | _, [] => false | a :: w', b :: t' => Ascii.eqb a b && prefixb w' t' end.
Fixpoint occursb (w t : text) : bool := prefixb w t || match t with [] => false | _ :: t' => occursb w t' end.
Fixpoint before_check (words : list string) (t : text) : bool :=
  (negb (existsb (fun w => prefixb (lit w) t) words) || forallb (fun m => negb (occursb (lit m) t)) maps_words) && match t with [] => true | _ :: t' => before_check words t' end.
Lemma prefixb_app w y : prefixb w (w ++ y) = true.
Proof. induction w as [|a w IH]; [destruct y; reflexivity|]. cbn. rewrite Ascii.eqb_refl. auto. Qed.
Lemma occursb_app x w y : occursb w (x ++ w ++ y) = true.
Proof.
  induction x as [|a x IH]; [|cbn [app occursb]; rewrite IH; apply orb_true_r]. cbn [app]. assert (P := prefixb_app w y). destruct (w ++ y); cbn [occursb]; rewrite P; auto.
Qed.
Lemma check_suffix words x t : before_check words (x ++ t) = true -> before_check words t = true.
Proof. induction x as [|a x IH]; auto. cbn [app before_check]. rewrite andb_true_iff. intros [_ H]. auto. Qed.
Lemma before_ok words t : before_check words t = true -> maps_before words t.
Proof.
  intros H x title y m E (u & w & v & Et & Hw & _ & _) Hm (y1 & y2 & Ey). subst t title y. rewrite <- !app_assoc in H. apply check_suffix in H. apply check_suffix in H.
  set (z := lit w ++ v ++ newline :: y1 ++ lit m ++ y2) in *. assert (P : prefixb (lit w) z = true) by apply prefixb_app.
  assert (O : occursb (lit m) z = true) by (replace z with ((lit w ++ v ++ newline :: y1) ++ lit m ++ y2) by (unfold z; rewrite <- !app_assoc; reflexivity); apply occursb_app).
  assert (K : (negb (existsb (fun w => prefixb (lit w) z) words) || forallb (fun m => negb (occursb (lit m) z)) maps_words) = true) by (destruct z; cbn [before_check] in H; apply andb_true_iff in H; apply H).
  apply orb_true_iff in K as [K|K].
  - apply negb_true_iff in K. assert (K' : existsb (fun w => prefixb (lit w) z) words = true) by (apply existsb_exists; eauto). congruence.
  - rewrite forallb_forall in K. specialize (K m Hm). rewrite O in K. discriminate.
Qed.
Fixpoint untitled_check (words : list string) (t : text) : bool := negb (existsb (fun w => prefixb (lit w) t) words) && match t with [] => true | _ :: t' => untitled_check words t' end.
Lemma untitled_ok words t : untitled_check words t = true -> untitled words t.
Proof.
  intros H x title y E (u & w & v & Et & Hw & _ & _). subst t title. rewrite <- !app_assoc in H.
  assert (SF : forall a b, untitled_check words (a ++ b) = true -> untitled_check words b = true) by (induction a as [|c a IH]; intros b; auto; cbn [app untitled_check]; rewrite andb_true_iff; intros [_ K]; auto).
  apply SF in H. apply SF in H. set (z := lit w ++ v ++ newline :: y) in *. assert (P : prefixb (lit w) z = true) by apply prefixb_app.
  assert (K : negb (existsb (fun w => prefixb (lit w) z) words) = true) by (destruct z; cbn [untitled_check] in H; apply andb_true_iff in H; apply H).
  apply negb_true_iff in K. assert (K' : existsb (fun w => prefixb (lit w) z) words = true) by (apply existsb_exists; eauto). congruence.
Qed.
(** A file with the points (1, 0) and (0, 1), the same rays, and the map that exchanges x and y; and the system x + y = 1, -x <= 0, -y <= 0 with that map. *)
Definition corner_file : text := line "Names:" ++ line "x y" ++ line "" ++ line "Maps:" ++ line "y x" ++ line "" ++ line "Vertices:" ++ line "1 0" ++ line "0 1" ++ line "" ++ line "Rays:" ++ line "1 0" ++ line "0 1".
Definition corner_contents : contents :=
  {| c_points := [[(1, 1); (0, 1)]; [(0, 1); (1, 1)]]%Z; c_rays := [[(1, 1); (0, 1)]; [(0, 1); (1, 1)]]%Z; c_names := [lit "x"; lit "y"];
     c_maps := [[[(1, 1%Z)]; [(0, 1%Z)]; [(2, 1%Z)]]]; c_dimension := None |}.
Lemma empty_line : MapInput.plain_line [].
Proof. destruct (plain_or_keyword [] ltac:(intros [])) as [H|H]; [exact H|discriminate H]. Qed.
Example corner_text : file_text nothing (Some corner_file) corner_contents.
Proof.
  apply (file_names nothing (lit "Names:") (lit "x y") [lit "x"; lit "y"] [newline; newline] (lit "Maps:")
    (line "y x" ++ line "" ++ line "Vertices:" ++ line "1 0" ++ line "0 1" ++ line "" ++ line "Rays:" ++ line "1 0" ++ line "0 1")); try (apply keyword_itself; vm_compute; tauto); try discriminate; try apply xy_text.
  - repeat constructor.
  - apply (file_line _ []); [left; exact empty_line|]. apply (file_line _ []); [left; exact empty_line|].
    apply (file_maps _ (lit "Maps:") (line "y x" ++ line "") [[[(1, 1%Z)]; [(0, 1%Z)]]] (line "Vertices:" ++ line "1 0" ++ line "0 1" ++ line "" ++ line "Rays:" ++ line "1 0" ++ line "0 1") []
      (Some (line "Vertices:" ++ line "1 0" ++ line "0 1" ++ line "" ++ line "Rays:" ++ line "1 0" ++ line "0 1"))); cbn [c_names].
    + apply xy_good.
    + apply keyword_itself. vm_compute. tauto.
    + apply (written_line _ (lit "y x") _ (line "") []); [exact exchange_line|apply (written_blank _ [] [] []); constructor].
    + apply (follows_keyword _ (lit "Vertices:") (line "1 0" ++ line "0 1" ++ line "" ++ line "Rays:" ++ line "1 0" ++ line "0 1")); [apply keyword_itself; vm_compute; tauto|reflexivity].
    + apply (file_points _ (lit "Vertices:") (line "1 0" ++ line "0 1" ++ line "") [[(1, 1); (0, 1)]; [(0, 1); (1, 1)]]%Z (line "Rays:" ++ line "1 0" ++ line "0 1") [] (Some (line "Rays:" ++ line "1 0" ++ line "0 1"))).
      * apply keyword_itself. vm_compute. tauto.
      * apply (section_point [] (lit "1 0") [(1, 1); (0, 1)]%Z (line "0 1" ++ line "")); [repeat constructor|apply (two_wholes "1" "0" 1 0); try reflexivity; try discriminate; lia|].
        apply (section_point [] (lit "0 1") [(0, 1); (1, 1)]%Z (line "")); [repeat constructor|apply (two_wholes "0" "1" 0 1); try reflexivity; try discriminate; lia|apply (section_blank [] []); [constructor|constructor]].
      * apply (follow_keyword (lit "Rays:") (line "1 0" ++ line "0 1")). apply keyword_itself. vm_compute. tauto.
      * exists (map (row_of false) [[(1, 1); (0, 1)]; [(0, 1); (1, 1)]]%Z). split; [|repeat constructor; cbv; discriminate].
        constructor; [|constructor; [|constructor]]; (apply represents_iff; [|reflexivity]); repeat constructor; try (apply small_int; cbn; lia); discriminate.
      * apply (file_rays _ (lit "Rays:") (line "1 0" ++ line "0 1") [[(1, 1); (0, 1)]; [(0, 1); (1, 1)]]%Z [] [] None).
        -- apply keyword_itself. vm_compute. tauto.
        -- apply (section_point [] (lit "1 0") [(1, 1); (0, 1)]%Z (line "0 1")); [repeat constructor|apply (two_wholes "1" "0" 1 0); try reflexivity; try discriminate; lia|].
           apply (section_point [] (lit "0 1") [(0, 1); (1, 1)]%Z []); [repeat constructor|apply (two_wholes "0" "1" 0 1); try reflexivity; try discriminate; lia|constructor].
        -- apply follow_end. constructor. constructor.
        -- exists (map (row_of true) [[(1, 1); (0, 1)]; [(0, 1); (1, 1)]]%Z). split; [|repeat constructor; cbv; discriminate].
           constructor; [|constructor; [|constructor]]; (apply represents_ray_iff; [|split; [reflexivity|cbv; split; discriminate]]); repeat constructor; try (apply small_int; cbn; lia); discriminate.
        -- apply file_none.
Qed.
Example C59_example : forall texts,
  check_flag (lit "-c") /\ complete [] /\ Forall ordinary dd_args /\ asks dd_args (lit "f") NoSorting /\ early_keyword corner_file /\ ~ describes_system corner_file /\ maps_first corner_file /\ agree corner_contents 2 /\
  maps_normalise SAFE 2 [] (c_maps corner_contents) /\ m_extract_equations (arith SAFE) (file_rows corner_contents NoSorting) = Ok [] /\
  (exists F : list vec, m_fme (arith SAFE) sorted_order (file_rows corner_contents NoSorting) = Ok F /\ Forall negatable_row F) /\
  only_ends (m_main texts sorted_order (one_file corner_file) 40 4 (lit "-c" :: dd_args)) (line "Reduced Inequalities:" ++ line "-x -y <= -1" ++ line "-y <= 0") (Status 0).
Proof.
  intros texts. split; [left; reflexivity|]. split; [left; reflexivity|]. split; [apply Forall_forall; intros a Ha; apply plain_args; apply in_app_iff; auto|]. split; [apply asks_dd|]. split.
  { exists (lit "Names:"). split; [exists [], (newline :: line "x y" ++ line "" ++ line "Maps:" ++ line "y x" ++ line "" ++ line "Vertices:" ++ line "1 0" ++ line "0 1" ++ line "" ++ line "Rays:" ++ line "1 0" ++ line "0 1")|].
    - split; [reflexivity|]. split; [cbn; lia|]. split; [constructor|]. split; [cbn; intuition discriminate|]. right. eexists. reflexivity.
    - apply keyword_itself. vm_compute. tauto. }
  split; [apply not_said; exists true, true, false; split; [vm_compute; reflexivity|auto]|]. split; [split; [apply before_ok|apply untitled_ok]; vm_compute; reflexivity|].
  split. { split; [discriminate|]. split; [cbn; intuition (subst; reflexivity)|]. split; [cbn; intuition (subst; reflexivity)|]. split; [right; reflexivity|left; reflexivity]. }
  split. { split; [split; [constructor|intros i Hi; cbn in Hi; lia]|split; [left; reflexivity|repeat constructor]]. }
  split; [vm_compute; reflexivity|]. split; [eexists; split; [vm_compute; reflexivity|repeat constructor; unfold negatable_row; repeat constructor; lia]|].
  intros out e. rewrite (checked_facets texts (one_file corner_file) 40 (Some (line "Reduced Inequalities:" ++ line "-x -y <= -1" ++ line "-y <= 0", Ok tt))), dd_ends; [reflexivity|vm_compute; reflexivity|vm_compute].
  reflexivity.
Qed.
Definition balanced (equation : string) : text :=
  line "Names:" ++ line "x y" ++ line "" ++ line "Maps:" ++ line "y x" ++ line "" ++ line "Equations:" ++ line equation ++ line "" ++ line "Inequalities:" ++ line "-x <= 0" ++ line "-y <= 0".
Definition balanced_system (equation : constraint) : system :=
  {| s_equations := [(2, equation)];
     s_inequalities := [(2, {| terms := [(0, (-1)%Z)]; operator := LessEqual; constant := 0 |}); (2, {| terms := [(1, (-1)%Z)]; operator := LessEqual; constant := 0 |})]; s_names := [lit "x"; lit "y"];
     s_maps := [[[(1, 1%Z)]; [(0, 1%Z)]; [(2, 1%Z)]]]; s_dimension := None |}.
Definition sum_one : constraint := {| terms := [(0, 1%Z); (1, 1%Z)]; operator := Equal; constant := 1 |}.
Definition first_one : constraint := {| terms := [(0, 1%Z)]; operator := Equal; constant := 1 |}.
Lemma balanced_below : constraint_line xy Inequality (lit "-y <= 0") (2, {| terms := [(1, (-1)%Z)]; operator := LessEqual; constant := 0 |}).
Proof.
  split; [reflexivity|]. cbn [snd]. apply (written_short_line xy Inequality [] (lit "-y <= 0")); try reflexivity; try short; try discriminate.
  - constructor. constructor.
  - change (lit "-y <= 0") with ((lit "-y" ++ lit " " ++ []) ++ lit "<= " ++ lit "0" ++ []). constructor.
    + constructor; [|repeat constructor|discriminate|constructor]. exact (term_joined xy (lit "-") (lit "y") (-1) 1 factor_minus (PropertiesConstraints.xy_variable 1 _ eq_refl)).
    + apply (relation_le (lit " ")). repeat constructor.
    + exact (integer_plain (lit "0") ltac:(discriminate) ltac:(repeat constructor)).
    + ranges.
    + ranges.
    + constructor.
  - apply one_distinct.
  - repeat constructor; cbn; lia.
  - left. reflexivity.
Qed.
Lemma first_equation : constraint_line xy Equation (lit "x = 1") (2, first_one).
Proof.
  split; [reflexivity|]. cbn [snd]. apply (written_short_line xy Equation [] (lit "x = 1")); try reflexivity; try short; try discriminate.
  - constructor. constructor.
  - change (lit "x = 1") with ((lit "x" ++ lit " " ++ []) ++ lit "= " ++ lit "1" ++ []). constructor.
    + constructor; [|repeat constructor|discriminate|constructor]. exact (term_joined xy [] (lit "x") 1 0 factor_none (PropertiesConstraints.xy_variable 0 _ eq_refl)).
    + apply (relation_eq (lit " ")); [repeat constructor|discriminate].
    + exact (integer_plain (lit "1") ltac:(discriminate) ltac:(repeat constructor)).
    + ranges.
    + ranges.
    + constructor.
  - apply one_distinct.
  - repeat constructor; cbn; lia.
Qed.
Ltac balanced_tac e k HE :=
  apply (system_names no_system (lit "Names:") (lit "x y") [lit "x"; lit "y"] [newline; newline] (lit "Maps:")
    (line "y x" ++ line "" ++ line "Equations:" ++ line e ++ line "" ++ line "Inequalities:" ++ line "-x <= 0" ++ line "-y <= 0"));
    try (apply keyword_itself; vm_compute; tauto); try discriminate; try apply xy_text;
  [repeat constructor|];
  apply (system_line _ []); [left; exact empty_line|]; apply (system_line _ []); [left; exact empty_line|];
  apply (system_maps _ (lit "Maps:") (line "y x" ++ line "") [[[(1, 1%Z)]; [(0, 1%Z)]]] (line "Equations:" ++ line e ++ line "" ++ line "Inequalities:" ++ line "-x <= 0" ++ line "-y <= 0") []
      (Some (line "Equations:" ++ line e ++ line "" ++ line "Inequalities:" ++ line "-x <= 0" ++ line "-y <= 0"))); cbn [s_names];
  [ apply xy_good | apply keyword_itself; vm_compute; tauto
  | apply (written_line _ (lit "y x") _ (line "") []); [exact exchange_line|apply (written_blank _ [] [] []); constructor]
  | apply (follows_keyword _ (lit "Equations:")); [apply keyword_itself; vm_compute; tauto|reflexivity]
  | apply (system_equations _ (lit "Equations:") (line e ++ line "") [(2, k)]
        (line "Inequalities:" ++ line "-x <= 0" ++ line "-y <= 0") [] (Some (line "Inequalities:" ++ line "-x <= 0" ++ line "-y <= 0"))); cbn [s_names];
    [ exact xy_names | apply keyword_itself; vm_compute; tauto
    | apply (written_line _ (lit e)); [exact HE|]; apply (written_blank _ [] []); [constructor|constructor]
    | apply (follows_keyword _ (lit "Inequalities:")); [apply keyword_itself; vm_compute; tauto|reflexivity]
    | constructor; [|constructor]; split; [repeat constructor; cbn; lia|cbn; lia]
    | apply (system_inequalities _ (lit "Inequalities:") (line "-x <= 0" ++ line "-y <= 0")
          [(2, {| terms := [(0, (-1)%Z)]; operator := LessEqual; constant := 0 |}); (2, {| terms := [(1, (-1)%Z)]; operator := LessEqual; constant := 0 |})] [] [] None); cbn [s_names];
      [ exact xy_names | apply keyword_itself; vm_compute; tauto
      | apply (written_line _ (lit "-x <= 0")); [exact segment_left|]; apply (written_line _ (lit "-y <= 0")); [exact balanced_below|constructor]
      | apply follows_end; constructor | apply system_none ]]].
Lemma balanced_text : system_text no_system (Some (balanced "x + y = 1")) (balanced_system sum_one).
Proof. balanced_tac "x + y = 1"%string sum_one segment_equation. Qed.
Lemma unbalanced_text : system_text no_system (Some (balanced "x = 1")) (balanced_system first_one).
Proof. balanced_tac "x = 1"%string first_one first_equation. Qed.
Ltac balanced_mode e :=
  split; [intros [H|H]; revert H; apply not_said; exists false, false, true; (split; [vm_compute; reflexivity|auto])|];
  exists (lit "Inequalities:"); split; [|apply keyword_itself; vm_compute; tauto];
  exists (line "Names:" ++ line "x y" ++ line "" ++ line "Maps:" ++ line "y x" ++ line "" ++ line "Equations:" ++ line e ++ line ""), (newline :: line "-x <= 0" ++ line "-y <= 0");
  (split; [reflexivity|]); (split; [right; eexists (line "Names:" ++ line "x y" ++ line "" ++ line "Maps:" ++ line "y x" ++ line "" ++ line "Equations:" ++ line e); reflexivity|]);
  split; [right; eexists; reflexivity|cbn; intuition discriminate].
Lemma balanced_fits k : fits_together (balanced_system k) 2 /\ equations_fit (balanced_system k) 2.
Proof. split; [split; [discriminate|]; split; [cbn; intuition (subst; reflexivity)|]; split; [right; reflexivity|left; reflexivity]|]. intros l [<-|[]]. reflexivity. Qed.
Example C59_vertices_example : forall texts, let content := balanced "x + y = 1" in let s := balanced_system sum_one in
  early_keyword content /\ system_text no_system (Some content) s /\ ~ describes_hull content /\ describes_system content /\ constraint_maps_first content /\ fits_together s 2 /\ equations_fit s 2 /\ equation_symmetries s 2 /\
  pointed 2 (constraints_of s) /\ (exists F : list vec, m_fme (arith SAFE) sorted_order (system_rows s NoSorting) = Ok F /\ Forall negatable_row F) /\
  only_ends (m_main texts sorted_order (one_file content) 40 4 (lit "-c" :: dd_args)) (line "Reduced Vertices:" ++ line "1 0 ") (Status 0).
Proof.
  intros texts content s. split.
  { exists (lit "Names:"). split; [exists [], (newline :: line "x y" ++ line "" ++ line "Maps:" ++ line "y x" ++ line "" ++ line "Equations:" ++ line "x + y = 1" ++ line "" ++ line "Inequalities:" ++ line "-x <= 0" ++ line "-y <= 0")|].
    - split; [reflexivity|]. split; [cbn; lia|]. split; [constructor|]. split; [cbn; intuition discriminate|]. right. eexists. reflexivity.
    - apply keyword_itself. vm_compute. tauto. }
  split; [apply balanced_text|]. assert (M : ~ describes_hull content /\ describes_system content) by balanced_mode "x + y = 1"%string. destruct M as (M1 & M2). split; auto. split; auto.
  split; [split; [apply before_ok|apply untitled_ok]; vm_compute; reflexivity|]. destruct (balanced_fits sum_one) as (F1 & F2). split; auto. split; auto.
  split.
  { intros m [<-|[]]. split; [reflexivity|]. assert (X : forall p : list Q, length p = 2 -> exists a b, p = [a; b]) by (intros [|a [|b [|]]] Hp; try discriminate; eauto).
    eexists. split; [|apply Permutation_refl]. apply Forall2_cons; [|constructor]. exists 1%Q. split; [discriminate|]. intros p Hp. destruct (X p Hp) as (a & b & ->).
    unfold excess, linear_form, coordinate_of, moved_by; cbn [snd terms operator constant fold_right map removelast app nth fst sum_one]; unfold inject_Z; ring. }
  split.
  { intros d Hd H. destruct d as [|a [|b [|]]]; try discriminate Hd. assert (H1 := H {| terms := [(0, (-1)%Z)]; operator := LessEqual; constant := 0 |} ltac:(cbn; tauto)).
    assert (H2 := H {| terms := [(1, (-1)%Z)]; operator := LessEqual; constant := 0 |} ltac:(cbn; tauto)). unfold linear_form, coordinate_of in H1, H2. cbn in H1, H2. unfold inject_Z in H1, H2.
    intros [|[|[|j]]]; cbn; try reflexivity; lra. }
  split; [eexists; split; [vm_compute; reflexivity|repeat constructor; unfold negatable_row; repeat constructor; lia]|].
  intros out e. rewrite (checked_vertices texts (one_file content) 40 (Some (line "Reduced Vertices:" ++ line "1 0 ", Ok tt))), dd_ends; [reflexivity|vm_compute; reflexivity|vm_compute; reflexivity].
Qed.

(** ** What the checks do not do *)
(** A file whose maps are symmetries can be refused: rows are compared with the reduced images of rows, but they are not reduced themselves when they are read (the ray (0, 2); the inequality 2y >= 0). *)
Theorem C59_symmetric_refused_refuted : forall texts,
  file_text nothing (Some mirror) mirror_contents /\ file_symmetries mirror_contents 2 /\ maps_first mirror /\
  only_ends (m_main texts sorted_order (one_file mirror) 40 4 (lit "-c" :: dd_args)) [] (Status 1) /\
  system_text no_system (Some swapped) swapped_system /\ constraint_symmetries swapped_system 2 /\ constraint_maps_first swapped /\
  only_ends (m_main texts sorted_order (one_file swapped) 40 4 (lit "-c" :: dd_args)) [] (Status 1).
Proof.
  intros texts. split; [exact mirror_text|]. split; [apply C48_reduced_example|]. split; [split; [apply before_ok|apply untitled_ok]; vm_compute; reflexivity|]. split; [|split; [exact swapped_text|split; [apply C50_reduced_example|split; [split; [apply before_ok|apply untitled_ok]; vm_compute; reflexivity|]]]].
  - intros out e. rewrite (checked_facets texts (one_file mirror) 40 (Some ([], Throw))); [reflexivity|vm_compute; reflexivity|vm_compute; reflexivity].
  - intros out e. rewrite (checked_vertices texts (one_file swapped) 40 (Some ([], Throw))); [reflexivity|vm_compute; reflexivity|vm_compute; reflexivity].
Qed.
Print Assumptions C59_symmetric_refused_refuted.
(** Maps that stand after the points are not checked: here the points (1, 0) and (0, 2) and the map that exchanges x and y. *)
Definition late_file : text := line "Names:" ++ line "x y" ++ line "" ++ line "Vertices:" ++ line "1 0" ++ line "0 2" ++ line "" ++ line "Maps:" ++ line "y x".
Definition late_contents : contents :=
  {| c_points := [[(1, 1); (0, 1)]; [(0, 1); (2, 1)]]%Z; c_rays := []; c_names := [lit "x"; lit "y"]; c_maps := [[[(1, 1%Z)]; [(0, 1%Z)]; [(2, 1%Z)]]]; c_dimension := None |}.
Lemma late_text : file_text nothing (Some late_file) late_contents.
Proof.
  apply (file_names nothing (lit "Names:") (lit "x y") [lit "x"; lit "y"] [newline; newline] (lit "Vertices:") (line "1 0" ++ line "0 2" ++ line "" ++ line "Maps:" ++ line "y x"));
    try (apply keyword_itself; vm_compute; tauto); try discriminate; try apply xy_text; try (repeat constructor; fail).
  apply (file_line _ []); [left; exact empty_line|]. apply (file_line _ []); [left; exact empty_line|].
  apply (file_points _ (lit "Vertices:") (line "1 0" ++ line "0 2" ++ line "") [[(1, 1); (0, 1)]; [(0, 1); (2, 1)]]%Z (line "Maps:" ++ line "y x") [] (Some (line "Maps:" ++ line "y x"))).
  - apply keyword_itself. vm_compute. tauto.
  - apply (section_point [] (lit "1 0") [(1, 1); (0, 1)]%Z (line "0 2" ++ line "")); [repeat constructor|apply (two_wholes "1" "0" 1 0); try reflexivity; try discriminate; lia|].
    apply (section_point [] (lit "0 2") [(0, 1); (2, 1)]%Z (line "")); [repeat constructor|apply (two_wholes "0" "2" 0 2); try reflexivity; try discriminate; lia|apply (section_blank [] []); [constructor|constructor]].
  - apply (follow_keyword (lit "Maps:") (line "y x")). apply keyword_itself. vm_compute. tauto.
  - exists (map (row_of false) [[(1, 1); (0, 1)]; [(0, 1); (2, 1)]]%Z). split; [|repeat constructor; cbv; discriminate].
    constructor; [|constructor; [|constructor]]; (apply represents_iff; [|reflexivity]); repeat constructor; try (apply small_int; cbn; lia); discriminate.
  - apply (file_maps _ (lit "Maps:") (line "y x") [[[(1, 1%Z)]; [(0, 1%Z)]]] [] [] None); cbn [c_names].
    + apply xy_good.
    + apply keyword_itself. vm_compute. tauto.
    + apply (written_line _ (lit "y x") _ [] []); [exact exchange_line|constructor].
    + apply follows_end; constructor.
    + apply file_none.
Qed.
Theorem C59_maps_after_refuted : forall texts, file_text nothing (Some late_file) late_contents /\ agree late_contents 2 /\ ~ file_symmetries late_contents 2 /\
  exists out, only_ends (m_main texts sorted_order (one_file late_file) 40 4 (lit "-c" :: dd_args)) out (Status 0).
Proof.
  intros texts. split; [exact late_text|].
  split. { split; [discriminate|]. split; [cbn; intuition (subst; reflexivity)|]. split; [cbn; intuition (subst; reflexivity)|]. split; [right; reflexivity|left; reflexivity]. }
  split.
  - intros H. destruct (H _ (or_introl eq_refl)) as (_ & _ & (W & HW & HP) & _). cbn [late_contents c_points] in HW, HP. inversion HW as [|a b ? ? HW1]; subst. assert (Hb : In b [[(1, 1); (0, 1)]; [(0, 1); (2, 1)]]%Z) by (apply (Permutation_in b HP); left; auto).
    destruct Hb as [<-|[<-|[]]]; inversion HW1 as [|? ? ? ? A B]; subst; inversion B as [|? ? ? ? A2 _]; vm_compute in A, A2; discriminate.
  - eexists. intros out e. rewrite (checked_facets texts (one_file late_file) 40 (m_facet_program SAFE sorted_order (one_file late_file) 40 checked_args)); [|vm_compute; reflexivity|reflexivity].
    match goal with |- m_dd_ends ?p _ _ <-> _ => let v := eval vm_compute in p in change p with v end. rewrite dd_ends. reflexivity.
Qed.
Print Assumptions C59_maps_after_refuted.
(** Nor are the equations checked: x = 1, -x <= 0, -y <= 0 with the map that exchanges x and y. *)
Theorem C59_equations_refuted : forall texts, let content := balanced "x = 1" in let s := balanced_system first_one in
  system_text no_system (Some content) s /\ ~ describes_hull content /\ describes_system content /\ constraint_maps_first content /\ fits_together s 2 /\ equations_fit s 2 /\ ~ constraint_symmetries s 2 /\
  exists out, only_ends (m_main texts sorted_order (one_file content) 40 4 (lit "-c" :: dd_args)) out (Status 0).
Proof.
  intros texts content s. split; [apply unbalanced_text|]. assert (M : ~ describes_hull content /\ describes_system content) by balanced_mode "x = 1"%string. destruct M as (M1 & M2). split; auto. split; auto.
  split; [split; [apply before_ok|apply untitled_ok]; vm_compute; reflexivity|]. destruct (balanced_fits first_one) as (F1 & F2). split; auto. split; auto. split.
  - intros H. destruct (H _ (or_introl eq_refl)) as (_ & _ & _ & (W & HW & HP)). cbn [s balanced_system s_equations] in HW, HP. inversion HW as [|a b ? ? HW1]; subst. assert (Hb := Permutation_in b HP (or_introl eq_refl)).
    destruct Hb as [<-|[]]. destruct HW1 as (q & _ & E). assert (E0 := E [0; 0]%Q eq_refl). assert (E1 := E [0; 1]%Q eq_refl).
    unfold excess, linear_form, coordinate_of, moved_by in E0, E1; cbn [snd terms operator constant fold_right map removelast app nth fst first_one] in E0, E1; unfold inject_Z in E0, E1. lra.
  - eexists. intros out e. rewrite (checked_vertices texts (one_file content) 40 (m_vertex_program SAFE sorted_order (one_file content) 40 checked_args)); [|vm_compute; reflexivity|reflexivity].
    match goal with |- m_dd_ends ?p _ _ <-> _ => let v := eval vm_compute in p in change p with v end. rewrite dd_ends. reflexivity.
Qed.
Print Assumptions C59_equations_refuted.
