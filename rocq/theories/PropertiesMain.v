(** * PropertiesMain: the operation mode, the whole program and the help for a command (C53, C54). *)
From Coq Require Import List ZArith QArith Arith Bool Ascii String Lia Lqa Permutation.
From Verif Require Import Base Spec LinAlg Cone ListUtil ArithModel MatrixModel FmeModel SafeIntModel IntTypes RowLcm StreamModel StreamProofs SortModel CliModel PropertiesCli InputModel InputProofs VertexInput ClassesModel
  ConstraintModel ConstraintInput ConstraintSection PropertiesVertices PropertiesConstraints OutputModel OutputProofs PropertiesOutput Hull HullSame Corners FmeCore FmePure FmePrepare FmeCorrect FmeRefine FmeTheorems
  Samples PropertiesFme MapModel MapInput PropertiesProgram PropertiesRotation FileModel FileProofs FileInput PropertiesFile SystemFile PropertiesSystem RotationModel ListModel ListExec AdModel PropertiesAd SafeClasses SafeFacets ModeDetection MainModel.
Import ListNotations.
Open Scope nat_scope.
Open Scope list_scope.

(** ** Specification *)
(** The integer type that the command line asks for; 32 bits if it does not. *)
Inductive type_word : text -> int_type -> Prop :=
| type_16 : type_word (lit "16") INT16
| type_32 : type_word (lit "32") INT32
| type_64 : type_word (lit "64") INT64
| type_safe : type_word (lit "safe") SAFE.
Definition chooses_type (args : list text) (t : int_type) : Prop :=
  (unset "i" args /\ t = INT32) \/ exists p, parameter "i" (lit "integer-type") args p /\ type_word p t.
(** The method that the command line asks for; adjacency decomposition if it does not. *)
Definition chooses_method (args : list text) (m : method) : Prop :=
  (unset "m" args /\ m = AdjacencyDecomposition) \/ exists p, parameter "m" (lit "method") args p /\ method_word p m.
(** Some line of the text announces points or rays (a hull), or inequalities. *)
Definition describes_hull (content : text) : Prop := says convex_words content \/ says conical_words content.
Definition describes_system (content : text) : Prop := says inequality_words content.
(** The program ends in exactly one way: it prints [out] and ends with [e]. *)
Definition only_ends (program : text -> ending -> Prop) (out : text) (e : ending) : Prop := forall o x, program o x <-> o = out /\ x = e.

(** ** The operation mode (C53) *)
Lemma decided fs args content : Forall ordinary args -> args <> [] -> m_filename args = Ok content ->
  m_detect_mode fs args = do w <- keywords_loop (length (rest (match fs content with Some t => opened t | None => Stream [] false true end)) + 2) [] false false false (match fs content with Some t => opened t | None => Stream [] false true end);
    let '(has_conv, has_cone, has_ieqs) := w in
    Ok (if has_conv || has_cone || has_ieqs then (if (has_conv || has_cone) && has_ieqs then CliModel.Invalid else if has_ieqs then VertexEnumeration else FacetEnumeration) else FacetEnumeration).
Proof. intros H N E. unfold m_detect_mode. destruct (C37_mode args [] H) as (_ & K & _). rewrite (K N), E. reflexivity. Qed.
Lemma command_line_args args name : command_line args [name] -> args <> [].
Proof. intros H ->. inversion H. Qed.
(** What the file announces decides between the two enumerations. *)
Theorem C53_mode : forall fs args name content, Forall ordinary args -> command_line args [name] -> fs name = Some content ->
  (describes_hull content /\ describes_system content -> m_detect_mode fs args = Ok CliModel.Invalid) /\
  (~ describes_system content -> m_detect_mode fs args = Ok FacetEnumeration) /\
  (~ describes_hull content /\ describes_system content -> m_detect_mode fs args = Ok VertexEnumeration).
Proof.
  intros fs args name content HO HC HF. rewrite (decided fs args name HO (command_line_args args name HC) (C37_filename_partial args [name] HC)), HF. cbn [rest opened].
  destruct (keywords_ok (length content + 2) content [] false false false (le_n _)) as (x & y & z & E & Sx & Sy & Sz). rewrite E. cbn [bind]. unfold sums, describes_hull, describes_system in *.
  destruct x, y, z; cbn [orb andb]; intuition discriminate.
Qed.
Print Assumptions C53_mode.

Lemma detected fs args name : Forall ordinary args -> command_line args [name] -> ~ (exists content, fs name = Some content /\ describes_hull content /\ describes_system content) ->
  m_detect_mode fs args = Ok FacetEnumeration \/ m_detect_mode fs args = Ok VertexEnumeration.
Proof.
  intros HO HC HN. rewrite (decided fs args name HO (command_line_args args name HC) (C37_filename_partial args [name] HC)). destruct (fs name) as [content|]; [|left; reflexivity]. cbn [rest opened].
  destruct (keywords_ok (length content + 2) content [] false false false (le_n _)) as (x & y & z & E & Sx & Sy & Sz). rewrite E. cbn [bind]. unfold sums in *.
  destruct x, y, z; cbn [orb andb]; auto; elim HN; exists content; unfold describes_hull, describes_system; intuition discriminate.
Qed.

(** ** The options *)
Lemma chosen_method args m : chooses_method args m <-> m_method args = Ok m.
Proof. unfold chooses_method. rewrite C37_method. reflexivity. Qed.
Lemma chosen_type args t : chooses_type args t -> exists c, m_integer_type args = Ok c /\ m_selected c = Some t.
Proof.
  intros [[U ->]|(p & P & W)].
  - exists Type_default. split; [apply C37_integer_type; auto|reflexivity].
  - destruct W; eexists; (split; [apply C37_integer_type; right; eexists; split; [exact P|constructor]|reflexivity]).
Qed.
Lemma facet_main order fs fuel hardware args m t : chooses_method args m -> chooses_type args t -> forall out e,
  m_facet_main order fs fuel hardware args out e <->
  match m with AdjacencyDecomposition => m_facet_ad t order fs fuel hardware args out e | DoubleDescription => m_dd_ends (m_facet_program t order fs fuel args) out e end.
Proof.
  intros HM HT out e. apply chosen_method in HM. destruct (chosen_type args t HT) as (c & E & S). unfold m_facet_main, m_uncaught. rewrite HM, E, S. destruct m; reflexivity.
Qed.
Lemma vertex_main order fs fuel hardware args m t : chooses_method args m -> chooses_type args t -> forall out e,
  m_vertex_main order fs fuel hardware args out e <->
  match m with AdjacencyDecomposition => m_vertex_ad t order fs fuel hardware args out e | DoubleDescription => m_dd_ends (m_vertex_program t order fs fuel args) out e end.
Proof.
  intros HM HT out e. apply chosen_method in HM. destruct (chosen_type args t HT) as (c & E & S). unfold m_vertex_main, m_uncaught. rewrite HM, E, S. destruct m; reflexivity.
Qed.
Lemma main_mode texts order fs fuel hardware args mode : m_detect_mode fs args = Ok mode -> forall out e,
  m_main texts order fs fuel hardware args out e <->
  match mode with
  | FacetEnumeration => m_facet_main order fs fuel hardware args out e
  | VertexEnumeration => m_vertex_main order fs fuel hardware args out e
  | HelpCommand => m_help_command texts args out e
  | Help | Version => out = [] /\ e = Status 0
  | CliModel.Undecided | CliModel.Invalid => out = [] /\ e = Status 1
  end.
Proof. intros E out e. unfold m_main, m_uncaught. rewrite E. reflexivity. Qed.

(** ** Calls that are refused *)
(** A file that describes both a hull and a system, and a file that cannot be opened: nothing is printed on the standard output, and the status is 1. *)
Theorem C53_refused : forall texts order fs fuel hardware args name, Forall ordinary args -> command_line args [name] ->
  ((exists content, fs name = Some content /\ describes_hull content /\ describes_system content) \/ (fs name = None /\ (exists m, chooses_method args m) /\ (exists t, chooses_type args t))) ->
  only_ends (m_main texts order fs fuel hardware args) [] (Status 1).
Proof.
  intros texts order fs fuel hardware args name HO HC [(content & HF & HB)|(HF & (m & HM) & (t & HT))] out e.
  - destruct (C53_mode fs args name content HO HC HF) as (K & _). rewrite (main_mode texts order fs fuel hardware args _ (K HB)). reflexivity.
  - assert (E := decided fs args name HO (command_line_args args name HC) (C37_filename_partial args [name] HC)). rewrite HF in E. cbn in E.
    rewrite (main_mode texts order fs fuel hardware args _ E), (facet_main order fs fuel hardware args m t HM HT). assert (EI : m_input_vertices fs fuel args = Throw).
    { unfold m_input_vertices. rewrite (C37_filename_partial args [name] HC). cbn [bind]. unfold m_open. rewrite HF. reflexivity. }
    destruct m; unfold m_facet_ad, m_facet_program; rewrite EI; cbn [calco m_dd_ends m_caught]; reflexivity.
Qed.
Print Assumptions C53_refused.
(** Several file names, and an unknown method or integer type: the exception is not caught, and the process is terminated. *)
Theorem C53_terminated : forall texts order fs fuel hardware args,
  Forall ordinary args ->
  (exists a b names, command_line args (a :: b :: names)) \/
  (exists name, command_line args [name] /\ ~ (exists content, fs name = Some content /\ describes_hull content /\ describes_system content) /\ ((forall m, ~ chooses_method args m) \/ (forall c, ~ (unset "i" args /\ c = Type_default \/ exists p, parameter "i" (lit "integer-type") args p /\ integer_word p c)))) ->
  only_ends (m_main texts order fs fuel hardware args) [] Terminated.
Proof.
  intros texts order fs fuel hardware args HO [(a & b & names & HC)|(name & HC & HF & HB)] out e.
  - assert (N : args <> []) by (intros ->; inversion HC). destruct (C37_mode args [] HO) as (_ & K & _).
    unfold m_main, m_uncaught, m_detect_mode. rewrite (K N), (C37_filename_partial args _ HC). reflexivity.
  - destruct (C37_defined args) as [U1 U2].
    assert (HE : m_method args = Throw \/ (exists m, m_method args = Ok m) /\ m_integer_type args = Throw).
    { destruct (m_method args) as [m| |] eqn:EM; [|auto|congruence]. right. split; [eauto|]. destruct HB as [HB|HB]; [elim (HB m); apply chosen_method; auto|].
      destruct (m_integer_type args) as [c| |] eqn:EI; [|auto|congruence]. elim (HB c). apply C37_integer_type. auto. }
    destruct (detected fs args name HO HC HF) as [E|E]; rewrite (main_mode texts order fs fuel hardware args _ E); unfold m_facet_main, m_vertex_main, m_uncaught;
      (destruct HE as [->|((m & ->) & ->)]; reflexivity).
Qed.
Print Assumptions C53_terminated.

(** ** The whole program *)
Lemma dd_ends o r out e : m_dd_ends (Some (o, r)) out e <-> out = o /\ e = m_caught r.
Proof. reflexivity. Qed.
(** Facet enumeration by double description ("-m dd"): for enough fuel there is exactly one result, the text of the hull, with status 0. *)
Theorem C53_facets : forall t order fs args name so content c n (E F : list vec),
  t <> INT16 -> sort_order order -> Forall ordinary args -> chooses_method args DoubleDescription -> chooses_type args t ->
  asks args name so -> fs name = Some content -> early_keyword content -> file_text nothing (Some content) c -> ~ describes_system content ->
  agree c n -> c_points c <> [] -> c_maps c = [] -> good_names (c_names c) ->
  m_extract_equations (arith t) (file_rows c so) = Ok E -> m_fme (arith t) order (file_rows c so) = Ok F -> Forall negatable_row E -> Forall negatable_row F ->
  exists equations Pe inequalities Pf,
    written (denotes (c_names c) n Equation) equations Pe /\ written (denotes (c_names c) n Inequality) inequalities Pf /\
    (exists fuel0, forall texts fuel hardware, fuel0 <= fuel ->
      only_ends (m_main texts order fs fuel hardware args) (facet_text equations inequalities (match Pe with [] => true | _ => false end) false) (Status 0)) /\
    forall p : list Q, length p = n ->
      (hull n (map coordinates_of (c_points c)) (map coordinates_of (c_rays c)) p <-> forall k, In k (Pe ++ Pf) -> satisfies k p).
Proof.
  intros t order fs args name so content c n E F Ht Ho HO HM HT HA HF HK HX HS HG Hne Hm HN HE HFm BE BF.
  destruct (C48_facets t order fs args name so content c n E F Ht Ho HA HF HK HX HG Hne Hm HN HE HFm BE BF) as (equations & Pe & inequalities & Pf & W1 & W2 & (f0 & K) & H).
  exists equations, Pe, inequalities, Pf. split; auto. split; auto. split; auto. exists f0. intros texts fuel hardware Hf out e.
  destruct (C53_mode fs args name content HO (proj1 HA) HF) as (_ & M & _). rewrite (main_mode texts order fs fuel hardware args _ (M HS)), (facet_main order fs fuel hardware args _ t HM HT).
  rewrite (K fuel Hf), dd_ends. reflexivity.
Qed.
Print Assumptions C53_facets.
(** With "-i safe" the program prints the hull, or it ends with status 1. *)
Theorem C53_safe : forall order fs args name so content c n (E F : list vec),
  sort_order order -> Forall ordinary args -> chooses_method args DoubleDescription -> chooses_type args SAFE ->
  asks args name so -> fs name = Some content -> early_keyword content -> file_text nothing (Some content) c -> ~ describes_system content ->
  agree c n -> c_points c <> [] -> c_maps c = [] -> good_names (c_names c) ->
  m_extract_equations (arith EXACT) (file_rows c so) = Ok E -> m_fme (arith EXACT) order (file_rows c so) = Ok F -> Forall negatable_row E -> Forall negatable_row F ->
  (exists fuel0 out, forall texts fuel hardware, fuel0 <= fuel -> only_ends (m_main texts order fs fuel hardware args) out (Status 1)) \/
  exists equations Pe inequalities Pf,
    written (denotes (c_names c) n Equation) equations Pe /\ written (denotes (c_names c) n Inequality) inequalities Pf /\
    (exists fuel0, forall texts fuel hardware, fuel0 <= fuel ->
      only_ends (m_main texts order fs fuel hardware args) (facet_text equations inequalities (match Pe with [] => true | _ => false end) false) (Status 0)) /\
    forall p : list Q, length p = n ->
      (hull n (map coordinates_of (c_points c)) (map coordinates_of (c_rays c)) p <-> forall k, In k (Pe ++ Pf) -> satisfies k p).
Proof.
  intros order fs args name so content c n E F Ho HO HM HT HA HF HK HX HS HG Hne Hm HN HE HFm BE BF.
  assert (R : forall texts fuel hardware out e, m_main texts order fs fuel hardware args out e <-> m_dd_ends (m_facet_program SAFE order fs fuel args) out e).
  { intros texts fuel hardware out e. destruct (C53_mode fs args name content HO (proj1 HA) HF) as (_ & M & _). rewrite (main_mode texts order fs fuel hardware args _ (M HS)). apply (facet_main order fs fuel hardware args _ SAFE HM HT). }
  destruct (C48_safe order fs args name so content c n E F Ho HA HF HK HX HG Hne Hm HN HE HFm BE BF) as [(f0 & o & K)|(equations & Pe & inequalities & Pf & W1 & W2 & (f0 & K) & H)].
  - left. exists f0, o. intros texts fuel hardware Hf out e. rewrite R, (K fuel Hf), dd_ends. reflexivity.
  - right. exists equations, Pe, inequalities, Pf. split; auto. split; auto. split; auto. exists f0. intros texts fuel hardware Hf out e. rewrite R, (K fuel Hf), dd_ends. reflexivity.
Qed.
Print Assumptions C53_safe.
(** Vertex enumeration by double description. *)
Theorem C53_vertices : forall t order fs args name so content s n (F : list vec),
  t <> INT16 -> sort_order order -> Forall ordinary args -> chooses_method args DoubleDescription -> chooses_type args t ->
  asks args name so -> fs name = Some content -> early_keyword content -> system_text no_system (Some content) s -> ~ describes_hull content -> describes_system content ->
  fits_together s n -> equations_fit s n -> 0 < n -> s_maps s = [] -> pointed n (constraints_of s) ->
  m_fme (arith t) order (system_rows s so) = Ok F -> Forall negatable_row F ->
  exists vertices P rays R,
    section_lines vertices P /\ section_lines rays R /\
    (exists fuel0, forall texts fuel hardware, fuel0 <= fuel ->
      only_ends (m_main texts order fs fuel hardware args) (vertex_text vertices rays (match P with [] => true | _ => false end) (match R with [] => true | _ => false end) false) (Status 0)) /\
    (forall p : list Q, length p = n -> (all_satisfied (constraints_of s) p <-> hull n (map coordinates_of P) (map coordinates_of R) p)) /\
    (forall p : list Q, vertex_of n (all_satisfied (constraints_of s)) p <-> exists q, In q (map coordinates_of P) /\ same_point q p) /\
    (forall d : list Q, extreme_move n (constraints_of s) d <-> length d = n /\ exists u, In u (map coordinates_of R) /\ multiple d u).
Proof.
  intros t order fs args name so content s n F Ht Ho HO HM HT HA HF HK HX HS1 HS2 HG Hq Hn Hm HP HFm BF.
  destruct (C50_vertices t order fs args name so content s n F Ht Ho HA HF HK HX HG Hq Hn Hm HP HFm BF) as (vertices & P & rays & R & W1 & W2 & (f0 & K) & H1 & H2 & _ & H3 & _).
  exists vertices, P, rays, R. split; auto. split; auto. split; auto. exists f0. intros texts fuel hardware Hf out e.
  destruct (C53_mode fs args name content HO (proj1 HA) HF) as (_ & _ & M). rewrite (main_mode texts order fs fuel hardware args _ (M (conj HS1 HS2))), (vertex_main order fs fuel hardware args _ t HM HT).
  rewrite (K fuel Hf), dd_ends. reflexivity.
Qed.
Print Assumptions C53_vertices.
Theorem C53_vertices_safe : forall order fs args name so content s n (F : list vec),
  sort_order order -> Forall ordinary args -> chooses_method args DoubleDescription -> chooses_type args SAFE ->
  asks args name so -> fs name = Some content -> early_keyword content -> system_text no_system (Some content) s -> ~ describes_hull content -> describes_system content ->
  fits_together s n -> equations_fit s n -> 0 < n -> s_maps s = [] -> pointed n (constraints_of s) ->
  m_fme (arith EXACT) order (system_rows s so) = Ok F -> Forall negatable_row F ->
  (exists fuel0, forall texts fuel hardware, fuel0 <= fuel -> only_ends (m_main texts order fs fuel hardware args) [] (Status 1)) \/
  exists vertices P rays R,
    section_lines vertices P /\ section_lines rays R /\
    (exists fuel0, forall texts fuel hardware, fuel0 <= fuel ->
      only_ends (m_main texts order fs fuel hardware args) (vertex_text vertices rays (match P with [] => true | _ => false end) (match R with [] => true | _ => false end) false) (Status 0)) /\
    (forall p : list Q, length p = n -> (all_satisfied (constraints_of s) p <-> hull n (map coordinates_of P) (map coordinates_of R) p)) /\
    (forall p : list Q, vertex_of n (all_satisfied (constraints_of s)) p <-> exists q, In q (map coordinates_of P) /\ same_point q p) /\
    (forall d : list Q, extreme_move n (constraints_of s) d <-> length d = n /\ exists u, In u (map coordinates_of R) /\ multiple d u).
Proof.
  intros order fs args name so content s n F Ho HO HM HT HA HF HK HX HS1 HS2 HG Hq Hn Hm HP HFm BF.
  assert (R : forall texts fuel hardware out e, m_main texts order fs fuel hardware args out e <-> m_dd_ends (m_vertex_program SAFE order fs fuel args) out e).
  { intros texts fuel hardware out e. destruct (C53_mode fs args name content HO (proj1 HA) HF) as (_ & _ & M). rewrite (main_mode texts order fs fuel hardware args _ (M (conj HS1 HS2))). apply (vertex_main order fs fuel hardware args _ SAFE HM HT). }
  destruct (C50_safe order fs args name so content s n F Ho HA HF HK HX HG Hq Hn Hm HP HFm BF) as [(f0 & K)|(vertices & P & rays & Rs & W1 & W2 & (f0 & K) & H)].
  - left. exists f0. intros texts fuel hardware Hf out e. rewrite R, (K fuel Hf), dd_ends. reflexivity.
  - right. exists vertices, P, rays, Rs. split; auto. split; auto. split; auto. exists f0. intros texts fuel hardware Hf out e. rewrite R, (K fuel Hf), dd_ends. reflexivity.
Qed.
Print Assumptions C53_vertices_safe.
(** Facet enumeration by adjacency decomposition (the default): whenever the program ends with status 0, whatever the number of threads and their schedule, it has printed the hull; a line may be indented. *)
Theorem C53_adjacency : forall t order fs args name so content c n (E F : list vec),
  t <> INT16 -> sort_order order -> Forall ordinary args -> chooses_method args AdjacencyDecomposition -> chooses_type args t ->
  asks args name so -> fs name = Some content -> early_keyword content -> file_text nothing (Some content) c -> ~ describes_system content ->
  agree c n -> c_points c <> [] -> c_maps c = [] -> good_names (c_names c) -> three_different_facets (S n) (file_rows c so) ->
  m_extract_equations (arith EXACT) (file_rows c so) = Ok E -> m_fme (arith EXACT) order (file_rows c so) = Ok F -> Forall negatable_row E -> Forall negatable_row F ->
  exists fuel0, forall texts fuel hardware out, fuel0 <= fuel -> m_main texts order fs fuel hardware args out (Status 0) ->
    exists equations Pe inequalities Pf,
      out = facet_text equations inequalities (match Pe with [] => true | _ => false end) false /\
      written (denotes (c_names c) n Equation) equations Pe /\ written (line_denotes (c_names c) n Inequality) inequalities Pf /\
      forall p : list Q, length p = n ->
        (hull n (map coordinates_of (c_points c)) (map coordinates_of (c_rays c)) p <-> forall k, In k (Pe ++ Pf) -> satisfies k p).
Proof.
  intros t order fs args name so content c n E F Ht Ho HO HM HT HA HF HK HX HS HG Hne Hm HN H3 HE HFm BE BF.
  assert (HSane := file_is_sane (Some content) c HX).
  destruct (file_rows_facts c so n HSane HG Hne) as (HP & HD & HH & HR). assert (HNl : c_names c = [] \/ length (c_names c) = n) by apply HG.
  destruct (input_vertices_ok fs args name so content c HA HF HK HX) as (f0 & K).
  assert (HC : m_consistent_vertices (map point_row (c_points c)) (map ray_row (c_rays c)) (c_names c) (c_maps c) (match c_dimension c with Some d => d | None => size_max end) = Ok tt).
  { apply consistent_iff; [|apply agree_iff; eauto]. destruct HSane as (_ & _ & Hd). destruct (c_dimension c); unfold size_max in *; lia. }
  exists f0. intros texts fuel hardware out Hf H.
  destruct (C53_mode fs args name content HO (proj1 HA) HF) as (_ & M & _). apply (main_mode texts order fs fuel hardware args _ (M HS)), (facet_main order fs fuel hardware args _ t HM HT) in H.
  unfold m_facet_ad in H. rewrite (K fuel Hf), HC in H. rewrite cast_rows_same in H by auto. rewrite Hm in H. cbn [m_cast_rows map] in H.
  destruct (C37_threads_positive hardware args) as [_ TP]. destruct (m_number_of_threads hardware args) as [threads| |]; [|destruct H; discriminate|discriminate]. specialize (TP threads eq_refl).
  destruct H as [(_ & s & H)|[H|H]].
  - destruct (C52_facets t order n (file_rows c so) E F (c_names c) fuel (Z.to_nat threads) [] s out Ht Ho (HR t Ht) HD HH H3 ltac:(intros r []) ltac:(lia) HN HNl HE HFm BE BF H)
      as (equations & Pe & inequalities & Pf & EO & W1 & W2 & _ & HQ).
    exists equations, Pe, inequalities, Pf. split; auto. split; auto. split; auto. intros p Hp. rewrite <- (HQ p Hp). symmetry. apply rows_hull; auto; apply HSane.
  - exfalso. unfold m_ad_stops in H. destruct (m_extract_equations (arith t) (file_rows c so)) as [E'| |]; [|destruct H; discriminate|discriminate].
    destruct (m_ad_equations t (c_names c) E') as [head r]. destruct r as [[]| |]; [|destruct H; discriminate|destruct H; discriminate].
    destruct (m_ad_reduce t (file_rows c so) []) as [[? reduced]| |]; [|destruct H; discriminate|discriminate].
    match type of H with context [m_ad_start ?a ?b ?c ?d ?e ?f ?g] => destruct (m_ad_start a b c d e f g) as [[start|]| |] end; [|destruct H|destruct H; discriminate|discriminate].
    destruct H as (lines & r & _ & N & _ & X). destruct r as [[]| |]; [congruence|discriminate|discriminate].
  - exfalso. destruct H as [(? & ? & ? & ? & _ & _ & _ & X)|H]; [discriminate|]. destruct H as (? & ? & ? & ? & ? & ? & ? & _ & _ & _ & _ & [(_ & [(_ & X)|(_ & X)])|(_ & _ & _ & [(_ & X)|(_ & X)])]); discriminate.
Qed.
Print Assumptions C53_adjacency.

(** With "-i safe" nothing is undefined: an overflow ends the process with status 1, if it happens in the main thread, or terminates it, if it happens in a worker thread. *)
Theorem C53_adjacency_safe : forall order fs args name so content c n (E F : list vec),
  sort_order order -> Forall ordinary args -> chooses_method args AdjacencyDecomposition -> chooses_type args SAFE ->
  asks args name so -> fs name = Some content -> early_keyword content -> file_text nothing (Some content) c -> ~ describes_system content ->
  agree c n -> c_points c <> [] -> c_maps c = [] -> good_names (c_names c) -> three_different_facets (S n) (file_rows c so) ->
  m_extract_equations (arith EXACT) (file_rows c so) = Ok E -> m_fme (arith EXACT) order (file_rows c so) = Ok F -> Forall negatable_row E -> Forall negatable_row F ->
  exists fuel0, forall texts fuel hardware out e, fuel0 <= fuel -> m_main texts order fs fuel hardware args out e -> e = Status 0 \/ e = Status 1 \/ e = Terminated.
Proof.
  intros order fs args name so content c n E F Ho HO HM HT HA HF HK HX HS HG Hne Hm HN H3 HE HFm BE BF.
  assert (HSane := file_is_sane (Some content) c HX).
  destruct (file_rows_facts c so n HSane HG Hne) as (HP & HD & HH & HR). assert (HNl : c_names c = [] \/ length (c_names c) = n) by apply HG.
  destruct (input_vertices_ok fs args name so content c HA HF HK HX) as (f0 & K).
  assert (HC : m_consistent_vertices (map point_row (c_points c)) (map ray_row (c_rays c)) (c_names c) (c_maps c) (match c_dimension c with Some d => d | None => size_max end) = Ok tt).
  { apply consistent_iff; [|apply agree_iff; eauto]. destruct HSane as (_ & _ & Hd). destruct (c_dimension c); unfold size_max in *; lia. }
  exists f0. intros texts fuel hardware out e Hf H.
  destruct (C53_mode fs args name content HO (proj1 HA) HF) as (_ & M & _). apply (main_mode texts order fs fuel hardware args _ (M HS)), (facet_main order fs fuel hardware args _ SAFE HM HT) in H.
  unfold m_facet_ad in H. rewrite (K fuel Hf), HC in H. rewrite cast_rows_same in H by (auto; discriminate). rewrite Hm in H. cbn [m_cast_rows map] in H.
  destruct (C37_threads_positive hardware args) as [TU TP]. destruct (m_number_of_threads hardware args) as [threads| |]; [|tauto|congruence]. specialize (TP threads eq_refl).
  destruct H as [(-> & _)|H]; [auto|]. right.
  apply (facet_ad_safe order n (file_rows c so) E F (c_names c) [] fuel [] Ho (HR SAFE ltac:(discriminate)) HD HH H3 (or_introl eq_refl) ltac:(discriminate) ltac:(intros r []) HN HNl HE HFm BE BF (Z.to_nat threads) out e); auto.
Qed.
Print Assumptions C53_adjacency_safe.

(** ** The help for an option (C54) *)
(** The options of the program: letter and name. *)
Inductive documented : string -> string -> help_topic -> Prop :=
| doc_check : documented "c" "check" Topic_check
| doc_help : documented "h" "help" Topic_help
| doc_integer_type : documented "i" "integer-type" Topic_integer_type
| doc_method : documented "m" "method" Topic_method
| doc_sorting : documented "s" "sorting" Topic_sorting
| doc_threads : documented "t" "threads" Topic_threads
| doc_version : documented "v" "version" Topic_version.
(** The ways of asking for the help for [p]. *)
Inductive asks_help (p : text) : list text -> Prop :=
| help_short post : asks_help p (lit "-h" :: p :: post)
| help_short_eq post : asks_help p ((lit "-h=" ++ p) :: post)
| help_long post : asks_help p ((lit "--help=" ++ p) :: post)
| help_long_command post : asks_help p ((lit "--help-command=" ++ p) :: post).
Lemma help_argument pre p args : Forall ordinary pre -> asks_help p args -> m_mode_option (pre ++ args) = HelpCommand /\ m_help_argument (pre ++ args) = Some p.
Proof.
  intros H A. split.
  - destruct A; destruct (C37_mode pre post H) as (_ & _ & _ & _ & _ & K); apply (K p).
  - induction H as [|a pre (_ & _ & N & H1 & H2 & H3) _ IH].
    + destruct A; reflexivity.
    + cbn [app m_help_argument]. destruct (strcmp0_spec a (lit "-h")); [contradiction|].
      assert (S1 := strncmp0_spec a (lit "-h=")). assert (S2 := strncmp0_spec a (lit "--help=")). assert (S3 := strncmp0_spec a (lit "--help-command=")).
      change (length (lit "-h=")) with 3 in S1. change (length (lit "--help=")) with 7 in S2. change (length (lit "--help-command=")) with 15 in S3.
      destruct S1; [contradiction|]. destruct S2; [contradiction|]. destruct S3; [contradiction|]. exact IH.
Qed.
(** An option is found by its letter and its name, with and without the dashes, and its text is printed on the standard output. *)
Theorem C54_help_partial : forall texts order fs fuel hardware letter name topic pre p args, documented letter name topic ->
  In p [lit letter; lit "-" ++ lit letter; lit name; lit "--" ++ lit name] -> Forall ordinary pre -> asks_help p args ->
  only_ends (m_main texts order fs fuel hardware (pre ++ args)) (texts topic) (Status 0).
Proof.
  intros texts order fs fuel hardware letter name topic pre p args HD HP HO HA out e. destruct (help_argument pre p args HO HA) as [E1 E2].
  rewrite (main_mode texts order fs fuel hardware (pre ++ args) HelpCommand) by (unfold m_detect_mode; rewrite E1; reflexivity). unfold m_help_command. rewrite E2.
  destruct HD; destruct HP as [<-|[<-|[<-|[<-|[]]]]]; reflexivity.
Qed.
Print Assumptions C54_help_partial.
(** The words of the specification, all of them; anything else is refused with status 1. *)
Theorem C54_unknown : forall texts order fs fuel hardware pre p args, Forall ordinary pre -> asks_help p args ->
  (forall letter name topic, documented letter name topic -> ~ In p [lit letter; lit "-" ++ lit letter; lit name; lit "--" ++ lit name]) ->
  ~ In p (map lit ["--h"; "-help"; "?"; "-version"]%string) ->
  ~ In p (map lit ["k"; "-k"; "known_facets"; "--known_facets"; "known_vertices"; "--known_vertices"; "known_data"; "--known_data"]%string) ->
  only_ends (m_main texts order fs fuel hardware (pre ++ args)) [] (Status 1).
Proof.
  intros texts order fs fuel hardware pre p args HO HA HN1 HN2 HN3 out e. destruct (help_argument pre p args HO HA) as [E1 E2].
  rewrite (main_mode texts order fs fuel hardware (pre ++ args) HelpCommand) by (unfold m_detect_mode; rewrite E1; reflexivity). unfold m_help_command. rewrite E2.
  assert (E : m_help_topic p = None); [|rewrite E; reflexivity].
  assert (N : forall w, (exists letter name topic, documented letter name topic /\ In (lit w) [lit letter; lit "-" ++ lit letter; lit name; lit "--" ++ lit name]) -> text_eqb p (lit w) = false).
  { intros w (letter & name & topic & HD & HI). destruct (text_eqb_spec p (lit w)) as [->|]; auto. elim (HN1 _ _ _ HD HI). }
  assert (N2 : forall w, In w ["--h"; "-help"; "?"; "-version"; "k"; "-k"; "known_facets"; "--known_facets"; "known_vertices"; "--known_vertices"; "known_data"; "--known_data"]%string -> text_eqb p (lit w) = false).
  { intros w HI. destruct (text_eqb_spec p (lit w)) as [E|]; auto. exfalso. rewrite E in *. destruct (in_app_or ["--h"; "-help"; "?"; "-version"]%string _ w HI) as [H|H]; [apply HN2|apply HN3]; apply in_map; auto. }
  unfold m_help_topic, m_one_of. cbn [existsb].
  repeat match goal with |- context [text_eqb p (lit ?w)] => first [rewrite (N w) by (do 3 eexists; split; [constructor|cbn; tauto])|rewrite (N2 w) by (cbn; tauto)] end.
  reflexivity.
Qed.
Print Assumptions C54_unknown.
(** The option for known data is found by its letter, but not by the names with which it is used and which the help itself mentions: --known-data, --known-facets and --known-vertices. *)
Theorem C54_known_data_refuted : forall texts order fs fuel hardware p, In p (map lit ["known-data"; "--known-data"; "known-facets"; "--known-facets"; "known-vertices"; "--known-vertices"]%string) ->
  only_ends (m_main texts order fs fuel hardware [lit "-h"; lit "-k"]) (texts Topic_known_data) (Status 0) /\ only_ends (m_main texts order fs fuel hardware [lit "-h"; p]) [] (Status 1).
Proof.
  intros texts order fs fuel hardware p HP. split; [intros out e; reflexivity|]. repeat destruct HP as [<-|HP]; try contradiction; intros out e; reflexivity.
Qed.
Print Assumptions C54_known_data_refuted.
(** The general help and the version: nothing on the standard output, status 0. *)
Theorem C54_general : forall texts order fs fuel hardware pre post a, Forall ordinary pre ->
  only_ends (m_main texts order fs fuel hardware []) [] (Status 0) /\
  (version_word a \/ help_word a -> only_ends (m_main texts order fs fuel hardware (pre ++ a :: post)) [] (Status 0)) /\
  only_ends (m_main texts order fs fuel hardware (pre ++ [lit "-h"])) [] (Status 0).
Proof.
  intros texts order fs fuel hardware pre post a HO. destruct (C37_mode pre post HO) as (_ & _ & K1 & K2 & K3 & _). split; [intros out e; reflexivity|]. split.
  - intros [H|H] out e; [specialize (K1 a H); rewrite (main_mode texts order fs fuel hardware _ Version) by (unfold m_detect_mode; rewrite K1; reflexivity)|
      specialize (K2 a H); rewrite (main_mode texts order fs fuel hardware _ Help) by (unfold m_detect_mode; rewrite K2; reflexivity)]; reflexivity.
  - intros out e. rewrite (main_mode texts order fs fuel hardware _ Help) by (unfold m_detect_mode; rewrite K3; reflexivity). reflexivity.
Qed.
Print Assumptions C54_general.
Example C54_example : documented "i" "integer-type" Topic_integer_type /\ Forall ordinary [lit "f"; lit "-t"; lit "2"] /\ asks_help (lit "integer-type") [lit "--help=integer-type"].
Proof.
  split; [constructor|]. split; [|exact (help_long (lit "integer-type") [])].
  repeat (constructor; [repeat split; try (intros [H|[H|[H|[H|[]]]]]; discriminate); try discriminate; try (intros (q & H); discriminate)|]). constructor.
Qed.

(** ** A concrete call *)
Definition dd_args : list text := [lit "-m"; lit "dd"; lit "f"; lit "--integer-type=safe"].
Definition ad_args : list text := [lit "-t"; lit "1"; lit "f"].
Lemma plain_args a : In a (dd_args ++ ad_args) -> ordinary a.
Proof.
  intros H. cbn in H. repeat destruct H as [<-|H]; try contradiction;
    (repeat split; try (intros [K|[K|[K|[K|[]]]]]; discriminate); try discriminate; try (intros (q & K); discriminate)).
Qed.
Ltac not_concerning := repeat (constructor; [intros [(q & K)|(q & K)]; discriminate|]); try constructor.
Lemma asks_dd : asks dd_args (lit "f") NoSorting /\ chooses_method dd_args DoubleDescription /\ chooses_type dd_args SAFE.
Proof.
  split; [split; [|split; [not_concerning|split; [cbn; intuition discriminate|split; [cbn; intuition discriminate|left; split; [not_concerning|reflexivity]]]]]|split].
  - apply (line_parameter "m" (lit "dd")); try discriminate. apply line_free; [split; [discriminate|intros (p & E); discriminate]|]. apply (line_long (lit "integer-type=safe")). apply PropertiesCli.line_end.
  - right. exists (lit "dd"). split; [|constructor]. apply (parameter_next "m" (lit "method") []). constructor.
  - right. exists (lit "safe"). split; [|constructor]. apply (parameter_long "i" (lit "integer-type") [lit "-m"; lit "dd"; lit "f"] (lit "safe") []). not_concerning.
Qed.
Lemma asks_ad : asks ad_args (lit "f") NoSorting /\ chooses_method ad_args AdjacencyDecomposition /\ chooses_type ad_args INT32.
Proof.
  split; [split; [|split; [not_concerning|split; [cbn; intuition discriminate|split; [cbn; intuition discriminate|left; split; [not_concerning|reflexivity]]]]]|split].
  - apply (line_parameter "t" (lit "1")); try discriminate. apply line_free; [split; [discriminate|intros (p & E); discriminate]|]. apply PropertiesCli.line_end.
  - left. split; [not_concerning|reflexivity].
  - left. split; [not_concerning|reflexivity].
Qed.
Lemma not_said words content : (exists x y z, keywords_loop (length content + 2) [] false false false (opened content) = Ok (x, y, z) /\
  (words = convex_words /\ x = false \/ words = conical_words /\ y = false \/ words = inequality_words /\ z = false)) -> ~ says words content.
Proof.
  intros (x & y & z & E & H). destruct (keywords_ok (length content + 2) content [] false false false (le_n _)) as (x' & y' & z' & E' & Sx & Sy & Sz). rewrite E in E'. inversion E'; subst x' y' z'. unfold sums in *.
  destruct H as [(-> & ->)|[(-> & ->)|(-> & ->)]]; intuition discriminate.
Qed.
Lemma half_strip_mode : ~ describes_system half_strip.
Proof. apply not_said. exists true, true, false. split; [vm_compute; reflexivity|auto]. Qed.
Lemma half_strip_facets : three_different_facets 3 (file_rows half_strip_contents NoSorting).
Proof.
  assert (HF : m_fme (arith INT32) sorted_order (file_rows half_strip_contents NoSorting) = Ok [[-1; 0; 0]; [0; -1; 0]; [2; 0; -1]]%Z) by (vm_compute; reflexivity).
  assert (HS := file_is_sane (Some half_strip) half_strip_contents half_strip_text).
  assert (HG : agree half_strip_contents 2). { split; [discriminate|]. split; [cbn; intuition (subst; reflexivity)|]. split; [intros m []|]. split; [right; reflexivity|left; reflexivity]. }
  destruct (file_rows_facts half_strip_contents NoSorting 2 HS HG ltac:(discriminate)) as (_ & HD & HH & HR). specialize (HR INT32 ltac:(discriminate)).
  assert (Hf : forall f, In f [[-1; 0; 0]; [0; -1; 0]; [2; 0; -1]]%Z -> facet 3 (file_rows half_strip_contents NoSorting) f).
  { intros f Hf. apply (rows_facets INT32 sorted_order 3 (file_rows half_strip_contents NoSorting) ltac:(discriminate) sorted_order_ok HR HD _ f) in HF; [tauto| |exact Hf]. exists [0; 1; 0]%Z. split; [cbn; auto|discriminate]. }
  exists [-1; 0; 0]%Z, [0; -1; 0]%Z, [2; 0; -1]%Z. split; [apply Hf; cbn; auto|]. split; [apply Hf; cbn; auto|]. split; [apply Hf; cbn; auto|].
  split; [|split]; intros (k & j & Hk & Hj & H); assert (H1 := H [0; 1; 0]%Z ltac:(cbn; auto)); assert (H2 := H [0; 0; 1]%Z ltac:(cbn; auto)); assert (H3 := H [1; 0; 2]%Z ltac:(cbn; auto)); cbn in H1, H2, H3; lia.
Qed.
Example C53_example : forall texts,
  Forall ordinary dd_args /\ Forall ordinary ad_args /\ ~ describes_system half_strip /\ three_different_facets 3 (file_rows half_strip_contents NoSorting) /\
  only_ends (m_main texts sorted_order (one_file half_strip) 20 4 dd_args) (line "Inequalities:" ++ line "-x <= 0" ++ line "-y <= 0" ++ line "2x <= 1") (Status 0) /\
  m_main texts sorted_order (one_file half_strip) 20 4 ad_args (line "Inequalities:" ++ line "-x <= 0" ++ line "-y <= 0" ++ line "2x <= 1") (Status 0).
Proof.
  intros texts. split; [apply Forall_forall; intros a Ha; apply plain_args; apply in_app_iff; auto|]. split; [apply Forall_forall; intros a Ha; apply plain_args; apply in_app_iff; auto|].
  split; [exact half_strip_mode|]. split; [exact half_strip_facets|].
  assert (MD : m_detect_mode (one_file half_strip) dd_args = Ok FacetEnumeration) by (vm_compute; reflexivity). assert (MA : m_detect_mode (one_file half_strip) ad_args = Ok FacetEnumeration) by (vm_compute; reflexivity).
  destruct asks_dd as (_ & D1 & D2). destruct asks_ad as (_ & A1 & A2). split.
  - intros out e. rewrite (main_mode texts sorted_order (one_file half_strip) 20 4 dd_args _ MD), (facet_main sorted_order (one_file half_strip) 20 4 dd_args _ SAFE D1 D2).
    assert (E : m_facet_program SAFE sorted_order (one_file half_strip) 20 dd_args = Some (line "Inequalities:" ++ line "-x <= 0" ++ line "-y <= 0" ++ line "2x <= 1", Ok tt)) by (vm_compute; reflexivity).
    rewrite E, dd_ends. reflexivity.
  - apply (main_mode texts sorted_order (one_file half_strip) 20 4 ad_args _ MA), (facet_main sorted_order (one_file half_strip) 20 4 ad_args _ INT32 A1 A2). unfold m_facet_ad.
    assert (EI : m_input_vertices (one_file half_strip) 20 ad_args = Ok (Some ([[0; 1; 0]; [0; 0; 1]; [1; 0; 2]]%Z, [lit "x"; lit "y"], [], []))) by (vm_compute; reflexivity). rewrite EI.
    assert (ET : m_number_of_threads 4 ad_args = Ok 1%Z) by (vm_compute; reflexivity). rewrite ET. left. split; [reflexivity|].
    change (m_cast_rows INT32 [[0; 1; 0]; [0; 0; 1]; [1; 0; 2]]%Z) with [[0; 1; 0]; [0; 0; 1]; [1; 0; 2]]%Z. change (m_cast_rows INT32 []) with (@nil vec). change (Z.to_nat 1) with 1.
    exists (State (Jobs 1 [[-1; 0; 0]; [0; -1; 0]; [2; 0; -1]; []]%Z [[]] [[-1; 0; 0]; [0; -1; 0]; [2; 0; -1]]%Z [[-1; 0; 0]; [0; -1; 0]; [2; 0; -1]]%Z) None [Stopped] []).
    assert (R : exists ls, ListModel.run (m_ad_neighbours INT32 sorted_order 20 [[0; 1; 0]; [0; 0; 1]; [1; 0; 2]]%Z []) (initial [[-1; 0; 0]; [0; -1; 0]; [2; 0; -1]]%Z [] 1 0) ls
      (State (Jobs 1 [[-1; 0; 0]; [0; -1; 0]; [2; 0; -1]; []]%Z [[]] [[-1; 0; 0]; [0; -1; 0]; [2; 0; -1]]%Z [[-1; 0; 0]; [0; -1; 0]; [2; 0; -1]]%Z) None [Stopped] [])).
    { apply (exec_all_ok _ (repeat CMain 4 ++ repeat (CThread 0) 21)). vm_compute. reflexivity. }
    destruct R as (ls & R). exists [], [], [[-1; 0; 0]; [0; -1; 0]; [2; 0; -1]]%Z, [], ls, [], (line "-x <= 0" ++ line "-y <= 0" ++ line "2x <= 1").
    split; [vm_compute; reflexivity|]. split; [vm_compute; reflexivity|]. split; [exists 0; split; [reflexivity|left; cbn; auto]|]. split; [exact R|]. split; [split; [reflexivity|split; [reflexivity|]]; cbn; intuition|].
    split; [|split; [reflexivity|split; [vm_compute; reflexivity|reflexivity]]].
    intros r [<-|[<-|[<-|[]]]]; unfold m_ad_processed; eexists; vm_compute; reflexivity.
Qed.
(** Vertex enumeration. *)
Example C53_vertices_example : forall texts, ~ describes_hull segment /\ describes_system segment /\
  only_ends (m_main texts sorted_order (one_file segment) 20 4 dd_args) (line "Vertices:" ++ line "0 1 " ++ line "1 0 ") (Status 0).
Proof.
  intros texts. split; [|split].
  - intros [H|H]; revert H; apply not_said; exists false, false, true; (split; [vm_compute; reflexivity|auto]).
  - exists (lit "Inequalities:"). split; [|apply keyword_itself; vm_compute; tauto].
    exists (line "Names:" ++ line "x y" ++ line "" ++ line "Equations:" ++ line "x + y = 1" ++ line ""), (newline :: line "-x <= 0" ++ line "2y >= 0").
    split; [reflexivity|]. split; [right; eexists (line "Names:" ++ line "x y" ++ line "" ++ line "Equations:" ++ line "x + y = 1"); reflexivity|]. split; [right; eexists; reflexivity|cbn; intuition discriminate].
  - intros out e. assert (MD : m_detect_mode (one_file segment) dd_args = Ok VertexEnumeration) by (vm_compute; reflexivity). destruct asks_dd as (_ & D1 & D2).
    rewrite (main_mode texts sorted_order (one_file segment) 20 4 dd_args _ MD), (vertex_main sorted_order (one_file segment) 20 4 dd_args _ SAFE D1 D2).
    assert (E : m_vertex_program SAFE sorted_order (one_file segment) 20 dd_args = Some (line "Vertices:" ++ line "0 1 " ++ line "1 0 ", Ok tt)) by (vm_compute; reflexivity). rewrite E, dd_ends. reflexivity.
Qed.
