(** * MainModel: main.cpp, method_facet_enumeration.cpp, method_vertex_enumeration.cpp, integer_type_selection.tpp and method_adjacency_decomposition.cpp:
    from the command line and the files to the text on the standard output and the way the program ends. *)
From Coq Require Import List ZArith Arith Bool Ascii String.
From Verif Require Import Base Spec ListUtil ArithModel MatrixModel FmeModel SafeIntModel IntTypes ClassesModel MapModel StreamModel SortModel CliModel OutputModel FileModel RotationModel ListModel AdModel VertexAdModel TypedModel.
From Verif Require Export TypedAdModel.
Import ListNotations.
Open Scope list_scope.

(** [IntegerTypeSelector::select] (integer_type_selection.tpp 34-67).  The selection of BigInteger is [None]. *)
Definition m_selected (c : integer_choice) : option int_type :=
  match c with
  | Type_fixed16 => Some INT16
  | Type_fixed32 => Some INT32
  | Type_fixed64 => Some INT64
  | Type_safe => Some SAFE
  | Type_variable => None
  | Type_default => Some INT32
  end.
(** The double description programs: what they print and how they end. *)
Definition m_dd_ends (p : option prints) (out : text) (e : ending) : Prop :=
  match p with
  | None => False
  | Some (o, r) => out = o /\ e = m_caught r
  end.

(** What the main thread of adjacency decomposition prints before the first row: the equations and the title (method_adjacency_decomposition_implementation.cpp 93-98, 106-108, 129-133). *)
Definition m_ad_title (maps : list lmap) : text := m_reduced (nonempty maps) ++ lit "Inequalities:" ++ end_line.
(** Adjacency decomposition of the rows ends in the main thread before the worker threads are started (method_adjacency_decomposition_implementation.cpp 59, 63): with an exception, which is caught
    (method_adjacency_decomposition.cpp 83-92), or with undefined behaviour. *)
Definition m_ad_stops (t : int_type) (order : list nat -> list nat) (fuel : nat) (vertices : list vec) (names : list text) (maps : list lmap) (known : list vec) (out : text) (e : ending) : Prop :=
  match m_extract_equations (arith t) vertices with
  | Ok equations =>
      match m_ad_equations t names equations with
      | (head, Ok _) =>
          match m_ad_reduce t vertices maps with
          | Ok (_, reduced) =>
              match m_ad_start t order fuel vertices equations reduced known with
              | Ok (Some start) => (* [put] prints the rows *) exists lines r, m_pretty_matrix t names "<=" (m_new_rows start) = (lines, r) /\ r <> Ok tt /\ out = head ++ m_ad_title reduced ++ lines /\ e = m_caught r
              | Ok None => False
              | Throw => out = head ++ m_ad_title reduced /\ e = Status 1
              | UB => e = Undefined
              end
          | Throw => out = head /\ e = Status 1
          | UB => e = Undefined
          end
      | (head, r) => out = head /\ e = m_caught r
      end
  | Throw => out = [] /\ e = Status 1
  | UB => e = Undefined
  end.
(** A worker thread or the asynchronous task fails: an exception leaves the function of the thread and ends the process (std::terminate), or its behaviour is undefined.  The text printed until then is not described.
    (Not modelled: an exception while the asynchronous task prints a known row; it would be dropped like the others, see [m_ad_added], but leave the row in the set.) *)
Definition m_ad_fails (t : int_type) (order : list nat -> list nat) (fuel threads : nat) (vertices : list vec) (names : list text) (maps : list lmap) (known : list vec) (e : ending) : Prop :=
  (exists equations reduced start k, m_ad_reduce t vertices maps = Ok (equations, reduced) /\ m_ad_start t order fuel vertices equations reduced known = Ok (Some start) /\
    (* in the asynchronous task *) m_ad_known t fuel equations reduced (firstn k known) = UB /\ e = Undefined) \/
  exists equations reduced start added ls s r,
    m_ad_reduce t vertices maps = Ok (equations, reduced) /\
    m_ad_start t order fuel vertices equations reduced known = Ok (Some start) /\
    m_ad_added t fuel equations reduced known added /\
    ListModel.run (m_ad_neighbours t order fuel vertices reduced) (initial start added threads 0) ls s /\
    ((In r (handed (sh s)) /\ ((m_rotation (arith t) order fuel vertices r reduced Facet_tag = Throw /\ e = Terminated) \/ (m_rotation (arith t) order fuel vertices r reduced Facet_tag = UB /\ e = Undefined))) \/
     (In r (printed (sh s)) /\ ~ In r start /\ ~ In r added /\ ((snd (m_pretty_matrix t names "<=" [r]) = Throw /\ e = Terminated) \/ (snd (m_pretty_matrix t names "<=" [r]) = UB /\ e = Undefined)))).
(** [FacetEnumerationAdjacencyDecomposition::call] (method_adjacency_decomposition.cpp 66-92) on one node, with [hardware] processors. *)
Definition m_facet_ad (t : int_type) (order : list nat -> list nat) (fs : files) (fuel : nat) (hardware : Z) (args : list text) (out : text) (e : ending) : Prop :=
  match m_input_vertices fs fuel args with
  | Ok (Some (vertices, names, maps, known)) =>
      match m_number_of_threads hardware args with
      | Ok threads =>
          let vertices := m_cast_rows t vertices in
          let known := m_cast_rows t known in
          (e = Status 0 /\ exists s, m_ad_run t order fuel (Z.to_nat threads) vertices names maps known s out) \/
          m_ad_stops t order fuel vertices names maps known out e \/
          m_ad_fails t order fuel (Z.to_nat threads) vertices names maps known e
      | Throw => out = [] /\ e = Status 1
      | UB => e = Undefined
      end
  | Ok None => False
  | Throw => out = [] /\ e = Status 1
  | UB => e = Undefined
  end.

(** Vertex enumeration by adjacency decomposition ends in the main thread before the worker threads are started (method_adjacency_decomposition_implementation.cpp 59, 63 with tag::vertex), as in [m_ad_stops]. *)
Definition m_vad_stops (t : int_type) (order : list nat -> list nat) (fuel : nat) (inequalities : list vec) (maps : list lmap) (known : list vec) (out : text) (e : ending) : Prop :=
  match m_vad_start t order fuel inequalities maps known with
  | Ok (Some start) => exists lines r, m_raw_lines t (m_new_rows start) = (lines, r) /\ r <> Ok tt /\ out = m_vad_title maps ++ lines /\ e = m_caught r
  | Ok None => False
  | Throw => out = m_vad_title maps /\ e = Status 1
  | UB => e = Undefined
  end.
(** A worker thread fails, as in [m_ad_fails]. *)
Definition m_vad_fails (t : int_type) (order : list nat -> list nat) (fuel threads : nat) (inequalities : list vec) (maps : list lmap) (known : list vec) (e : ending) : Prop :=
  (exists start k, m_vad_start t order fuel inequalities maps known = Ok (Some start) /\ (* in the asynchronous task *) m_vad_known t fuel maps (firstn k known) = UB /\ e = Undefined) \/
  exists start added ls s r,
    m_vad_start t order fuel inequalities maps known = Ok (Some start) /\
    m_vad_added t fuel maps known added /\
    ListModel.run (m_vad_neighbours t order fuel inequalities maps) (initial start added threads 0) ls s /\
    ((In r (handed (sh s)) /\ ((m_rotation (arith t) order fuel inequalities r maps Vertex_tag = Throw /\ e = Terminated) \/ (m_rotation (arith t) order fuel inequalities r maps Vertex_tag = UB /\ e = Undefined))) \/
     (In r (printed (sh s)) /\ ~ In r start /\ ~ In r added /\ ((snd (m_raw_lines t [r]) = Throw /\ e = Terminated) \/ (snd (m_raw_lines t [r]) = UB /\ e = Undefined)))).
(** [VertexEnumerationAdjacencyDecomposition::call] (method_adjacency_decomposition.cpp 94-120) on one node, with [hardware] processors. *)
Definition m_vertex_ad (t : int_type) (order : list nat -> list nat) (fs : files) (fuel : nat) (hardware : Z) (args : list text) (out : text) (e : ending) : Prop :=
  match m_input_inequalities fs fuel args with
  | Ok (Some (inequalities, names, maps, known)) =>
      match m_number_of_threads hardware args with
      | Ok threads =>
          let inequalities := m_cast_rows t inequalities in
          let known := m_cast_rows t known in
          (e = Status 0 /\ exists s, m_vad_run t order fuel (Z.to_nat threads) inequalities maps known s out) \/
          m_vad_stops t order fuel inequalities maps known out e \/
          m_vad_fails t order fuel (Z.to_nat threads) inequalities maps known e
      | Throw => out = [] /\ e = Status 1
      | UB => e = Undefined
      end
  | Ok None => False
  | Throw => out = [] /\ e = Status 1
  | UB => e = Undefined
  end.

(** A step outside every handler. *)
Definition m_uncaught {X} (x : res X) (k : X -> text -> ending -> Prop) (out : text) (e : ending) : Prop :=
  match x with
  | Ok v => k v out e
  | Throw => out = [] /\ e = Terminated
  | UB => e = Undefined
  end.
(** [facetEnumeration] (method_facet_enumeration.cpp 17-34) with the selection of the type. *)
Definition m_facet_main (order : list nat -> list nat) (fs : files) (fuel : nat) (hardware : Z) (args : list text) : text -> ending -> Prop :=
  m_uncaught (m_method args) (fun method =>
  m_uncaught (m_integer_type args) (fun choice out e =>
    match m_selected choice with
    | None =>
        match method with
        | AdjacencyDecomposition => m_inf_facet_ad order fs fuel hardware args out e
        | DoubleDescription => m_dd_ends (m_inf_facet_program order fs fuel args) out e
        end
    | Some t =>
        match method with
        | AdjacencyDecomposition => m_facet_ad t order fs fuel hardware args out e
        | DoubleDescription => m_dd_ends (m_facet_program t order fs fuel args) out e
        end
    end)).
(** [vertexEnumeration] (method_vertex_enumeration.cpp 17-34) with the selection of the type. *)
Definition m_vertex_main (order : list nat -> list nat) (fs : files) (fuel : nat) (hardware : Z) (args : list text) : text -> ending -> Prop :=
  m_uncaught (m_method args) (fun method =>
  m_uncaught (m_integer_type args) (fun choice out e =>
    match m_selected choice with
    | None =>
        match method with
        | AdjacencyDecomposition => m_inf_vertex_ad order fs fuel hardware args out e
        | DoubleDescription => m_dd_ends (m_inf_vertex_program order fs fuel args) out e
        end
    | Some t =>
        match method with
        | AdjacencyDecomposition => m_vertex_ad t order fs fuel hardware args out e
        | DoubleDescription => m_dd_ends (m_vertex_program t order fs fuel args) out e
        end
    end)).
(** The texts of help.cpp 62-184, one for each command; they are printed on the standard output and are not modelled. *)
Inductive help_topic := Topic_check | Topic_help | Topic_integer_type | Topic_known_data | Topic_method | Topic_sorting | Topic_threads | Topic_version.
(** [command == "..."] for one of several literals. *)
Definition m_one_of (words : list string) (command : text) : bool := existsb (fun w => text_eqb command (lit w)) words.
(** [printHelpCommand] (help.cpp 186-226): the text that is printed; [None]: nothing is printed and 1 is returned. *)
Definition m_help_topic (command : text) : option help_topic :=
  if m_one_of ["c"; "-c"; "check"; "--check"]%string command then Some Topic_check
  else if m_one_of ["h"; "-h"; "--h"; "help"; "-help"; "--help"; "?"]%string command then Some Topic_help
  else if m_one_of ["i"; "-i"; "integer-type"; "--integer-type"]%string command then Some Topic_integer_type
  else if m_one_of ["k"; "-k"; "known_facets"; "--known_facets"; "known_vertices"; "--known_vertices"; "known_data"; "--known_data"]%string command then Some Topic_known_data
  else if m_one_of ["m"; "-m"; "method"; "--method"]%string command then Some Topic_method
  else if m_one_of ["s"; "-s"; "sorting"; "--sorting"]%string command then Some Topic_sorting
  else if m_one_of ["t"; "-t"; "threads"; "--threads"]%string command then Some Topic_threads
  else if m_one_of ["v"; "-v"; "version"; "-version"; "--version"]%string command then Some Topic_version
  else None.
(** The argument of the help option (help.cpp 25-56): [None] if there is none. *)
Fixpoint m_help_argument (args : list text) : option text :=
  match args with
  | [] => None
  | a :: args' =>
      if strcmp0 a (lit "-h") then match args' with [] => None | p :: _ => Some p end
      else if strncmp0 a (lit "-h=") 3 then Some (skipn 3 a)
      else if strncmp0 a (lit "--help=") 7 then Some (skipn 7 a)
      else if strncmp0 a (lit "--help-command=") 15 then Some (skipn 15 a)
      else m_help_argument args'
  end.
(** [help::command] (help.cpp 23-58). *)
Definition m_help_command (texts : help_topic -> text) (args : list text) (out : text) (e : ending) : Prop :=
  match m_help_argument args with
  | None => out = [] /\ e = Status 1
  | Some command => match m_help_topic command with Some topic => out = texts topic /\ e = Status 0 | None => out = [] /\ e = Status 1 end
  end.
(** [main] (main.cpp 24-60): the standard output is [out] and the process ends with [e].  The other help texts and the version go to the error stream. *)
Definition m_main (texts : help_topic -> text) (order : list nat -> list nat) (fs : files) (fuel : nat) (hardware : Z) (args : list text) : text -> ending -> Prop :=
  m_uncaught (m_detect_mode fs args) (fun mode out e =>
    match mode with
    | FacetEnumeration => m_facet_main order fs fuel hardware args out e
    | VertexEnumeration => m_vertex_main order fs fuel hardware args out e
    | HelpCommand => m_help_command texts args out e
    | Help | Version => out = [] /\ e = Status 0
    | CliModel.Undecided | CliModel.Invalid => out = [] /\ e = Status 1
    end).

(** The programs for the types of IntTypes are those of TypedAdModel. *)
Lemma typed_facet_ad t : g_facet_ad (arith t) (OutputModel.m_to_int t) (MapModel.m_factor t) (m_cast_rows t) (fun r => r) (fun m => m) (fun m => m) = m_facet_ad t.
Proof. reflexivity. Qed.
Lemma typed_vertex_ad t : g_vertex_ad (arith t) (OutputModel.m_to_int t) (m_cast_rows t) (fun r => r) (fun m => m) (fun m => m) = m_vertex_ad t.
Proof. reflexivity. Qed.
