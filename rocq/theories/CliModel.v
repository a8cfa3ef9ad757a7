(** * CliModel: interpretation of the command line.

    [args] are argv[1], ..., argv[argc - 1].  A [char*] is the text up to the terminating zero. *)
From Coq Require Import List ZArith Arith Bool Ascii String.
From Verif Require Import Base StreamModel SortModel.
Import ListNotations.
Open Scope nat_scope.

(** [std::strcmp(a, b) == 0], [std::strncmp(a, b, n) == 0]. *)
Definition strcmp0 (a b : text) : bool := text_eqb a b.
(** [std::strncmp(a, b, n) == 0]. *)
Definition strncmp0 (a b : text) (n : nat) : bool := text_eqb (firstn n a) (firstn n b).
(** Reading from [argument + offset] is undefined beyond the terminating zero. *)
Definition advance (argument : text) (offset : nat) : res text := if offset <=? length argument then Ok (skipn offset argument) else UB.

(** The loop of [numberOfThreads] (concurrency.cpp 28-50), [integerType] (integer_type_detection.cpp 25-49), [method] (input_method.cpp 20-42) and
    [getInputOrder] (input_detection.cpp 67-89): the same four tests with different literals [short] ("-t"), [short_eq] ("-t="), [long] ("--threads=") and
    [almost] ("--t"). *)
Fixpoint m_option {A} (short short_eq long almost : text) (interpret : text -> res A) (default : res A) (args : list text) : res A :=
  match args with
  | [] => default
  | a :: args' =>
      if strcmp0 a short then match args' with [] => Throw | p :: _ => interpret p end
      else if strncmp0 a short_eq (length short_eq) then do p <- advance a (length short_eq); interpret p
      else if strncmp0 a long (length long) then do p <- advance a (length long); interpret p
      else if strncmp0 a short (length short) || strncmp0 a almost (length almost) then Throw
      else m_option short short_eq long almost interpret default args'
  end.

(** [interpretParameter] (concurrency.cpp 57-83).  The variable [n] is not initialised; [stream >> n] assigns to it unless the stream fails. *)
Definition m_interpret_threads (string : text) : res Z :=
  let '(n, s) := read_int 0 (opened string) in
  if negb (ok s) then Throw
  else
    let '(rest, s) := read_word [] s in
    if negb (at_end rest) then Throw else if (n <=? 0)%Z then Throw else Ok n.
(** [numberOfThreads] (concurrency.cpp 25-53); [hardware] is std::thread::hardware_concurrency(). *)
Definition m_number_of_threads (hardware : Z) (args : list text) : res Z :=
  m_option (lit "-t") (lit "-t=") (lit "--threads=") (lit "--t") m_interpret_threads (Ok (if (0 <? hardware)%Z then hardware else 1%Z)) args.

(** [IntegerType] and [integerTypeFromString] (integer_type_detection.cpp 55-92, all fixed widths available), [integerType] (22-51). *)
Inductive integer_choice := Type_default | Type_fixed16 | Type_fixed32 | Type_fixed64 | Type_safe | Type_variable.
(** integer_type_detection.cpp 55-92. *)
Definition m_integer_type_from_string (string : text) : res integer_choice :=
  if strcmp0 string (lit "16") then Ok Type_fixed16
  else if strcmp0 string (lit "32") then Ok Type_fixed32
  else if strcmp0 string (lit "64") then Ok Type_fixed64
  else if strcmp0 string (lit "safe") then Ok Type_safe
  else if strcmp0 string (lit "inf") then Ok Type_variable
  else Throw.
(** integer_type_detection.cpp 22-51. *)
Definition m_integer_type (args : list text) : res integer_choice :=
  m_option (lit "-i") (lit "-i=") (lit "--integer-type=") (lit "--i") m_integer_type_from_string (Ok Type_default) args.

(** [detectMethod] (input_method.cpp 48-63), [method] (18-44). *)
Inductive method := DoubleDescription | AdjacencyDecomposition.
(** input_method.cpp 49-64. *)
Definition m_detect_method (argument : text) : res method :=
  if strcmp0 argument (lit "dd") || strcmp0 argument (lit "double-description") || strcmp0 argument (lit "double_description") then Ok DoubleDescription
  else if strcmp0 argument (lit "ad") || strcmp0 argument (lit "adjacency-decomposition") || strcmp0 argument (lit "adjacency_decomposition") then
    Ok AdjacencyDecomposition
  else Throw.
(** input_method.cpp 19-45. *)
Definition m_method (args : list text) : res method :=
  m_option (lit "-m") (lit "-m=") (lit "--method=") (lit "--m") m_detect_method (Ok AdjacencyDecomposition) args.

(** [ascending] (input_detection.cpp 168-173), [inputOrderLexicographic] (175-190), [inputOrderNonZeroEntries] (192-207), [inputOrder] (209-224),
    [getInputOrder] (65-91). *)
Definition m_ascending (argument : text) : bool :=
  negb (strncmp0 argument (lit "desc") 4) && negb (strncmp0 argument (lit "down") 4) && negb (strncmp0 argument (lit "dec") 3).
(** input_detection.cpp 175-190. *)
Definition m_order_lexicographic (argument : text) : res input_order :=
  if strcmp0 argument (lit "lex") || strcmp0 argument (lit "lexicographic") then Ok LexicographicAscending
  else
    do p <- advance argument (if strncmp0 argument (lit "lex_") 4 then 4 else 14);
    Ok (if m_ascending p then LexicographicAscending else LexicographicDescending).
(** input_detection.cpp 192-207. *)
Definition m_order_nonzero (argument : text) : res input_order :=
  if strcmp0 argument (lit "nz") || strcmp0 argument (lit "nonzero") then Ok NonZeroEntriesAscending
  else
    do p <- advance argument (if strncmp0 argument (lit "nz_") 3 then 3 else 8);
    Ok (if m_ascending p then NonZeroEntriesAscending else NonZeroEntriesDescending).
(** input_detection.cpp 209-224. *)
Definition m_order_from_string (argument : text) : res input_order :=
  if strncmp0 argument (lit "lex") 3 then m_order_lexicographic argument
  else if strncmp0 argument (lit "n") 1 then m_order_nonzero argument
  else if strcmp0 argument (lit "rev") || strcmp0 argument (lit "reverse") then Ok Reverse
  else Throw.
(** input_detection.cpp 65-91. *)
Definition m_input_order (args : list text) : res input_order :=
  m_option (lit "-s") (lit "-s=") (lit "--sorting=") (lit "--s") m_order_from_string (Ok NoSorting) args.

(** [requiresParameter] (input_detection.cpp 127-131), [getFilename] (38-63). *)
Definition m_requires_parameter (argument : text) : bool := negb (strcmp0 argument (lit "-c")) && negb (strcmp0 argument (lit "-f")).
(** The loop of [getFilename], input_detection.cpp 38-63. *)
Fixpoint m_filename_loop (args : list text) (name : text) : res text :=
  match args with
  | [] => Ok name
  | a :: args' =>
      if strncmp0 a (lit "--") 2 then m_filename_loop args' name
      else if strncmp0 a (lit "-") 1 then
        if m_requires_parameter a then match args' with [] => Ok name | _ :: args'' => m_filename_loop args'' name end
        else m_filename_loop args' name
      else if negb (at_end name) then Throw
      else m_filename_loop args' a
  end.
(** input_detection.cpp 38-63. *)
Definition m_filename (args : list text) : res text := m_filename_loop args [].

(** [checkValidity], [filterInvalidInput] (input_validity.cpp 105-127). *)
Definition m_check_validity (args : list text) : bool := existsb (fun a => strcmp0 a (lit "-c") || strcmp0 a (lit "--check")) args.
(** input_validity.cpp 117-127. *)
Definition m_filter_invalid (args : list text) : bool := existsb (fun a => strcmp0 a (lit "-f") || strcmp0 a (lit "--filter")) args.

(** [getFilenameKnownFacets] (input.cpp 251-285) and [getFilenameKnownVertices] (287-321): they differ in which of "--known-facets=" and
    "--known-vertices=" is [accepted] and which one is [refused]. *)
Fixpoint m_known_data (accepted refused : text) (args : list text) : res text :=
  match args with
  | [] => Ok []
  | a :: args' =>
      if strcmp0 a (lit "-k") then match args' with [] => Throw | p :: _ => Ok p end
      else if strncmp0 a (lit "-k=") 3 then advance a 3
      else if strncmp0 a (lit "--known-data=") 13 then advance a 13
      else if strncmp0 a accepted (length accepted) then advance a (length accepted)
      else if strncmp0 a refused (length refused) then Throw
      else if strncmp0 a (lit "-k") 2 || strncmp0 a (lit "--k") 3 then Throw
      else m_known_data accepted refused args'
  end.
(** input.cpp 251-285. *)
Definition m_known_facets_filename (args : list text) : res text := m_known_data (lit "--known-facets=") (lit "--known-vertices=") args.
(** input.cpp 287-321. *)
Definition m_known_vertices_filename (args : list text) : res text := m_known_data (lit "--known-vertices=") (lit "--known-facets=") args.

(** [commandLineModeOption] (input_detection.cpp 226-258). *)
Inductive operation_mode := FacetEnumeration | VertexEnumeration | HelpCommand | Help | Version | Undecided | Invalid.
(** Also input_detection.cpp 226-258. *)
Fixpoint m_mode_option_loop (args : list text) : operation_mode :=
  match args with
  | [] => Undecided
  | a :: args' =>
      if (strcmp0 a (lit "-h") && negb (match args' with [] => true | _ => false end)) || strncmp0 a (lit "-h=") 3 || strncmp0 a (lit "--help=") 7 ||
         strncmp0 a (lit "--help-command=") 15 then HelpCommand
      else if strcmp0 a (lit "?") || strcmp0 a (lit "-h") || strcmp0 a (lit "--h") || strcmp0 a (lit "-help") || strcmp0 a (lit "--help") then Help
      else if strcmp0 a (lit "-v") || strcmp0 a (lit "--v") || strcmp0 a (lit "-version") || strcmp0 a (lit "--version") then Version
      else m_mode_option_loop args'
  end.
(** Also input_detection.cpp 226-258. *)
Definition m_mode_option (args : list text) : operation_mode := match args with [] => Help | _ => m_mode_option_loop args end.
