(** * TypedAdModel: the programs of method_adjacency_decomposition.cpp over any integer type, in particular BigInteger ("-i inf").
    The types of IntTypes have them in MainModel; [typed_facet_ad] and [typed_vertex_ad] there say that those are instances of the ones here. *)
From Coq Require Import List ZArith Arith Bool Ascii String.
From Verif Require Import Base Spec ListUtil ArithModel MatrixModel FmeModel SafeIntModel IntTypes ClassesModel MapModel StreamModel SortModel CliModel OutputModel InputModel FileModel RotationModel ListModel AdModel VertexAdModel BigIntModel BigIntLimbs BigIntProofs BigArith TypedModel.
Import ListNotations.
Open Scope nat_scope.
Open Scope list_scope.

(** The end of the process: [main] returns a status, an exception that nobody catches ends it (std::terminate), or its behaviour is undefined. *)
Inductive ending := Status (code : Z) | Terminated | Undefined.
(** The handlers of the four programs (method_double_description.cpp 154-163, 182-191, method_adjacency_decomposition.cpp 83-92, 111-120): status 0 at the end, 1 after an exception. *)
Definition m_caught (r : res unit) : ending := match r with Ok _ => Status 0 | Throw => Status 1 | UB => Undefined end.
(** The rows [put] inserts (list.cpp 60-81): the first occurrence of each. *)
Definition m_new_rows (rows : list vec) : list vec := fold_left (fun seen r => if in_dec (list_eq_dec Z.eq_dec) r seen then seen else seen ++ [r]) rows [].

Section Representatives.
  Variables (A : Arith) (t : tag).
  (** [std::transform] with [classRepresentative] (method_adjacency_decomposition_implementation.cpp 144-148), see AdModel. *)
  Fixpoint g_representatives (fuel : nat) (maps : list lmap) (rows : list (list (num A))) : res (option (list (list (num A)))) :=
    match rows with
    | [] => Ok (Some [])
    | r :: rows' =>
        do x <- m_representative A fuel t maps r;
        match x with
        | None => Ok None
        | Some x =>
            do xs <- g_representatives fuel maps rows';
            match xs with
            | None => Ok None
            | Some xs => Ok (Some (x :: xs))
            end
        end
    end.
End Representatives.

Section Typed.
  (** The type, its conversion to int, the factor [-c * e] for a factor [c] of a map and a coefficient [e], the conversion of the rows that were read (cast.cpp 15-37).
      The list of jobs holds rows by their values: [outwards] gives the values of rows, [inward] and [inwards] the rows with these values.  (Rows of BigIntegers are
      compared number by number in list.cpp 68-79; for numbers in the form the operations produce this is the comparison of the values, C18.) *)
  Variables (A : Arith) (to_int : num A -> res Z) (factor : Z -> num A -> res Z) (cast : list vec -> list (list (num A))).
  Variables (inward : vec -> list (num A)) (inwards : list vec -> list (list (num A))) (outwards : list (list (num A)) -> list vec).
  Notation matrix := (list (list (num A))).

  (** [reduce] for facets (method_adjacency_decomposition_implementation.cpp 93-107), see AdModel. *)
  Definition g_ad_reduce (vertices : matrix) (maps : list lmap) : res (matrix * list lmap) :=
    do equations <- m_extract_equations A vertices;
    match equations with
    | [] => Ok ([], maps)
    | _ => do reduced <- mapM (g_normalize_map A factor equations) maps; Ok (equations, reduced)
    end.
  (** The known rows as they are put (method_adjacency_decomposition_implementation.cpp 138-140 and 153-158). *)
  Definition g_ad_known (t : tag) (fuel : nat) (equations : matrix) (maps : list lmap) (known : matrix) : res (option matrix) :=
    do rows <- mapM (fun r => m_normalize A r equations) known;
    g_representatives A t fuel maps rows.
  (** The rows the asynchronous task puts (method_adjacency_decomposition_implementation.cpp 151-159). *)
  Definition g_ad_added (t : tag) (fuel : nat) (equations : matrix) (maps : list lmap) (known added : matrix) : Prop :=
    exists k, g_ad_known t fuel equations maps (firstn k known) = Ok (Some added) /\ (length known <= k \/ g_ad_known t fuel equations maps (firstn (S k) known) = Throw).
  (** The rows put by [initializationOnMaster] before the threads start (method_adjacency_decomposition_implementation.cpp 136-149). *)
  Definition g_ad_start (t : tag) (order : list nat -> list nat) (fuel : nat) (vertices equations : matrix) (maps : list lmap) (known : matrix) : res (option matrix) :=
    match known with
    | r :: _ => g_ad_known t fuel equations maps [r]
    | [] => do rows <- m_fme_heuristic A order vertices; g_representatives A t fuel maps rows
    end.
  (** The rows put after a row has been processed (method_adjacency_decomposition_implementation.cpp 75-76). *)
  Definition g_ad_neighbours (t : tag) (order : list nat -> list nat) (fuel : nat) (vertices : matrix) (maps : list lmap) (r : vec) : list vec :=
    match m_rotation A order fuel vertices (inward r) maps t with
    | Ok (Some l) => outwards l
    | _ => []
    end.
  (** Processing a row succeeds (the same lines). *)
  Definition g_ad_processed (t : tag) (order : list nat -> list nat) (fuel : nat) (vertices : matrix) (maps : list lmap) (r : vec) : Prop :=
    exists l : matrix, m_rotation A order fuel vertices (inward r) maps t = Ok (Some l).

  (** ** Facets *)
  (** The equations section printed by [reduce] (method_adjacency_decomposition_implementation.cpp 110-119). *)
  Definition g_ad_equations (names : list text) (equations : matrix) : prints :=
    match equations with
    | [] => say []
    | _ => andthen (say (lit "Equations:" ++ end_line)) (andthen (g_pretty_matrix A to_int names "=" equations) (say end_line))
    end.
  (** What the main thread prints before the first row (method_adjacency_decomposition_implementation.cpp 93-98, 106-108, 129-133). *)
  Definition g_ad_title (maps : list lmap) : text := m_reduced (nonempty maps) ++ lit "Inequalities:" ++ end_line.
  (** The program prints [out] and ends, see [m_ad_run] (method_adjacency_decomposition_implementation.cpp 50-168, list.cpp 60-80). *)
  Definition g_ad_run (order : list nat -> list nat) (fuel threads : nat) (vertices : matrix) (names : list text) (maps : list lmap) (known : matrix) (s : state) (out : text) : Prop :=
    exists equations reduced start added ls head lines,
      g_ad_reduce vertices maps = Ok (equations, reduced) /\
      g_ad_start Facet_tag order fuel vertices equations reduced known = Ok (Some start) /\
      g_ad_added Facet_tag fuel equations reduced known added /\
      ListModel.run (g_ad_neighbours Facet_tag order fuel vertices reduced) (initial (outwards start) (outwards added) threads 0) ls s /\ terminated s /\
      (forall r, In r (handed (sh s)) -> g_ad_processed Facet_tag order fuel vertices reduced r) /\
      g_ad_equations names equations = say head /\ g_pretty_matrix A to_int names "<=" (inwards (printed (sh s))) = say lines /\
      out = head ++ m_reduced (nonempty reduced) ++ lit "Inequalities:" ++ end_line ++ lines.
  (** It ends before the worker threads are started, see [m_ad_stops] (method_adjacency_decomposition_implementation.cpp 59, 63, method_adjacency_decomposition.cpp 83-92). *)
  Definition g_ad_stops (order : list nat -> list nat) (fuel : nat) (vertices : matrix) (names : list text) (maps : list lmap) (known : matrix) (out : text) (e : ending) : Prop :=
    match m_extract_equations A vertices with
    | Ok equations =>
        match g_ad_equations names equations with
        | (head, Ok _) =>
            match g_ad_reduce vertices maps with
            | Ok (_, reduced) =>
                match g_ad_start Facet_tag order fuel vertices equations reduced known with
                | Ok (Some start) => exists lines r, g_pretty_matrix A to_int names "<=" (inwards (m_new_rows (outwards start))) = (lines, r) /\ r <> Ok tt /\ out = head ++ g_ad_title reduced ++ lines /\ e = m_caught r
                | Ok None => False
                | Throw => out = head ++ g_ad_title reduced /\ e = Status 1
                | UB => e = Undefined
                end
            | Throw => out = head /\ e = Status 1
            | UB => e = Undefined
            end
        | (head, r) => out = head /\ e = m_caught r
        end
    | Throw => out = [] /\ e = Status 1
    | UB => e = Undefined
    end.
  (** A worker thread or the asynchronous task fails, see [m_ad_fails] (method_adjacency_decomposition_implementation.cpp 63-80, 151-159). *)
  Definition g_ad_fails (order : list nat -> list nat) (fuel threads : nat) (vertices : matrix) (names : list text) (maps : list lmap) (known : matrix) (e : ending) : Prop :=
    (exists equations reduced start k, g_ad_reduce vertices maps = Ok (equations, reduced) /\ g_ad_start Facet_tag order fuel vertices equations reduced known = Ok (Some start) /\
      g_ad_known Facet_tag fuel equations reduced (firstn k known) = UB /\ e = Undefined) \/
    exists equations reduced start added ls s r,
      g_ad_reduce vertices maps = Ok (equations, reduced) /\
      g_ad_start Facet_tag order fuel vertices equations reduced known = Ok (Some start) /\
      g_ad_added Facet_tag fuel equations reduced known added /\
      ListModel.run (g_ad_neighbours Facet_tag order fuel vertices reduced) (initial (outwards start) (outwards added) threads 0) ls s /\
      ((In r (handed (sh s)) /\ ((m_rotation A order fuel vertices (inward r) reduced Facet_tag = Throw /\ e = Terminated) \/ (m_rotation A order fuel vertices (inward r) reduced Facet_tag = UB /\ e = Undefined))) \/
       (In r (printed (sh s)) /\ ~ In r (outwards start) /\ ~ In r (outwards added) /\ ((snd (g_pretty_matrix A to_int names "<=" [inward r]) = Throw /\ e = Terminated) \/ (snd (g_pretty_matrix A to_int names "<=" [inward r]) = UB /\ e = Undefined)))).
  (** [FacetEnumerationAdjacencyDecomposition::call] (method_adjacency_decomposition.cpp 66-92) after the input and the number of threads. *)
  Definition g_facet_ad_call (order : list nat -> list nat) (fuel threads : nat) (vertices : matrix) (names : list text) (maps : list lmap) (known : matrix) (out : text) (e : ending) : Prop :=
    (e = Status 0 /\ exists s, g_ad_run order fuel threads vertices names maps known s out) \/
    g_ad_stops order fuel vertices names maps known out e \/
    g_ad_fails order fuel threads vertices names maps known e.
  (** [FacetEnumerationAdjacencyDecomposition::call] (method_adjacency_decomposition.cpp 66-92) on one node, with [hardware] processors. *)
  Definition g_facet_ad (order : list nat -> list nat) (fs : files) (fuel : nat) (hardware : Z) (args : list text) (out : text) (e : ending) : Prop :=
    match m_input_vertices fs fuel args with
    | Ok (Some (vertices, names, maps, known)) =>
        match m_number_of_threads hardware args with
        | Ok threads => g_facet_ad_call order fuel (Z.to_nat threads) (cast vertices) names maps (cast known) out e
        | Throw => out = [] /\ e = Status 1
        | UB => e = Undefined
        end
    | Ok None => False
    | Throw => out = [] /\ e = Status 1
    | UB => e = Undefined
    end.

  (** ** Vertices *)
  (** The lines of new rows (list.cpp 75, algorithm_row_operations.cpp 24-42). *)
  Definition g_raw_lines (rows : matrix) : prints := for_all (fun v => calc (mapM to_int v) (fun r => say (m_print_row r ++ end_line))) rows.
  (** The program prints [out] and ends, see [m_vad_run] (method_adjacency_decomposition_implementation.cpp 50-168, 121-126). *)
  Definition g_vad_run (order : list nat -> list nat) (fuel threads : nat) (inequalities : matrix) (maps : list lmap) (known : matrix) (s : state) (out : text) : Prop :=
    exists start added ls lines,
      g_ad_start Vertex_tag order fuel inequalities [] maps known = Ok (Some start) /\
      g_ad_added Vertex_tag fuel [] maps known added /\
      ListModel.run (g_ad_neighbours Vertex_tag order fuel inequalities maps) (initial (outwards start) (outwards added) threads 0) ls s /\ terminated s /\
      (forall r, In r (handed (sh s)) -> g_ad_processed Vertex_tag order fuel inequalities maps r) /\
      g_raw_lines (inwards (printed (sh s))) = say lines /\
      out = m_vad_title maps ++ lines.
  (** It ends before the worker threads are started, see [m_vad_stops] (method_adjacency_decomposition_implementation.cpp 59, 63). *)
  Definition g_vad_stops (order : list nat -> list nat) (fuel : nat) (inequalities : matrix) (maps : list lmap) (known : matrix) (out : text) (e : ending) : Prop :=
    match g_ad_start Vertex_tag order fuel inequalities [] maps known with
    | Ok (Some start) => exists lines r, g_raw_lines (inwards (m_new_rows (outwards start))) = (lines, r) /\ r <> Ok tt /\ out = m_vad_title maps ++ lines /\ e = m_caught r
    | Ok None => False
    | Throw => out = m_vad_title maps /\ e = Status 1
    | UB => e = Undefined
    end.
  (** A worker thread or the asynchronous task fails, see [m_vad_fails] (method_adjacency_decomposition_implementation.cpp 63-80, 151-159). *)
  Definition g_vad_fails (order : list nat -> list nat) (fuel threads : nat) (inequalities : matrix) (maps : list lmap) (known : matrix) (e : ending) : Prop :=
    (exists start k, g_ad_start Vertex_tag order fuel inequalities [] maps known = Ok (Some start) /\ g_ad_known Vertex_tag fuel [] maps (firstn k known) = UB /\ e = Undefined) \/
    exists start added ls s r,
      g_ad_start Vertex_tag order fuel inequalities [] maps known = Ok (Some start) /\
      g_ad_added Vertex_tag fuel [] maps known added /\
      ListModel.run (g_ad_neighbours Vertex_tag order fuel inequalities maps) (initial (outwards start) (outwards added) threads 0) ls s /\
      ((In r (handed (sh s)) /\ ((m_rotation A order fuel inequalities (inward r) maps Vertex_tag = Throw /\ e = Terminated) \/ (m_rotation A order fuel inequalities (inward r) maps Vertex_tag = UB /\ e = Undefined))) \/
       (In r (printed (sh s)) /\ ~ In r (outwards start) /\ ~ In r (outwards added) /\ ((snd (g_raw_lines [inward r]) = Throw /\ e = Terminated) \/ (snd (g_raw_lines [inward r]) = UB /\ e = Undefined)))).
  (** [VertexEnumerationAdjacencyDecomposition::call] (method_adjacency_decomposition.cpp 94-120) after the input and the number of threads. *)
  Definition g_vertex_ad_call (order : list nat -> list nat) (fuel threads : nat) (inequalities : matrix) (maps : list lmap) (known : matrix) (out : text) (e : ending) : Prop :=
    (e = Status 0 /\ exists s, g_vad_run order fuel threads inequalities maps known s out) \/
    g_vad_stops order fuel inequalities maps known out e \/
    g_vad_fails order fuel threads inequalities maps known e.
  (** [VertexEnumerationAdjacencyDecomposition::call] (method_adjacency_decomposition.cpp 94-120) on one node, with [hardware] processors. *)
  Definition g_vertex_ad (order : list nat -> list nat) (fs : files) (fuel : nat) (hardware : Z) (args : list text) (out : text) (e : ending) : Prop :=
    match m_input_inequalities fs fuel args with
    | Ok (Some (inequalities, names, maps, known)) =>
        match m_number_of_threads hardware args with
        | Ok threads => g_vertex_ad_call order fuel (Z.to_nat threads) (cast inequalities) maps (cast known) out e
        | Throw => out = [] /\ e = Status 1
        | UB => e = Undefined
        end
    | Ok None => False
    | Throw => out = [] /\ e = Status 1
    | UB => e = Undefined
    end.
End Typed.

(** ** BigInteger *)
(** The digits of a number, the least significant first, as the operations of big_integer_arithmetics.cpp leave them: no zeros at the end. *)
Fixpoint digits (fuel : nat) (z : Z) : list Z :=
  match fuel with
  | O => [z]
  | S fuel' => if (z <? base 64)%Z then [z] else (z mod base 64)%Z :: digits fuel' (z / base 64)%Z
  end.
(** The BigInteger with a value (big_integer.h 25-51: sign and digits). *)
Definition big_of (z : Z) : big := mk_big (z <? 0)%Z (digits (Z.to_nat (Z.log2 (Z.abs z))) (Z.abs z)).
(** The row of BigIntegers with given values (row.h 13-15). *)
Definition big_row (r : vec) : list big := map big_of r.
(** method_adjacency_decomposition.cpp 66-92 with [Integer = BigInteger] (integer_type_selection.tpp 58-61). *)
Definition m_inf_facet_ad : (list nat -> list nat) -> files -> nat -> Z -> list text -> text -> ending -> Prop :=
  g_facet_ad BIG (b_to_int 64 false) big_factor big_rows big_row (map big_row) rows_of.
(** method_adjacency_decomposition.cpp 94-120 with [Integer = BigInteger] (integer_type_selection.tpp 58-61). *)
Definition m_inf_vertex_ad : (list nat -> list nat) -> files -> nat -> Z -> list text -> text -> ending -> Prop :=
  g_vertex_ad BIG (b_to_int 64 false) big_rows big_row (map big_row) rows_of.
