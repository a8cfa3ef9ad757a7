(** * FileModel: consistency (input_consistency.cpp), whole files (input.cpp, input.tpp, input_detection.cpp) and the double description programs
    from the command line and the files to the text on the standard output. *)
From Coq Require Import List ZArith Arith Bool Ascii String.
From Verif Require Import Base Spec ListUtil ArithModel MatrixModel FmeModel SafeIntModel IntTypes ClassesModel MapModel ValidityModel SortModel StreamModel CliModel InputModel ConstraintModel OutputModel.
Import ListNotations.
Open Scope Z_scope.

(** [container.empty()]. *)
Definition is_empty {X} (l : list X) : bool := match l with [] => true | _ => false end.

(** ** input_consistency.cpp *)
Definition require (b : bool) : res unit := if b then Ok tt else Throw.
(** [rangeDimensionCheck] (input_consistency.cpp 80-90). *)
Definition m_range_check {X} (range : list (list X)) (dimension : nat) : res unit := require (forallb (fun entry => (length entry =? dimension)%nat) range).
(** [std::numeric_limits<std::size_t>::max()]. *)
Definition size_max : Z := 2 ^ 64 - 1.
(** The last two conditions (input_consistency.cpp 47-54, 68-75). *)
Definition m_declared_check (names : list text) (dimension : Z) (dim : nat) : res unit :=
  do _ <- require (negb (negb (is_empty names) && negb (length names + 1 =? dim)%nat));
  require (negb (negb (dimension =? size_max) && negb (Z.of_nat dim =? (dimension + 1) mod 2 ^ 64))).
(** [checkConsistency] of an inner description (input_consistency.cpp 34-37 and 57-76, without inequalities). *)
Definition m_consistent_vertices (conv cone : list vec) (names : list text) (maps : list lmap) (dimension : Z) : res unit :=
  match conv ++ cone with
  | [] => Throw
  | first :: _ =>
      let dim := length first in
      do _ <- m_range_check conv dim;
      do _ <- m_range_check cone dim;
      do _ <- m_range_check maps dim;
      m_declared_check names dimension dim
  end.
(** [checkConsistency] of an outer description (input_consistency.cpp 39-55). *)
Definition m_consistent_inequalities (inequalities : list vec) (names : list text) (dimension : Z) : res unit :=
  match inequalities with
  | [] => Throw
  | first :: _ => do _ <- m_range_check inequalities (length first); m_declared_check names dimension (length first)
  end.

(** ** input.cpp *)
(** Files that can be opened, by name; "std::ifstream file(filename)". *)
Definition files := text -> option text.
(** Opening and testing the stream (input.cpp 117-121, 185-189). *)
Definition m_open (fs : files) (name : text) : res stream := match fs name with Some t => Ok (opened t) | None => Throw end.

(** [expandInequalities] (input.cpp 436-450) and [expandVertices] (452-466). *)
Fixpoint expand_loop (fuel : nat) (tg : tag) (maps : list lmap) (rows : list vec) : res (option (list vec)) :=
  match rows with
  | [] => Ok (Some [])
  | row :: rows' => run c <- m_get_class (arith INT32) fuel tg maps row; run r <- expand_loop fuel tg maps rows'; Ok (Some (c ++ r))
  end.
(** input.cpp 436-466. *)
Definition m_expand (fuel : nat) (tg : tag) (maps : list lmap) (rows : list vec) : res (option (list vec)) :=
  if is_empty maps then Throw else expand_loop fuel tg maps rows.
(** [readVerticesConvex] (input.cpp 50-58), [readVerticesConical] (69-77), [readVerticesReducedConvex] (59-68), [readVerticesReducedConical] (78-87). *)
Definition m_read_vertices (conical : bool) (fuel : nat) (check : bool) (maps : list lmap) (s : stream) : res (option (list vec * stream)) :=
  run p <- m_section conical fuel s;
  let '(rows, s) := p in
  do _ <- (if check then m_check_maps (arith INT32) Vertex_tag rows maps else Ok tt);
  Ok (Some (rows, s)).
(** input.cpp 59-68, 78-87. *)
Definition m_read_reduced_vertices (conical : bool) (fuel : nat) (maps : list lmap) (s : stream) : res (option (list vec * stream)) :=
  run p <- m_section conical fuel s;
  let '(rows, s) := p in
  run rows <- m_expand fuel Vertex_tag maps rows;
  Ok (Some (rows, s)).
(** [readInequalities] (input.cpp 88-96) and [readReducedInequalities] (97-111). *)
Definition m_read_inequalities (check : bool) (names : list text) (maps : list lmap) (s : stream) : res (list vec * stream) :=
  do p <- m_constraints Inequality names s;
  let '(rows, s) := p in
  do _ <- (if check then m_check_maps (arith INT32) Facet_tag rows maps else Ok tt);
  Ok (rows, s).
(** input.cpp 97-111. *)
Definition m_read_reduced_inequalities (fuel : nat) (names : list text) (maps : list lmap) (equations : list vec) (s : stream) : res (option (list vec * stream)) :=
  do p <- m_constraints Inequality names s;
  let '(rows, s) := p in
  do tmp_maps <- m_normalize_maps INT32 equations maps;
  run rows <- m_expand fuel Facet_tag tmp_maps rows;
  Ok (Some (rows, s)).
(** No code of /repo: a step that always ends. *)
Definition lift {X} (m : res X) : res (option X) := do x <- m; Ok (Some x).

(** The loop of [vertices<int>] (input.cpp 123-127, 132-166). *)
Record inner := { i_conv : list vec; i_cone : list vec; i_dimension : Z; i_names : list text; i_maps : list lmap }.
(** Also input.cpp 123-127, 132-166. *)
Fixpoint inner_loop (fuel : nat) (check : bool) (token : text) (d : inner) (s : stream) : res (option inner) :=
  match fuel with
  | O => Ok None
  | S fuel' =>
      if negb (ok s) then Ok (Some d)
      else
        do p <- m_advance token s;
        let '(token, s) := p in
        if negb (ok s) then Ok (Some d)
        else if m_is_dimension token then
          do p <- m_dimension_of s;
          inner_loop fuel' check token {| i_conv := i_conv d; i_cone := i_cone d; i_dimension := fst p; i_names := i_names d; i_maps := i_maps d |} (snd p)
        else if m_is_names token then
          do p <- m_names s;
          inner_loop fuel' check token {| i_conv := i_conv d; i_cone := i_cone d; i_dimension := i_dimension d; i_names := fst p; i_maps := i_maps d |} (snd p)
        else if m_is_maps token then
          run p <- m_maps fuel (i_names d) s;
          inner_loop fuel' check token {| i_conv := i_conv d; i_cone := i_cone d; i_dimension := i_dimension d; i_names := i_names d; i_maps := fst p |} (snd p)
        else if m_is_convex token then
          run p <- m_read_vertices false fuel check (i_maps d) s;
          inner_loop fuel' check token {| i_conv := fst p; i_cone := i_cone d; i_dimension := i_dimension d; i_names := i_names d; i_maps := i_maps d |} (snd p)
        else if m_is_reduced_convex token then
          run p <- m_read_reduced_vertices false fuel (i_maps d) s;
          inner_loop fuel' check token {| i_conv := fst p; i_cone := i_cone d; i_dimension := i_dimension d; i_names := i_names d; i_maps := i_maps d |} (snd p)
        else if m_is_conical token then
          run p <- m_read_vertices true fuel check (i_maps d) s;
          inner_loop fuel' check token {| i_conv := i_conv d; i_cone := fst p; i_dimension := i_dimension d; i_names := i_names d; i_maps := i_maps d |} (snd p)
        else if m_is_reduced_conical token then
          run p <- m_read_reduced_vertices true fuel (i_maps d) s;
          inner_loop fuel' check token {| i_conv := i_conv d; i_cone := fst p; i_dimension := i_dimension d; i_names := i_names d; i_maps := i_maps d |} (snd p)
        else
          let '(token, s) := getline token s in inner_loop fuel' check token d s
  end.
(** Also input.cpp 123-127, 132-166. *)
Definition no_inner : inner := {| i_conv := []; i_cone := []; i_dimension := size_max; i_names := []; i_maps := [] |}.
(** [knownFacets] (input.cpp 323-342). *)
Definition m_known_facets (fs : files) (args : list text) (names : list text) : res (list vec) :=
  do filename <- m_known_facets_filename args;
  if at_end filename then Ok []
  else
    do s <- m_open fs filename;
    do p <- m_advance [] s;
    let '(token, s) := p in
    if m_is_inequalities token then do p <- m_read_inequalities (m_check_validity args) names [] s; Ok (fst p) else Throw.
(** [vertices<int>] (input.cpp 114-180). *)
Definition m_input_vertices (fs : files) (fuel : nat) (args : list text) : res (option (list vec * list text * list lmap * list vec)) :=
  do filename <- m_filename args;
  do s <- m_open fs filename;
  let '(keywords, s) := m_contains_keywords s in
  if negb keywords then Throw
  else
    run d <- inner_loop fuel (m_check_validity args) [] no_inner s;
    do _ <- m_consistent_vertices (i_conv d) (i_cone d) (i_names d) (i_maps d) (i_dimension d);
    do order <- m_input_order args;
    let vertices := m_sort order (i_cone d) ++ m_sort order (i_conv d) in
    do known <- m_known_facets fs args (i_names d);
    do _ <- (if m_check_validity args then m_check_inequalities (arith INT32) vertices known else Ok tt);
    Ok (Some (vertices, i_names d, i_maps d, known)).

(** The loop of [inequalities<int>] (input.cpp 191-195, 200-230). *)
Record outer := { o_equations : list vec; o_inequalities : list vec; o_dimension : Z; o_names : list text; o_maps : list lmap }.
(** Also input.cpp 191-195, 200-230. *)
Fixpoint outer_loop (fuel : nat) (check : bool) (token : text) (d : outer) (s : stream) : res (option outer) :=
  match fuel with
  | O => Ok None
  | S fuel' =>
      if negb (ok s) then Ok (Some d)
      else
        do p <- m_advance token s;
        let '(token, s) := p in
        if negb (ok s) then Ok (Some d)
        else if m_is_dimension token then
          do p <- m_dimension_of s;
          outer_loop fuel' check token {| o_equations := o_equations d; o_inequalities := o_inequalities d; o_dimension := fst p; o_names := o_names d; o_maps := o_maps d |} (snd p)
        else if m_is_names token then
          do p <- m_names s;
          outer_loop fuel' check token {| o_equations := o_equations d; o_inequalities := o_inequalities d; o_dimension := o_dimension d; o_names := fst p; o_maps := o_maps d |} (snd p)
        else if m_is_maps token then
          run p <- m_maps fuel (o_names d) s;
          outer_loop fuel' check token {| o_equations := o_equations d; o_inequalities := o_inequalities d; o_dimension := o_dimension d; o_names := o_names d; o_maps := fst p |} (snd p)
        else if m_is_equations token then
          do p <- m_constraints Equation (o_names d) s;
          outer_loop fuel' check token {| o_equations := fst p; o_inequalities := o_inequalities d; o_dimension := o_dimension d; o_names := o_names d; o_maps := o_maps d |} (snd p)
        else if m_is_inequalities token then
          do p <- m_read_inequalities check (o_names d) (o_maps d) s;
          outer_loop fuel' check token {| o_equations := o_equations d; o_inequalities := fst p; o_dimension := o_dimension d; o_names := o_names d; o_maps := o_maps d |} (snd p)
        else if m_is_reduced_inequalities token then
          run p <- m_read_reduced_inequalities fuel (o_names d) (o_maps d) (o_equations d) s;
          outer_loop fuel' check token {| o_equations := o_equations d; o_inequalities := fst p; o_dimension := o_dimension d; o_names := o_names d; o_maps := o_maps d |} (snd p)
        else
          let '(token, s) := getline token s in outer_loop fuel' check token d s
  end.
(** Also input.cpp 191-195, 200-230. *)
Definition no_outer : outer := {| o_equations := []; o_inequalities := []; o_dimension := size_max; o_names := []; o_maps := [] |}.
(** [knownVertices] (input.cpp 344-376); the loop (358-372). *)
Fixpoint known_vertices_loop (fuel : nat) (check : bool) (token : text) (conv cone : list vec) (s : stream) : res (option (list vec)) :=
  match fuel with
  | O => Ok None
  | S fuel' =>
      do p <- m_advance token s;
      let '(token, s) := p in
      if negb (ok s) then Ok (Some (conv ++ cone))
      else if m_is_convex token then run p <- m_read_vertices false fuel check [] s; known_vertices_loop fuel' check token (fst p) cone (snd p)
      else if m_is_conical token then run p <- m_read_vertices true fuel check [] s; known_vertices_loop fuel' check token conv (fst p) (snd p)
      else let '(token, s) := getline token s in known_vertices_loop fuel' check token conv cone s
  end.
(** Also input.cpp 344-376, 358-372. *)
Definition m_known_vertices (fs : files) (fuel : nat) (args : list text) : res (option (list vec)) :=
  do filename <- m_known_vertices_filename args;
  if at_end filename then Ok (Some [])
  else do s <- m_open fs filename; known_vertices_loop fuel (m_check_validity args) [] [] [] s.
(** The equations as pairs of inequalities (input.cpp 233-237). *)
Fixpoint m_both_sides (equations : list vec) : res (list vec) :=
  match equations with
  | [] => Ok []
  | e :: equations' => do n <- m_row_mul (arith INT32) e (-1); do r <- m_both_sides equations'; Ok (e :: n :: r)
  end.
(** The trivial inequality that is appended (input.cpp 239-240). *)
Definition m_trivial (last_row : vec) : res vec := match last_row with [] => UB | _ => Ok (repeat 0 (length last_row - 1) ++ [-1]) end.
(** [inequalities<int>] (input.cpp 182-247). *)
Definition m_input_inequalities (fs : files) (fuel : nat) (args : list text) : res (option (list vec * list text * list lmap * list vec)) :=
  do filename <- m_filename args;
  do s <- m_open fs filename;
  let '(keywords, s) := m_contains_keywords s in
  if negb keywords then Throw
  else
    run d <- outer_loop fuel (m_check_validity args) [] no_outer s;
    do _ <- m_consistent_inequalities (o_inequalities d) (o_names d) (o_dimension d);
    do pairs <- m_both_sides (o_equations d);
    do order <- m_input_order args;
    let sorted := m_sort order (o_inequalities d ++ pairs) in
    do l <- back sorted;
    do trivial <- m_trivial l;
    let inequalities := sorted ++ [trivial] in
    run known <- m_known_vertices fs fuel args;
    do _ <- (if m_check_validity args then m_check_vertices (arith INT32) inequalities known else Ok tt);
    Ok (Some (inequalities, o_names d, o_maps d, known)).

(** ** input.tpp and cast.cpp: rows of [int] as rows of another type, [Integer(element)]. *)
Definition m_from_int (t : int_type) (z : Z) : Z := match t with INT16 => wrap_signed 16 z | _ => z end.
(** input.tpp and cast.cpp 14-37. *)
Definition m_cast_rows (t : int_type) (rows : list vec) : list vec := map (map (m_from_int t)) rows.

(** ** input_detection.cpp: [keywords] (133-166) and [detectOperationMode] (93-123). *)
(** The set of keywords: convex hull, conical hull, inequalities. *)
Fixpoint keywords_loop (fuel : nat) (line : text) (has_conv has_cone has_ieqs : bool) (s : stream) : res (bool * bool * bool) :=
  match fuel with
  | O => UB
  | S fuel' =>
      let '(line, s) := getline line s in
      if negb (ok s) then Ok (has_conv, has_cone, has_ieqs)
      else
        let line := m_trim line in
        if m_is_conical line || m_is_reduced_conical line then keywords_loop fuel' line has_conv true has_ieqs s
        else if m_is_convex line || m_is_reduced_convex line then keywords_loop fuel' line true has_cone has_ieqs s
        else if m_is_inequalities line || m_is_reduced_inequalities line then keywords_loop fuel' line has_conv has_cone true s
        else keywords_loop fuel' line has_conv has_cone has_ieqs s
  end.
(** input_detection.cpp 93-123. *)
Definition m_detect_mode (fs : files) (args : list text) : res operation_mode :=
  match m_mode_option args with
  | CliModel.Undecided =>
      do filename <- m_filename args;
      let s := match fs filename with Some t => opened t | None => Stream [] false true end in
      do w <- keywords_loop (length (rest s) + 2) [] false false false s;
      let '(has_conv, has_cone, has_ieqs) := w in
      Ok (if has_conv || has_cone || has_ieqs then
            (if (has_conv || has_cone) && has_ieqs then CliModel.Invalid else if has_ieqs then VertexEnumeration else FacetEnumeration)
          else FacetEnumeration)
  | mode => Ok mode
  end.

(** ** method_double_description.cpp: the two programs for the integer type [t] (127-163, 165-191). *)
Definition calco {X} (x : res (option X)) (k : X -> option prints) : option prints :=
  match x with Ok (Some v) => k v | Ok None => None | Throw => Some ([], Throw) | UB => Some ([], UB) end.
(** method_double_description.cpp 127-163. *)
Definition m_facet_program (t : int_type) (order : list nat -> list nat) (fs : files) (fuel : nat) (args : list text) : option prints :=
  calco (m_input_vertices fs fuel args) (fun '(vertices, names, maps, _) => m_facet_call t order fuel (m_cast_rows t vertices) names maps).
(** method_double_description.cpp 165-191. *)
Definition m_vertex_program (t : int_type) (order : list nat -> list nat) (fs : files) (fuel : nat) (args : list text) : option prints :=
  calco (m_input_inequalities fs fuel args) (fun '(inequalities, _, maps, _) => m_vertex_call t order fuel (m_cast_rows t inequalities) maps).
