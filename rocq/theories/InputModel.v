(** * InputModel: the scanner functions of panda on an input stream.

    A function that reads from a stream takes the stream and returns it with its result.  Scope guards are executed at the end of the function.  A loop that
    ends on every input carries its own bound (exhaustion is [UB] and excluded by the theorems); a loop that may run forever takes [fuel] and answers [None]
    when it is used up. *)
From Coq Require Import List ZArith Arith Bool Ascii String.
From Verif Require Import Base Spec ArithModel SafeIntModel IntTypes StreamModel.
Import ListNotations.
Open Scope nat_scope.

(** Sequencing of steps that may run out of fuel. *)
Definition bindo {A B} (m : res (option A)) (f : A -> res (option B)) : res (option B) :=
  match m with Ok (Some a) => f a | Ok None => Ok None | Throw => Throw | UB => UB end.
Notation "'run' x <- m ; f" := (bindo m (fun x => f)) (at level 200, x pattern, m at level 100, f at level 200, right associativity) : res_scope.

(** Comparison of the result of peek with a character. *)
Definition is_char (c : option ascii) (d : ascii) : bool := match c with Some c => if ascii_dec c d then true else false | None => false end.
(** The character written as backslash t in input_common.cpp. *)
Definition tab : ascii := "009"%char.
(** The character written as backslash r in input_common.cpp. *)
Definition carriage_return : ascii := "013"%char.
(** The space character. *)
Definition blank : ascii := " "%char.
(** The characters of " \t\r". *)
Definition is_blank (c : ascii) : bool := is_char (Some c) blank || is_char (Some c) tab || is_char (Some c) carriage_return.
(** [std::string::find(c) != npos] for a result of peek. *)
Definition one_of (p : ascii -> bool) (c : option ascii) : bool := match c with Some c => p c | None => false end.

(** ** istream_peek_line.cpp *)
(** [peekLine] (istream_peek_line.cpp 11-26). *)
Definition m_peek_line (s : stream) : text * stream :=
  if negb (ok s) then ([], s)
  else
    let '(position, s) := tellg s in
    let '(line, s) := getline [] s in
    (line, seekg position (clear s)).

(** ** input_common.cpp *)
(** [isIdentifier] (input_common.cpp 20-27). *)
Definition m_is_identifier (s : stream) : bool * stream :=
  if ok s then let '(c, s) := peek s in (is_char c "(", clear s) else (false, clear s).
(** [isEndOfFile] (input_common.cpp 124-135). *)
Definition m_is_end_of_file (s : stream) : bool * stream :=
  if ok s then let '(c, s) := peek s in (match c with None => true | Some _ => false end, clear s) else (false, clear s).
(** [isEndOfLine] (input_common.cpp 137-149). *)
Definition m_is_end_of_line (s : stream) : bool * stream :=
  if ok s then let '(c, s) := peek s in (is_char c carriage_return || is_char c newline, clear s) else (false, clear s).
(** [isWhitespace] (input_common.cpp 151-163). *)
Definition m_is_whitespace (s : stream) : bool * stream :=
  if ok s then let '(c, s) := peek s in (one_of is_blank c, clear s) else (false, clear s).
(** [skipEndOfLine] (input_common.cpp 165-180); the guard clears the stream in every round. *)
Fixpoint skip_end_of_line_loop (fuel : nat) (s : stream) : res stream :=
  match fuel with
  | O => UB
  | S fuel' =>
      if ok s then
        let '(c, s) := peek s in
        if negb (is_char c carriage_return) && negb (is_char c newline) then Ok (clear s)
        else let '(_, s) := get_char s in skip_end_of_line_loop fuel' (clear s)
      else Ok s
  end.
(** Also input_common.cpp 165-180. *)
Definition m_skip_end_of_line (s : stream) : res stream := skip_end_of_line_loop (length (rest s) + 2) s.
(** [skipWhitespace] (input_common.cpp 182-188). *)
Fixpoint skip_whitespace_loop (fuel : nat) (s : stream) : res stream :=
  match fuel with
  | O => UB
  | S fuel' =>
      if ok s then
        let '(b, s) := m_is_whitespace s in
        if b then let '(_, s) := get_char s in skip_whitespace_loop fuel' s else Ok s
      else Ok s
  end.
(** Also input_common.cpp 182-188. *)
Definition m_skip_whitespace (s : stream) : res stream := skip_whitespace_loop (length (rest s) + 2) s.
(** [trimWhitespace] (input_common.cpp 190-195). *)
Definition m_trim (string : text) : text := rev (drop_while is_blank (rev (drop_while is_blank string))).
(** [identifier] (input_common.cpp 29-54). *)
Fixpoint identifier_loop (fuel : nat) (string : text) (s : stream) : res (text * stream) :=
  match fuel with
  | O => UB
  | S fuel' =>
      if negb (ok s) then Ok (string, s)
      else
        let '(b, s) := m_is_end_of_line s in
        if b then Ok (string, s)
        else
          let '(b, s) := m_is_end_of_file s in
          if b then Ok (string, s)
          else
            let '(c, s) := peek s in
            if is_char c ")" then Ok (string, s)
            else
              let '(c, s) := get_char s in
              match c with Some c => identifier_loop fuel' (string ++ [c]) s | None => identifier_loop fuel' (string ++ ["255"%char]) s end
  end.
(** Also input_common.cpp 29-54. *)
Definition m_identifier (s : stream) : res (text * stream) :=
  let '(b, s) := m_is_identifier s in
  if negb b then Throw
  else
    let '(_, s) := get_char s in
    do s <- m_skip_whitespace s;
    do p <- identifier_loop (length (rest s) + 2) [] s;
    let '(string, s) := p in
    let '(c, s) := peek s in
    if negb (is_char c ")") then Throw
    else let '(_, s) := get_char s in Ok (m_trim string, s).
(** "const auto id = isIdentifier(stream) ? identifier(stream) : "";" surrounded by skipWhitespace (e.g. input_vertex.cpp 115-117). *)
Definition m_optional_identifier (s : stream) : res stream :=
  do s <- m_skip_whitespace s;
  let '(b, s) := m_is_identifier s in
  do s <- (if b then do p <- m_identifier s; Ok (snd p) else Ok s);
  m_skip_whitespace s.

(** [RelationOperator], input_common.h. *)
Inductive relation_operator := Undecided | LessEqual | Equal | GreaterEqual.
(** [isRelation] (input_common.cpp 56-78). *)
Definition m_is_relation (s : stream) : bool * stream :=
  let '(position, s) := tellg s in
  let '(answer, s) :=
    if negb (ok s) then (false, s)
    else
      let '(c, s) := peek s in
      if is_char c "<" || is_char c "=" || is_char c ">" then
        let '(_, s) := get_char s in
        let '(eq, s) := if ok s then let '(c, s) := peek s in (is_char c "=", s) else (false, s) in
        if eq then (true, s) else if negb (ok s) then (true, s) else m_is_whitespace s
      else (false, s) in
  (answer, seekg position (clear s)).
(** [relationOperator] (input_common.cpp 80-122). *)
Definition m_relation_operator (s : stream) : res (relation_operator * stream) :=
  if negb (ok s) then Throw
  else
    let '(first, s) := get_char s in
    let '(eq, s) := if ok s then let '(c, s) := peek s in (is_char c "=", s) else (false, s) in
    if is_char first "<" then if eq then Ok (LessEqual, snd (get_char s)) else Throw
    else if is_char first "=" then
      if eq then Ok (Equal, snd (get_char s))
      else if negb (ok s) then Ok (Equal, s)
      else let '(b, s) := m_is_whitespace s in if b then Ok (Equal, s) else Throw
    else if is_char first ">" then if eq then Ok (GreaterEqual, snd (get_char s)) else Throw
    else Throw.

(** [std::find_if] of the first name that has [word] as prefix. *)
Definition is_prefix (word name : text) : bool := (length word <=? length name) && text_eqb (firstn (length word) name) word.
(** [containsNames] (input_common.cpp 197-225).  The inner loop with [word] and the outer loop are merged: a word that is no prefix of a name is dropped. *)
Fixpoint contains_names_loop (fuel : nat) (names : list text) (counter : nat) (word : text) (s : stream) : res (bool * stream) :=
  match fuel with
  | O => UB
  | S fuel' =>
      if negb (ok s) then Ok (false, s)
      else if at_end word && negb (counter <? 2000) then Ok (false, s)
      else
        let '(c, s) := get_char s in
        let word := word ++ [match c with Some c => c | None => "255"%char end] in
        match find (is_prefix word) names with
        | Some name => if text_eqb name word then Ok (true, s) else contains_names_loop fuel' names (S counter) word s
        | None => contains_names_loop fuel' names (S counter) [] s
        end
  end.
(** Also input_common.cpp 197-225. *)
Definition m_contains_names (names : list text) (s : stream) : res (bool * stream) :=
  let '(position, s) := tellg s in
  do p <- contains_names_loop (length (rest s) + 3) names 0 [] s;
  Ok (fst p, seekg position (clear (snd p))).

(** [normalize] (input_common.cpp 227-234). *)
Definition m_normalize_relation (row : vec) (relation : relation_operator) : res vec :=
  match relation with GreaterEqual => m_row_mul (arith INT32) row (-1)%Z | _ => Ok row end.
(** [toInt] (input_common.cpp 236-253). *)
Definition m_to_int (string : text) : res Z :=
  if at_end string || text_eqb string (lit "+") then Ok 1%Z
  else if text_eqb string (lit "-") then Ok (-1)%Z
  else let '(result, s) := read_int 0 (opened string) in if negb (ok s) then Throw else Ok result.
(** [firstWord] (input_common.cpp 270-279). *)
Definition m_first_word (line : text) : text := take_while (fun c => negb (is_char (Some c) blank) && negb (is_char (Some c) tab)) (m_trim line).
(** [peekWord] (input_common.cpp 281-295). *)
Definition m_peek_word (s : stream) : text * stream :=
  let '(position, s) := tellg s in
  let '(token, s) := read_word [] s in
  if negb (ok s) then (token, s) else (token, seekg position (clear s)).

(** ** input_keywords.cpp *)
Definition one_of_words (words : list string) (t : text) : bool := existsb (fun w => text_eqb t (lit w)) words.
Open Scope string_scope.
(** [isKeywordEnd] (input_keywords.cpp 49-53), [isKeywordConicalHull] (55-65), [isKeywordReducedSomething] (67-70), [isKeywordReducedConicalHull] (72-82),
    [isKeywordConvexHull] (84-94), [isKeywordReducedConvexHull] (96-106), [isKeywordDimension] (108-118), [isKeywordEquations] (120-130),
    [isKeywordInequalities] (132-142), [isKeywordReducedInequalities] (144-154), [isKeywordMaps] (156-166), [isKeywordNames] (168-188). *)
Definition m_is_end := one_of_words ["END"; "End"].
(** input_keywords.cpp 55-65. *)
Definition m_is_conical := one_of_words ["CONE_SECTION"; "CONE_SECTION:"; "CONICAL_HULL"; "CONICAL_HULL:"; "CONICAL_HULL_SECTION"; "CONICAL_HULL_SECTION:"; "Rays"; "Rays:"].
(** input_keywords.cpp 67-70. *)
Definition m_is_reduced_something := one_of_words ["Reduced"].
(** input_keywords.cpp 72-82. *)
Definition m_is_reduced_conical := one_of_words ["REDUCED_CONE_SECTION"; "REDUCED_CONE_SECTION:"; "REDUCED_CONICAL_HULL"; "REDUCED_CONICAL_HULL:";
  "REDUCED_CONICAL_HULL_SECTION"; "REDUCED_CONICAL_HULL_SECTION:"; "Reduced Rays"; "Reduced Rays:"].
(** input_keywords.cpp 84-94. *)
Definition m_is_convex := one_of_words ["CONVEX_HULL"; "CONVEX_HULL:"; "CONVEX_HULL_SECTION"; "CONVEX_HULL_SECTION:"; "CONV_SECTION"; "CONV_SECTION:"; "Vertices"; "Vertices:"].
(** input_keywords.cpp 96-106. *)
Definition m_is_reduced_convex := one_of_words ["REDUCED_CONVEX_HULL"; "REDUCED_CONVEX_HULL:"; "REDUCED_CONVEX_HULL_SECTION"; "REDUCED_CONVEX_HULL_SECTION:";
  "REDUCED_CONV_SECTION"; "REDUCED_CONV_SECTION:"; "Reduced Vertices"; "Reduced Vertices:"].
(** input_keywords.cpp 108-118. *)
Definition m_is_dimension := one_of_words ["DIM"; "DIM="; "DIMENSION"; "DIMENSION="; "Dim"; "Dim="; "Dimension"; "Dimension="].
(** input_keywords.cpp 120-130. *)
Definition m_is_equations := one_of_words ["EQUATIONS"; "EQUATIONS:"; "EQUATION_SECTION"; "EQUATION_SECTION:"; "EQUATIONS_SECTION"; "EQUATIONS_SECTION:"; "Equations"; "Equations:"].
(** input_keywords.cpp 132-142. *)
Definition m_is_inequalities := one_of_words ["INEQUALITIES"; "INEQUALITIES:"; "INEQUALITY_SECTION"; "INEQUALITY_SECTION:"; "INEQUALITIES_SECTION";
  "INEQUALITIES_SECTION:"; "Inequalities"; "Inequalities:"].
(** input_keywords.cpp 144-154. *)
Definition m_is_reduced_inequalities := one_of_words ["REDUCED_INEQUALITIES"; "REDUCED_INEQUALITIES:"; "REDUCED_INEQUALITY_SECTION"; "REDUCED_INEQUALITY_SECTION:";
  "REDUCED_INEQUALITIES_SECTION"; "REDUCED_INEQUALITIES_SECTION:"; "Reduced Inequalities"; "Reduced Inequalities:"].
(** input_keywords.cpp 156-166. *)
Definition m_is_maps := one_of_words ["MAPS"; "MAPS:"; "MAP_SECTION"; "MAP_SECTION:"; "MAPS_SECTION"; "MAPS_SECTION:"; "Maps"; "Maps:"].
(** input_keywords.cpp 168-188. *)
Definition m_is_names := one_of_words ["INDEX"; "INDEX:"; "INDICES"; "INDICES:"; "INDEX_SECTION"; "INDEX_SECTION:"; "INDICES_SECTION"; "INDICES_SECTION:";
  "NAMES"; "NAMES:"; "NAME_SECTION"; "NAME_SECTION:"; "NAMES_SECTION"; "NAMES_SECTION:"; "Indices"; "Indices:"; "Names"; "Names:"].
Close Scope string_scope.
(** [isKeyword] (input_keywords.cpp 33-47). *)
Definition m_is_keyword (t : text) : bool :=
  m_is_conical t || m_is_reduced_something t || m_is_reduced_conical t || m_is_convex t || m_is_reduced_convex t || m_is_dimension t || m_is_equations t ||
  m_is_inequalities t || m_is_reduced_inequalities t || m_is_maps t || m_is_names t || m_is_end t.
(** [containsKeywords] (14-30); the position in the file is restored by the guard (position_guarded_file.cpp). *)
Fixpoint contains_keywords_loop (tokens : nat) (token : text) (s : stream) : bool * stream :=
  match tokens with
  | O => (false, s)
  | S tokens' =>
      let '(token, s) := getline token s in
      if negb (ok s) then (false, s) else if m_is_keyword (m_trim token) then (true, s) else contains_keywords_loop tokens' (m_trim token) s
  end.
(** input_keywords.cpp 14-30, position_guarded_file.cpp. *)
Definition m_contains_keywords (s : stream) : bool * stream :=
  let '(position, s) := tellg s in
  let '(answer, s) := contains_keywords_loop 20 [] s in
  (answer, seekg position (clear s)).

(** [advanceToNextKeyword] (input_common.cpp 255-268). *)
Fixpoint advance_loop (fuel : nat) (string : text) (s : stream) : res (text * stream) :=
  match fuel with
  | O => UB
  | S fuel' =>
      if ok s then
        let '(line, s) := m_peek_line s in
        let string := m_trim line in
        if m_is_keyword string then Ok (string, s) else let '(string, s) := getline string s in advance_loop fuel' string s
      else Ok (string, s)
  end.
(** Also input_common.cpp 255-268. *)
Definition m_advance (string : text) (s : stream) : res (text * stream) := advance_loop (length (rest s) + 3) string s.

(** ** input_vertex.cpp *)
(** The loop of [vertex] (input_vertex.cpp 120-143); [tmp] is the variable of the loop. *)
Fixpoint vertex_loop (fuel : nat) (tmp : Z) (numerator denominator : vec) (s : stream) : res (vec * vec * stream) :=
  match fuel with
  | O => UB
  | S fuel' =>
      let '(tmp, s) := read_int tmp s in
      if negb (ok s) then Ok (numerator, denominator, s)
      else
        let numerator := numerator ++ [tmp] in
        do s <- m_skip_whitespace s;
        let '(c, s) := peek s in
        do p <- (if is_char c "/" then
                   let '(_, s) := get_char s in
                   let '(tmp, s) := read_int tmp s in
                   if (tmp =? 0)%Z then Throw else Ok (tmp, denominator ++ [tmp], s)
                 else Ok (tmp, denominator ++ [1%Z], s));
        let '(tmp, denominator, s) := p in
        do s <- m_skip_whitespace s;
        let '(c, s) := peek s in
        if is_char c newline then Ok (numerator, denominator, s) else vertex_loop fuel' tmp numerator denominator s
  end.
(** [vertex] (input_vertex.cpp 113-159). *)
Fixpoint scale_numerators (l : Z) (numerator denominator : vec) : res vec :=
  match numerator, denominator with
  | [], _ => Ok []
  | _ :: _, [] => UB
  | a :: numerator', b :: denominator' =>
      do q <- a_div (arith INT32) l b; do x <- a_mul (arith INT32) a q; do r <- scale_numerators l numerator' denominator'; Ok (x :: r)
  end.
(** Also input_vertex.cpp 113-159. *)
Definition m_vertex (s : stream) : res (vec * stream) :=
  do s <- m_optional_identifier s;
  do p <- vertex_loop (length (rest s) + 2) 0%Z [] [] s;
  let '(numerator, denominator, s) := p in
  if match numerator with [] => true | _ => false end then Ok ([], s)
  else
    do l <- m_row_lcm (arith INT32) denominator;
    do numerator <- (if a_gti (arith INT32) l 0%Z then scale_numerators l numerator denominator else Ok numerator);
    Ok (numerator ++ [l], s).

(** "if ( stream && isKeywordEnd(firstWord(peekLine(stream))) ) std::getline(stream, token);" (input_vertex.cpp 56-59, 89-92 and in the other sections). *)
Definition m_skip_end (s : stream) : stream :=
  if ok s then let '(line, s) := m_peek_line s in if m_is_end (m_first_word line) then snd (getline [] s) else s else s.
(** The loop of [verticesConvex] (input_vertex.cpp 76-88) and [verticesConical] (38-55). *)
Fixpoint section_loop (conical : bool) (fuel : nat) (rows : list vec) (s : stream) : res (option (list vec * stream)) :=
  match fuel with
  | O => Ok None
  | S fuel' =>
      if negb (ok s) then Ok (Some (rows, s))
      else
        let '(line, s) := m_peek_line s in
        if m_is_keyword (m_trim line) then Ok (Some (rows, s))
        else
          let '(line, s) := m_peek_line s in
          if at_end (m_trim line) then section_loop conical fuel' rows (snd (getline [] s))
          else
            do p <- m_vertex s;
            let '(row, s) := p in
            match row with
            | [] => section_loop conical fuel' rows (if conical then clear s else s)
            | _ => section_loop conical fuel' (rows ++ [if conical then removelast row ++ [0%Z] else row]) s
            end
  end.
(** [verticesConical] (input_vertex.cpp 25-61), [verticesConvex] (63-94). *)
Definition m_section (conical : bool) (fuel : nat) (s : stream) : res (option (list vec * stream)) :=
  let '(token, s) := getline [] s in
  if negb (ok s) then Throw
  else
    let token := m_trim token in
    if negb (if conical then m_is_conical token || m_is_reduced_conical token else m_is_convex token || m_is_reduced_convex token) then Throw
    else run p <- section_loop conical fuel [] s; let '(rows, s) := p in Ok (Some (rows, m_skip_end s)).
(** input_vertex.cpp 25-61. *)
Definition m_vertices_conical := m_section true.
(** input_vertex.cpp 63-94. *)
Definition m_vertices_convex := m_section false.

(** ** input_names.cpp: [names] (17-31). *)
Fixpoint names_loop (fuel : nat) (names : list text) (s : stream) : res (list text * stream) :=
  match fuel with
  | O => UB
  | S fuel' =>
      let '(name, s) := m_peek_word s in
      if negb (ok s) then Ok (names, s)
      else if m_is_keyword name then Ok (names, s)
      else let '(name, s) := read_word name s in names_loop fuel' (names ++ [name]) s
  end.
(** Also input_names.cpp 17-31. *)
Definition m_names (s : stream) : res (list text * stream) :=
  let '(token, s) := getline [] s in
  if negb (ok s) then Throw else if negb (m_is_names (m_trim token)) then Throw else names_loop (length (rest s) + 2) [] s.

(** ** input_dimension.cpp: [dimension] (13-26). *)
Fixpoint dimension_loop (fuel : nat) (s : stream) : res stream :=
  match fuel with
  | O => UB
  | S fuel' =>
      if negb (ok s) then Ok s
      else let '(c, s) := peek s in if is_char c "=" then Ok s else let '(_, s) := get_char s in dimension_loop fuel' s
  end.
(** Also input_dimension.cpp 13-26. *)
Definition m_dimension_of (s : stream) : res (Z * stream) :=
  do s <- dimension_loop (length (rest s) + 2) s;
  let '(_, s) := get_char s in
  let '(dim, s) := read_size 0 s in
  if negb (ok s) then Throw else Ok (dim, s).
