(** * ConstraintModel: the maps, equations and inequalities of an input file. *)
From Coq Require Import List ZArith Arith Bool Ascii String.
From Verif Require Import Base Spec ListUtil ArithModel SafeIntModel IntTypes StreamModel ClassesModel InputModel.
Import ListNotations.
Open Scope nat_scope.

(** The characters "+-" (input_map.cpp 65-94). *)
Definition is_sign (c : ascii) : bool := is_char (Some c) "+" || is_char (Some c) "-".
(** The characters "+-0123456789". *)
Definition is_factor (c : ascii) : bool := is_sign c || is_digit c.

(** [std::find(names.cbegin(), names.cend(), variable)]: [None] for the end. *)
Fixpoint find_name (variable : text) (names : list text) : option nat :=
  match names with
  | [] => None
  | n :: names' => if text_eqb n variable then Some 0 else option_map S (find_name variable names')
  end.

(** ** input_map.cpp

    A position in a token is the text from there on; both [std::string::npos] and the end of the token are the empty text. *)
(** [extractFactor] (input_map.cpp 65-77). *)
Definition m_extract_factor (token : text) : res (Z * text) :=
  match token with
  | c :: token' =>
      if is_factor c then
        let '(digits, rest) :=
          if is_sign c then (c :: take_while is_digit token', drop_while is_digit token') else (take_while is_digit token, drop_while is_digit token) in
        do factor <- m_to_int digits; Ok (factor, rest)
      else do factor <- m_to_int []; Ok (factor, token)
  | [] => do factor <- m_to_int []; Ok (factor, [])
  end.
(** [extractName] (input_map.cpp 79-94). *)
Definition m_extract_name (token : text) : text * text :=
  match token with
  | [] => ([], [])
  | c :: _ => if is_factor c then ([], token) else (take_while (fun c => negb (is_sign c)) token, drop_while (fun c => negb (is_sign c)) token)
  end.
(** [image] (input_map.cpp 97-126). *)
Fixpoint image_loop (fuel : nat) (names : list text) (result : image) (token : text) : res image :=
  match token with
  | [] => Ok result
  | _ :: _ =>
      match fuel with
      | O => UB
      | S fuel' =>
          do p <- m_extract_factor token;
          let '(factor, token) := p in
          let '(variable, token) := m_extract_name token in
          match variable with
          | [] => image_loop fuel' names (result ++ [(length names, factor)]) token
          | _ :: _ =>
              match find_name variable names with
              | None => Throw
              | Some index => image_loop fuel' names (result ++ [(index, factor)]) token
              end
          end
      end
  end.
(** Also input_map.cpp 97-126. *)
Definition m_image (token : text) (names : list text) : res image :=
  match token with [] => Throw | _ :: _ => image_loop (length token) names [] token end.
(** [map] (input_map.cpp 128-143). *)
Fixpoint map_loop (fuel : nat) (names : list text) (index : nat) (result : lmap) (s : stream) : res (lmap * stream) :=
  match fuel with
  | O => UB
  | S fuel' =>
      if negb (ok s) then Ok (result, s)
      else
        let '(b, s) := m_is_end_of_line s in
        if b then Ok (result, s)
        else
          let '(b, s) := m_is_end_of_file s in
          if b then Ok (result, s)
          else if negb (index <? length result) then Ok (result, s)
          else
            let '(token, s) := read_word [] s in
            do im <- m_image token names;
            do result <- set result index im;
            map_loop fuel' names (S index) result s
  end.
(** Also input_map.cpp 128-143. *)
Definition m_map (s : stream) (names : list text) : res (lmap * stream) :=
  let result := repeat [] (length names) in
  do s <- m_skip_whitespace s;
  map_loop (length names + 1) names 0 result s.
(** [maps] (input_map.cpp 25-61); an exception in the loop is caught and another one thrown. *)
Definition empty_image (im : image) : bool := match im with [] => true | _ => false end.
(** Also input_map.cpp 25-61. *)
Fixpoint maps_loop (fuel : nat) (names : list text) (maps : list lmap) (s : stream) : res (option (list lmap * stream)) :=
  match fuel with
  | O => Ok None
  | S fuel' =>
      if negb (ok s) then Ok (Some (maps, s))
      else
        let '(line, s) := m_peek_line s in
        if m_is_keyword (m_trim line) then Ok (Some (maps, s))
        else
          let '(line, s) := m_peek_line s in
          if at_end (m_trim line) then maps_loop fuel' names maps (snd (getline [] s))
          else
            do p <- m_map s names;
            let '(map, s) := p in
            let maps := if negb (match map with [] => true | _ => false end) && negb (forallb empty_image map) then maps ++ [map ++ [[(length names, 1%Z)]]] else maps in
            do s <- m_skip_whitespace s;
            do s <- m_skip_end_of_line s;
            maps_loop fuel' names maps s
  end.
(** Also input_map.cpp 25-61. *)
Definition m_maps (fuel : nat) (names : list text) (s : stream) : res (option (list lmap * stream)) :=
  let '(token, s) := getline [] s in
  if negb (ok s) then Throw
  else if negb (m_is_maps (m_trim token)) then Throw
  else run p <- maps_loop fuel names [] s; let '(maps, s) := p in Ok (Some (maps, m_skip_end s)).

(** ** Constraints *)
Inductive constraint_type := Equation | Inequality.
(** The test after a relation operator has been read (input_constraint_named_variables.cpp 88-95, input_constraint_unnamed_variables.cpp 56-63). *)
Definition m_relation_allowed (type : constraint_type) (relation : relation_operator) : bool :=
  match type, relation with
  | Equation, Equal => true
  | Equation, _ => false
  | Inequality, Equal => false
  | Inequality, _ => true
  end.
(** Also input_constraint_named_variables.cpp 88-95,  input_constraint_unnamed_variables.cpp 56-63. *)
Definition m_decided (relation : relation_operator) : bool := match relation with Undecided => false | _ => true end.

(** [term] (input_constraint_named_variables.cpp 47-65). *)
Definition m_term (token : text) (names : list text) : res (nat * Z) :=
  let factor_text := take_while is_factor token in
  let variable := drop_while is_factor token in
  do factor <- m_to_int factor_text;
  match variable with
  | [] => do f <- i_neg 32 factor; Ok (length names, f)
  | _ :: _ => match find_name variable names with None => Throw | Some index => Ok (index, factor) end
  end.
(** The loop of [constraint] (input_constraint_named_variables.cpp 81-141). *)
Fixpoint named_loop (fuel : nat) (names : list text) (type : constraint_type) (ieq : vec) (relation : relation_operator) (has_rhs : bool) (s : stream) :
    res (vec * relation_operator * bool * stream) :=
  match fuel with
  | O => UB
  | S fuel' =>
      if negb (ok s) then Ok (ieq, relation, has_rhs, s)
      else
        let '(b, s) := m_is_end_of_line s in
        if b then Ok (ieq, relation, has_rhs, s)
        else
          let '(b, s) := m_is_end_of_file s in
          if b then Ok (ieq, relation, has_rhs, s)
          else
            let '(b, s) := m_is_relation s in
            if b then
              if m_decided relation then Throw
              else
                do p <- m_relation_operator s;
                let '(relation, s) := p in
                if negb (m_relation_allowed type relation) then Throw
                else do s <- m_skip_whitespace s; named_loop fuel' names type ieq relation has_rhs s
            else
              let '(token, s) := read_word [] s in
              do p <- (if text_eqb token (lit "+") || text_eqb token (lit "-") then
                         let is_plus := text_eqb token (lit "+") in
                         let '(token, s) := read_word token s in
                         do p <- m_term token names;
                         let '(index, coefficient) := p in
                         if (coefficient <? 0)%Z then Throw
                         else do coefficient <- (if negb is_plus then i_mul 32 coefficient (-1) else Ok coefficient); Ok (index, coefficient, s)
                       else do p <- m_term token names; Ok (fst p, snd p, s));
              let '(index, coefficient, s) := p in
              do x <- get ieq index;
              if negb (x =? 0)%Z && (index + 1 <? length ieq) then Throw
              else
                do ieq <- set ieq index coefficient;
                if has_rhs then Throw
                else
                  do has_rhs <- (if index + 1 =? length ieq then if negb (m_decided relation) then Throw else Ok true else Ok has_rhs);
                  do s <- m_skip_whitespace s; named_loop fuel' names type ieq relation has_rhs s
  end.
(** [constraint] (input_constraint_named_variables.cpp 67-147). *)
Definition m_named_constraint (type : constraint_type) (names : list text) (s : stream) : res (vec * stream) :=
  let ieq := repeat 0%Z (length names + 1) in
  do s <- m_optional_identifier s;
  let '(line, s) := m_peek_line s in
  if at_end line then Ok ([], s)
  else
    do p <- named_loop (length (rest s) + 2) names type ieq Undecided false s;
    let '(ieq, relation, has_rhs, s) := p in
    if negb has_rhs then Throw else do row <- m_normalize_relation ieq relation; Ok (row, s).

(** [constraint] (input_constraint_unnamed_variables.cpp 38-97). *)
Fixpoint unnamed_loop (fuel : nat) (type : constraint_type) (ieq : vec) (relation : relation_operator) (has_rhs : bool) (s : stream) :
    res (vec * relation_operator * bool * stream) :=
  match fuel with
  | O => UB
  | S fuel' =>
      if negb (ok s) then Ok (ieq, relation, has_rhs, s)
      else
        let '(b, s) := m_is_end_of_line s in
        if b then Ok (ieq, relation, has_rhs, s)
        else
          let '(b, s) := m_is_end_of_file s in
          if b then Ok (ieq, relation, has_rhs, s)
          else
            let '(b, s) := m_is_relation s in
            if b then
              if m_decided relation then Throw
              else
                do p <- m_relation_operator s;
                let '(relation, s) := p in
                if negb (m_relation_allowed type relation) then Throw
                else do s <- m_skip_whitespace s; unnamed_loop fuel' type ieq relation has_rhs s
            else
              let '(coefficient, s) := read_int 0 s in
              if negb (ok s) then Throw
              else if has_rhs then Throw
              else
                let has_rhs := if m_decided relation then true else has_rhs in
                do s <- m_skip_whitespace s; unnamed_loop fuel' type (ieq ++ [coefficient]) relation has_rhs s
  end.
(** Also input_constraint_unnamed_variables.cpp 38-97. *)
Definition m_unnamed_constraint (type : constraint_type) (s : stream) : res (vec * stream) :=
  do s <- m_optional_identifier s;
  do p <- unnamed_loop (length (rest s) + 2) type [] Undecided false s;
  let '(ieq, relation, has_rhs, s) := p in
  if m_decided relation && negb has_rhs then Throw
  else
    match ieq with
    | [] => Ok ([], s)
    | _ :: _ =>
        do ieq <- (if m_decided relation then do b <- back ieq; do b <- i_mul 32 b (-1); Ok (removelast ieq ++ [b]) else Ok ieq);
        do row <- m_normalize_relation ieq relation; Ok (row, s)
    end.

(** [potentiallyNamedConstraint] (input_constraint.cpp 95-106). *)
Definition m_constraint (type : constraint_type) (names : list text) (s : stream) : res (vec * stream) :=
  do p <- (match names with [] => Ok (true, s) | _ :: _ => do p <- m_contains_names names s; Ok (negb (fst p), snd p) end);
  let '(unnamed, s) := p in
  if unnamed then m_unnamed_constraint type s else m_named_constraint type names s.
(** [keyword_condition] (input_constraint.cpp 61-93). *)
Definition m_keyword_condition (type : constraint_type) (s : stream) : res stream :=
  let '(token, s) := getline [] s in
  if negb (ok s) then Throw
  else
    let token := m_trim token in
    if match type with Equation => m_is_equations token | Inequality => m_is_inequalities token || m_is_reduced_inequalities token end then Ok s else Throw.
(** [constraints] (input_constraint.cpp 31-57). *)
Fixpoint constraints_loop (fuel : nat) (type : constraint_type) (names : list text) (rows : list vec) (s : stream) : res (list vec * stream) :=
  match fuel with
  | O => UB
  | S fuel' =>
      if negb (ok s) then Ok (rows, s)
      else
        let '(line, s) := m_peek_line s in
        if m_is_keyword (m_trim line) then Ok (rows, s)
        else
          let '(line, s) := m_peek_line s in
          if at_end (m_trim line) then constraints_loop fuel' type names rows (snd (getline [] s))
          else
            do p <- m_constraint type names s;
            let '(row, s) := p in
            let rows := match row with [] => rows | _ :: _ => rows ++ [row] end in
            do s <- m_skip_whitespace s;
            do s <- m_skip_end_of_line s;
            constraints_loop fuel' type names rows s
  end.
(** Also input_constraint.cpp 31-57. *)
Definition m_constraints (type : constraint_type) (names : list text) (s : stream) : res (list vec * stream) :=
  do s <- m_keyword_condition type s;
  do p <- constraints_loop (length (rest s) + 4) type names [] s;
  let '(rows, s) := p in Ok (rows, m_skip_end s).
