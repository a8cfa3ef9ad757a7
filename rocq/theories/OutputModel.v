(** * OutputModel: printing rows (algorithm_row_operations.cpp 24-131, algorithm_matrix_operations.cpp 21-38, cast.cpp), and the two programs of
    method_double_description.cpp from the data that was read to the text on the standard output. *)
From Coq Require Import List ZArith Arith Bool Ascii String.
From Verif Require Import Base Spec ListUtil ArithModel MatrixModel FmeModel SafeIntModel IntTypes ClassesModel MapModel StreamModel.
Import ListNotations.
Open Scope Z_scope.

(** ** [stream << int] (C++ standard library): a minus sign for negative values, then the decimal digits without leading zeros. *)
Definition digit_char (d : Z) : ascii := ascii_of_nat (48 + Z.to_nat d).
(** The digits of [n] in front of [acc]; the fuel given below suffices (see OutputProofs). *)
Fixpoint digits_onto (fuel : nat) (n : Z) (acc : text) : text :=
  match fuel with
  | O => acc
  | S fuel' => if n <? 10 then digit_char n :: acc else digits_onto fuel' (n / 10) (digit_char (n mod 10) :: acc)
  end.
(** [stream << int] for a value that is not negative. *)
Definition digits_text (n : Z) : text := digits_onto (S (Z.to_nat (Z.log2 n))) n [].
(** [stream << int]. *)
Definition int_text (z : Z) : text := if z <? 0 then "-"%char :: digits_text (- z) else digits_text z.

(** ** Rows of [int] *)
(** [operator<<(std::ostream&, const Row<int>&)] (algorithm_row_operations.cpp 30-42). *)
Definition m_print_entry (e : Z) : text := (if e >=? 0 then lit " " else []) ++ lit " " ++ int_text e.
(** Also algorithm_row_operations.cpp 30-42. *)
Definition m_print_row (row : vec) : text := flat_map m_print_entry row.

(** [prettyPrint(std::ostream&, const Row<int>&, ...)] (algorithm_row_operations.cpp 50-92): the loop over the entries [i], [i + 1], ... but the last one. *)
Fixpoint m_pretty_terms (names : list text) (i : nat) (printed_something : bool) (row : vec) : res text :=
  match row with
  | [] => Ok []
  | [_] => Ok []
  | x :: row' =>
      if negb (x =? 0) then
        let separator := if printed_something then lit " " else [] in
        let factor :=
          if x =? 1 then (if printed_something then lit "+" else [])
          else if x =? -1 then lit "-"
          else (if (x >? 1) && printed_something then lit "+" else []) ++ int_text x in
        do name <- get names i;
        do r <- m_pretty_terms names (S i) true row';
        Ok (separator ++ factor ++ name ++ r)
      else m_pretty_terms names (S i) printed_something row'
  end.
(** [rhs(row)] (algorithm_inequality_operations.cpp 25-30). *)
Definition m_rhs (row : vec) : res Z := do b <- back row; i_neg 32 b.
(** algorithm_row_operations.cpp 50-92. *)
Definition m_pretty (row : vec) (names : list text) (relation : string) : res text :=
  match names with
  | [] => Ok (m_print_row row)
  | _ =>
      do l <- m_pretty_terms names 0 false row;
      do b <- m_rhs row;
      Ok (l ++ lit " " ++ lit relation ++ lit " " ++ int_text b)
  end.

(** [printFractional(std::ostream&, const Vertex<int>&)] (algorithm_row_operations.cpp 113-131). *)
Definition m_fraction (sign denominator x : Z) : res text :=
  do g <- m_gcd (arith INT32) x denominator;
  do y <- i_mul 32 sign x;
  do a <- i_div 32 y g;
  do d <- i_div 32 denominator g;
  Ok (int_text a ++ (if negb (d =? 1) then lit "/" ++ int_text d else []) ++ lit " ").
(** Also algorithm_row_operations.cpp 113-131. *)
Definition m_fractional (vertex : vec) : res text :=
  do b <- back vertex;
  let sign := if b <? 0 then -1 else 1 in
  do denominator <- i_mul 32 sign b;
  do l <- mapM (m_fraction sign denominator) (removelast vertex);
  Ok (concat l).

(** ** Rows of other types (algorithm_row_operations.cpp 24-28, 44-48, 94-98, 107-111): converted to [int] by [cast<int>] (cast.cpp 27-37), that is [int(element)]. *)
(** int16_t and int do not change; int64_t is reduced modulo 2^32; SafeInteger throws if the value does not fit.  (The ideal integers do not change.) *)
Definition m_to_int (t : int_type) (z : Z) : res Z :=
  match t with
  | INT16 | INT32 | EXACT => Ok z
  | INT64 => Ok (wrap_signed 32 z)
  | SAFE => si_to_int z
  end.
(** cast.cpp 27-37. *)
Definition m_cast (t : int_type) (row : vec) : res vec := mapM (m_to_int t) row.

(** ** Programs that print: the text that reached the standard output and how the program ended.  (If it ended with [UB] the text means nothing.) *)
Definition prints := (text * res unit)%type.
(** Printing a text. *)
Definition say (t : text) : prints := (t, Ok tt).
(** A computation that may fail, then printing. *)
Definition calc {X} (x : res X) (k : X -> prints) : prints :=
  match x with Ok v => k v | Throw => ([], Throw) | UB => ([], UB) end.
(** Printing one after the other. *)
Definition andthen (p q : prints) : prints :=
  match p with
  | (t, Ok _) => (t ++ fst q, snd q)
  | _ => p
  end.
(** A loop that prints. *)
Fixpoint for_all {X} (f : X -> prints) (l : list X) : prints :=
  match l with
  | [] => say []
  | x :: l' => andthen (f x) (for_all f l')
  end.
Notation "p ;; q" := (andthen p q) (at level 61, right associativity).

(** [<< std::endl]. *)
Definition end_line : text := [newline].
(** [prettyPrintln] (algorithm_row_operations.cpp 94-105). *)
Definition m_pretty_line (t : int_type) (names : list text) (relation : string) (row : vec) : prints :=
  calc (m_cast t row) (fun r => calc (m_pretty r names relation) (fun l => say (l ++ end_line))).
(** [prettyPrint] of a matrix (algorithm_matrix_operations.cpp 31-38). *)
Definition m_pretty_matrix (t : int_type) (names : list text) (relation : string) (matrix : list vec) : prints :=
  for_all (m_pretty_line t names relation) matrix.

(** ** method_double_description.cpp *)
(** [split] (method_double_description.cpp 59-79): the vertices and the rays, in order. *)
Definition m_split (matrix : list vec) : res (list vec * list vec) :=
  foldM (fun s row => do b <- back row; Ok (if negb (b =? 0) then (fst s ++ [row], snd s) else (fst s, snd s ++ [row]))) ([], []) matrix.
(** [print(vertices, is_reduced)] (method_double_description.cpp 81-113); the rows that are printed are not empty, as [split] has looked at their last entries. *)
Definition m_reduced (is_reduced : bool) : text := if is_reduced then lit "Reduced " else [].
(** Also method_double_description.cpp 81-113. *)
Definition m_print_vertices (t : int_type) (vertices : list vec) (is_reduced : bool) : prints :=
  calc (m_split vertices) (fun '(conv, cone) =>
    (match conv with
     | [] => say []
     | _ => say (m_reduced is_reduced ++ lit "Vertices:" ++ end_line) ;;
            for_all (fun v => calc (m_cast t v) (fun r => calc (m_fractional r) (fun l => say (l ++ end_line)))) conv
     end) ;;
    (match cone with
     | [] => say []
     | _ => say (m_reduced is_reduced ++ lit "Rays:" ++ end_line) ;;
            for_all (fun v => calc (m_cast t (removelast v)) (fun r => say (m_print_row r ++ end_line))) cone
     end)).
(** [print(inequalities, names, is_reduced)] (method_double_description.cpp 116-125). *)
Definition m_print_inequalities (t : int_type) (names : list text) (inequalities : list vec) (is_reduced : bool) : prints :=
  say (m_reduced is_reduced ++ lit "Inequalities:" ++ end_line) ;; m_pretty_matrix t names "<=" inequalities.

(** [!maps.empty()] (150, 178). *)
Definition nonempty {X} (l : list X) : bool := match l with [] => false | _ => true end.
(** [FacetEnumerationDoubleDescription::call] (method_double_description.cpp 127-163) after the input (133-136); [None] if a class of rows is not finished within [fuel] rounds.
    The exit status is 0 for [Ok] and 1 for [Throw]. *)
Definition m_facet_call (t : int_type) (order : list nat -> list nat) (fuel : nat) (vertices : list vec) (names : list text) (maps : list lmap) : option prints :=
  match m_extract_equations (arith t) vertices with
  | Throw => Some ([], Throw)
  | UB => Some ([], UB)
  | Ok equations =>
      match m_normalize_maps t equations maps with
      | Throw => Some ([], Throw)
      | UB => Some ([], UB)
      | Ok reduced_maps =>
          let part1 :=
            match equations with
            | [] => say []
            | _ => say (lit "Equations:" ++ end_line) ;; m_pretty_matrix t names "=" equations ;; say end_line
            end in
          match bind (m_fme (arith t) order vertices) (m_classes_of (arith t) fuel Facet_tag reduced_maps) with
          | Throw => Some (part1 ;; ([], Throw))
          | UB => Some (part1 ;; ([], UB))
          | Ok None => match part1 with (_, Ok _) => None | _ => Some part1 end
          | Ok (Some inequalities) => Some (part1 ;; m_print_inequalities t names inequalities (nonempty maps))
          end
      end
  end.
(** [VertexEnumerationDoubleDescription::call] (method_double_description.cpp 165-191) after the input (171-173). *)
Definition m_vertex_call (t : int_type) (order : list nat -> list nat) (fuel : nat) (inequalities : list vec) (maps : list lmap) : option prints :=
  match bind (m_fme (arith t) order inequalities) (m_classes_of (arith t) fuel Vertex_tag maps) with
  | Throw => Some ([], Throw)
  | UB => Some ([], UB)
  | Ok None => None
  | Ok (Some matrix) => Some (m_print_vertices t matrix (nonempty maps))
  end.
