(** * ValidityModel: the checks of option "-c" (input_validity.cpp).

    The program instantiates them for [int]; the model is over an arbitrary integer type.  The texts of the exceptions are left out. *)
From Coq Require Import List ZArith Arith Bool.
From Verif Require Import Base ListUtil ArithModel MatrixModel ClassesModel.
Import ListNotations.
Open Scope nat_scope.

(** [std::sort] of indices (there is only one sorted permutation). *)
Fixpoint insert_nat (x : nat) (l : list nat) : list nat :=
  match l with
  | [] => [x]
  | y :: l' => if x <=? y then x :: l else y :: insert_nat x l'
  end.
(** [std::sort] of indices. *)
Definition sort_nat (l : list nat) : list nat := fold_right insert_nat [] l.

Section Checks.
  Variable A : Arith.
  Notation T := (num A).
  Notation row := (list (num A)).
  Notation matrix := (list (list (num A))).

  (** [operator==] of two rows (vectors of integers). *)
  Fixpoint m_row_eqb (a b : row) : bool :=
    match a, b with
    | [], [] => true
    | x :: a', y :: b' => negb (a_gt A x y) && negb (a_gt A y x) && m_row_eqb a' b'
    | _, _ => false
    end.
  (** [std::find(matrix.cbegin(), matrix.cend(), row) - matrix.cbegin()]. *)
  Fixpoint m_find (r : row) (M : matrix) : nat :=
    match M with
    | [] => 0
    | x :: M' => if m_row_eqb x r then 0 else S (m_find r M')
    end.
  (** The loop of [inequalityIsValid] (input_validity.cpp 137-148), [checkValidityOfInequality] (158-171) and, with the arguments of [distance] exchanged,
      [checkValidityOfVertex] (187-201): [None] if some distance is negative, the active rows otherwise. *)
  Fixpoint m_active (distance : row -> res T) (M : matrix) : res (option matrix) :=
    match M with
    | [] => Ok (Some [])
    | r :: M' =>
        do d <- distance r;
        if a_lti A d 0 then Ok None
        else
          do rest <- m_active distance M';
          Ok (match rest with None => None | Some l => Some (if a_eqi A d 0 then r :: l else l) end)
    end.
  (** [inequalityIsValid] (input_validity.cpp 131-150). *)
  Definition m_inequality_is_valid (M : matrix) (a : row) (dimension : nat) : res bool :=
    do act <- m_active (fun r => m_distance A a r) M;
    match act with
    | None => Ok false
    | Some [] => Ok false
    | Some l => do d <- m_dimension A l; Ok (d + 1 =? dimension)
    end.
  (** [checkValidityOfInequality] (input_validity.cpp 152-183). *)
  Definition m_check_inequality (M : matrix) (a : row) (dimension : nat) : res unit :=
    do act <- m_active (fun r => m_distance A a r) M;
    match act with
    | None => Throw
    | Some [] => Throw
    | Some l => do d <- m_dimension A l; if d + 1 =? dimension then Ok tt else Throw
    end.
  (** [checkValidityOfVertex] (input_validity.cpp 185-214). *)
  Definition m_check_vertex (M : matrix) (x : row) (dimension : nat) : res unit :=
    do act <- m_active (fun r => m_distance A r x) M;
    match act with
    | None => Throw
    | Some [] => Throw
    | Some l => do d <- m_dimension A l; if d + 1 =? dimension then Ok tt else Throw
    end.
  (** [checkValidityOfInequalities] (input_validity.cpp 32-43) and [checkValidityOfVertices] (46-57). *)
  Definition m_check_inequalities (M : matrix) (rows : matrix) : res unit :=
    match rows with
    | [] => Ok tt
    | _ => do d <- m_dimension A M; foldM (fun _ a => m_check_inequality M a d) tt rows
    end.
  (** input_validity.cpp 46-57. *)
  Definition m_check_vertices (M : matrix) (rows : matrix) : res unit :=
    match rows with
    | [] => Ok tt
    | _ => do d <- m_dimension A M; foldM (fun _ x => m_check_vertex M x d) tt rows
    end.
  (** [filterInvalidInequalities] (input_validity.cpp 78-97), [filterInvalidVertices] (100-103).  (Nothing calls them.) *)
  Fixpoint m_filter_loop (M : matrix) (d : nat) (rows : matrix) : res matrix :=
    match rows with
    | [] => Ok []
    | a :: rows' => do b <- m_inequality_is_valid M a d; do rest <- m_filter_loop M d rows'; Ok (if b then a :: rest else rest)
    end.
  (** input_validity.cpp 78-97. *)
  Definition m_filter (M : matrix) (rows : matrix) : res matrix :=
    match rows with
    | [] => Ok []
    | _ => do d <- m_dimension A M; m_filter_loop M d rows
    end.

  (** [checkValidityInequalities] (input_validity.cpp 216-242, tag facet) and [checkValidityVertices] (244-270, tag vertex). *)
  Fixpoint m_indices_of (t : tag) (m : lmap) (M : matrix) (rows : matrix) : res (list nat) :=
    match rows with
    | [] => Ok []
    | r :: rows' =>
        do r' <- m_apply A t m r;
        let i := m_find r' M in
        if length M <=? i then Throw else do rest <- m_indices_of t m M rows'; Ok (i :: rest)
    end.
  (** Also input_validity.cpp 216-242, 244-270. *)
  Definition m_check_map (t : tag) (M : matrix) (m : lmap) : res unit :=
    do indices <- m_indices_of t m M M;
    if forallb (fun p => fst p =? snd p) (combine (sort_nat indices) (seq 0 (length indices))) then Ok tt else Throw.
  (** [checkValidityOfInequalityClasses] (input_validity.cpp 60-66), [checkValidityOfVertexClasses] (69-75). *)
  Definition m_check_maps (t : tag) (M : matrix) (maps : list lmap) : res unit := foldM (fun _ m => m_check_map t M m) tt maps.
End Checks.
