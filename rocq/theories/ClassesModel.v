(** * ClassesModel: applying maps to rows (algorithm_map_operations.cpp 40-78) and classes of rows
    (algorithm_classes.cpp) over an arbitrary integer type. *)
From Coq Require Import List ZArith Arith Bool.
From Verif Require Import Base ListUtil ArithModel.
Import ListNotations.
Open Scope nat_scope.

(** maps.h: a term is an index and a factor ([int]), an image a list of terms, a map a list of images. *)
Definition term := (nat * Z)%type.
(** maps.h: [Image]. *)
Definition image := list term.
(** maps.h: [Map]. *)
Definition lmap := list image.

(** The tags [tag::facet] and [tag::vertex] that select how a map is applied. *)
Inductive tag := Facet_tag | Vertex_tag.

Section Ops.
  Variable A : Arith.
  Notation T := (num A).
  Notation row := (list (num A)).
  Notation matrix := (list (list (num A))).

  (** [applyTerm] (algorithm_map_operations.cpp 42-48 for facets, 50-56 for vertices). *)
  Definition m_apply_term (t : tag) (input result : row) (index : nat) (tm : term) : res row :=
    let '(source, target) := match t with Facet_tag => (index, fst tm) | Vertex_tag => (fst tm, index) end in
    do x <- get input source;
    do p <- a_mul A (a_lit A (snd tm)) x;
    do y <- get result target;
    do z <- a_add A y p;
    set result target z.

  (** [apply] (algorithm_map_operations.cpp 59-78). *)
  Definition m_apply_raw (t : tag) (m : lmap) (r : row) : res row :=
    foldM (fun acc i =>
      do entry <- get m i;
      foldM (fun acc' tm => m_apply_term t r acc' i tm) acc entry)
      (repeat (a_lit A 0) (length r)) (seq 0 (length m)).
  (** Also algorithm_map_operations.cpp 59-78. *)
  Definition m_apply (t : tag) (m : lmap) (r : row) : res row :=
    do result <- m_apply_raw t m r; m_row_reduce A result.

  (** [operator<] on rows: [std::lexicographical_compare]. *)
  Fixpoint m_lex_lt (a b : row) : bool :=
    match a, b with
    | _, [] => false
    | [], _ :: _ => true
    | x :: a', y :: b' => if a_gt A y x then true else if a_gt A x y then false else m_lex_lt a' b'
    end.

  (** [std::set<Row<Integer>>] is its sorted sequence of elements; [insert] reports whether the row was new. *)
  Fixpoint m_set_insert (x : row) (s : matrix) : matrix * bool :=
    match s with
    | [] => ([x], true)
    | y :: s' =>
        if m_lex_lt x y then (x :: s, true)
        else if m_lex_lt y x then let q := m_set_insert x s' in (y :: fst q, snd q)
        else (s, false)
    end.
  (** [rows.find(row)] and [rows.erase(position)] if it was found. *)
  Fixpoint m_set_erase (x : row) (s : matrix) : matrix :=
    match s with
    | [] => []
    | y :: s' =>
        if m_lex_lt x y then s
        else if m_lex_lt y x then y :: m_set_erase x s'
        else s'
    end.
  (** [std::set(first, last)], as used in algorithm_classes.cpp 60-65. *)
  Definition m_set_of (rows : matrix) : matrix := fold_left (fun s r => fst (m_set_insert r s)) rows [].

  (** [getClass] (algorithm_classes.cpp 32-58): the loop over the maps for one row, and the work list, a stack whose
      top is the head of the list (an iterator into the set is the row it points to).  The loop may run forever when
      the class is infinite; [fuel] bounds the number of rows taken from the stack and [None] means it was used up. *)
  Definition m_class_row (t : tag) (maps : list lmap) (current : row) (s : matrix * matrix) : res (matrix * matrix) :=
    foldM (fun s m =>
      do new_row <- m_apply t m current;
      let q := m_set_insert new_row (fst s) in
      Ok (fst q, if snd q then new_row :: snd s else snd s)) s maps.
  (** Also algorithm_classes.cpp 32-58. *)
  Fixpoint m_class_loop (fuel : nat) (t : tag) (maps : list lmap) (rows stack : matrix) : res (option matrix) :=
    match stack with
    | [] => Ok (Some rows)
    | current :: stack' =>
        match fuel with
        | O => Ok None
        | S fuel' =>
            do s <- m_class_row t maps current (rows, stack');
            m_class_loop fuel' t maps (fst s) (snd s)
        end
    end.
  (** Also algorithm_classes.cpp 32-58. *)
  Definition m_get_class (fuel : nat) (t : tag) (maps : list lmap) (r : row) : res (option matrix) :=
    m_class_loop fuel t maps [r] [r].

  (** [classRepresentative] (algorithm_classes.cpp 23-30): the last row of the class. *)
  Definition m_representative (fuel : nat) (t : tag) (maps : list lmap) (r : row) : res (option row) :=
    do c <- m_get_class fuel t maps r;
    match c with
    | None => Ok None
    | Some rows => do x <- back rows; Ok (Some x)
    end.

  (** [classes(std::set)] (algorithm_classes.cpp 67-86).  Every round removes the first row, so [length rows] rounds suffice; the recursion is
      on that number. *)
  Fixpoint m_classes_loop (rounds fuel : nat) (t : tag) (maps : list lmap) (rows : matrix) : res (option matrix) :=
    match rows with
    | [] => Ok (Some [])
    | first :: _ =>
        match rounds with
        | O => Ok None
        | S rounds' =>
            do c <- m_get_class fuel t maps first;
            match c with
            | None => Ok None
            | Some cl =>
                do x <- back cl;
                do rest <- m_classes_loop rounds' fuel t maps (fold_left (fun s r => m_set_erase r s) cl rows);
                match rest with
                | None => Ok None
                | Some out => Ok (Some (x :: out))
                end
            end
        end
    end.
  (** Also algorithm_classes.cpp 67-86. *)
  Definition m_classes (fuel : nat) (t : tag) (maps : list lmap) (rows : matrix) : res (option matrix) :=
    m_classes_loop (length rows) fuel t maps rows.
  (** [classes(Matrix)] (algorithm_classes.cpp 60-65). *)
  Definition m_classes_of (fuel : nat) (t : tag) (maps : list lmap) (input : matrix) : res (option matrix) :=
    m_classes fuel t maps (m_set_of input).
End Ops.
