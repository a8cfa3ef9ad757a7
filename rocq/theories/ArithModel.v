(** * ArithModel: the integer type as a parameter, and the row operations over it.

    The algorithms of panda are templates over the integer type.  [Arith] lists the operations they use; each
    arithmetic operation may throw or be undefined.  Machine integers, SafeInteger, BigInteger and the ideal
    integers are instances.  Every container access is checked ([UB] outside the container). *)
From Coq Require Import List ZArith Arith.
From Verif Require Import Base ListUtil.
Import ListNotations.
Open Scope nat_scope.

(** The operations of the template parameter Integer that the algorithms use (integer_type_selection.tpp 35-68 instantiates it). *)
Record Arith := mk_arith {
  num : Type;
  a_lit : Z -> num;                      (* construction from an [int]: [Integer(0)], [static_cast<Integer>(factor)] *)
  a_neg : num -> res num;
  a_add : num -> num -> res num;
  a_sub : num -> num -> res num;
  a_mul : num -> num -> res num;
  a_div : num -> num -> res num;
  a_mod : num -> num -> res num;
  a_abs : num -> res num;
  a_gt : num -> num -> bool;             (* [a > b]; [a < b] is [a_gt b a] *)
  a_eqi : num -> Z -> bool;              (* comparisons with an [int] literal *)
  a_lti : num -> Z -> bool;
  a_gti : num -> Z -> bool;
  a_lei : num -> Z -> bool;
  a_size : num -> nat                    (* bound on the bit length; only used as loop fuel *)
}.

(** [container[i]] and [container[i] = x]. *)
Definition get {A} (l : list A) (i : nat) : res A :=
  match nth_error l i with Some x => Ok x | None => UB end.
(** [container[i] = x]. *)
Definition set {A} (l : list A) (i : nat) (x : A) : res (list A) :=
  if i <? length l then Ok (upd l i x) else UB.
(** [container.back()]. *)
Definition back {A} (l : list A) : res A :=
  match l with [] => UB | x :: _ => Ok (last l x) end.
(** [container.erase(container.begin() + i)]. *)
Definition eraseM {A} (l : list A) (i : nat) : res (list A) :=
  if i <? length l then Ok (erase i l) else UB.
(** [container.insert(container.begin() + i, x)]. *)
Definition insertM {A} (l : list A) (i : nat) (x : A) : res (list A) :=
  if i <=? length l then Ok (insert_at i x l) else UB.
(** A loop over all positions of a container that rewrites the element at each position. *)
Definition for_each {A} (f : A -> res A) (l : list A) : res (list A) :=
  foldM (fun l j => do x <- get l j; do y <- f x; set l j y) l (seq 0 (length l)).

Section Ops.
  Variable A : Arith.
  Notation T := (num A).
  Notation row := (list (num A)).
  Notation matrix := (list (list (num A))).

  (** ** algorithm_integer_operations.cpp *)

  (** [unsigned_gcd] (algorithm_integer_operations.cpp 46-62): fuel is excluded as a cause of [UB] by the theorems. *)
  Fixpoint m_unsigned_gcd (fuel : nat) (a b : T) : res T :=
    match fuel with
    | O => UB
    | S fuel' =>
        if negb (a_eqi A a 0) && negb (a_eqi A b 0) then
          if a_gt A a b
          then do a' <- a_mod A a b; m_unsigned_gcd fuel' a' b
          else do b' <- a_mod A b a; m_unsigned_gcd fuel' a b'
        else Ok (if a_eqi A a 0 then b else a)
    end.

  (** [gcd(a, b)] (algorithm_integer_operations.cpp 24-29). *)
  Definition m_gcd (a b : T) : res T :=
    do a' <- a_abs A a; do b' <- a_abs A b;
    m_unsigned_gcd (a_size A a' + a_size A b' + 2) a' b'.

  (** [lcm(a, b)] (algorithm_integer_operations.cpp 31-37). *)
  Definition m_lcm (a b : T) : res T :=
    do g <- m_gcd a b; do a' <- a_abs A a; do b' <- a_abs A b;
    do q <- a_div A b' g; a_mul A a' q.

  (** ** algorithm_row_operations.cpp *)

  (** [std::transform] of two ranges: the second must be at least as long as the first. *)
  Fixpoint zipM (f : T -> T -> res T) (a b : row) : res row :=
    match a, b with
    | [], _ => Ok []
    | x :: a', y :: b' => do z <- f x y; do r <- zipM f a' b'; Ok (z :: r)
    | _ :: _, [] => UB
    end.
  (** [row += row] (algorithm_row_operations.cpp 133-139), [row -= row] (149-155). *)
  Definition m_row_add (a b : row) : res row := zipM (a_add A) a b.
  (** algorithm_row_operations.cpp 149-155. *)
  Definition m_row_sub (a b : row) : res row := zipM (a_sub A) a b.
  (** [row *= factor] (algorithm_row_operations.cpp 165-176), also [row * factor], [factor * row] (178-189). *)
  Definition m_row_mul (r : row) (factor : T) : res row :=
    if a_eqi A factor 1 then Ok r else mapM (fun e => a_mul A e factor) r.
  (** [row /= divisor] (algorithm_row_operations.cpp 191-206). *)
  Definition m_row_div (r : row) (divisor : T) : res row :=
    if a_eqi A divisor 0 then Throw
    else if a_eqi A divisor 1 then Ok r else mapM (fun e => a_div A e divisor) r.
  (** [row * row] (algorithm_row_operations.cpp 215-220): [std::inner_product]. *)
  Fixpoint m_inner (acc : T) (a b : row) : res T :=
    match a, b with
    | [], _ => Ok acc
    | x :: a', y :: b' => do p <- a_mul A x y; do acc' <- a_add A acc p; m_inner acc' a' b'
    | _ :: _, [] => UB
    end.
  (** Also algorithm_row_operations.cpp 215-220. *)
  Definition m_dot (a b : row) : res T := m_inner (a_lit A 0) a b.

  (** [gcd(row)] (algorithm_row_operations.cpp 245-265): leading zeros are skipped, then the loop runs while the value exceeds 1. *)
  Fixpoint m_gcd_rest (value : T) (r : row) : res T :=
    match r with
    | [] => Ok value
    | x :: r' => if a_gti A value 1 then do v <- m_gcd x value; m_gcd_rest v r' else Ok value
    end.
  (** Also algorithm_row_operations.cpp 245-265. *)
  Fixpoint m_row_gcd (r : row) : res T :=
    match r with
    | [] => Ok (a_lit A 0)
    | x :: r' => if a_eqi A x 0 then m_row_gcd r' else do v <- a_abs A x; m_gcd_rest v r'
    end.

  (** [lcm(row)] (algorithm_row_operations.cpp 267-287). *)
  Fixpoint m_lcm_rest (value : T) (r : row) : res T :=
    match r with
    | [] => Ok value
    | x :: r' => do v <- m_lcm x value; m_lcm_rest v r'
    end.
  (** Also algorithm_row_operations.cpp 267-287. *)
  Fixpoint m_row_lcm (r : row) : res T :=
    match r with
    | [] => Ok (a_lit A 1)
    | x :: r' => if a_eqi A x 1 then m_row_lcm r' else do v <- a_abs A x; m_lcm_rest v r'
    end.

  (** Dividing a row by its gcd if that exceeds 1 (e.g. algorithm_row_operations.cpp 237-241). *)
  Definition m_row_reduce (r : row) : res row :=
    do g <- m_row_gcd r; if a_gti A g 1 then m_row_div r g else Ok r.

  (** [std::find_if(row.cbegin(), row.cend(), a != 0) - row.cbegin()]. *)
  Fixpoint m_first_nonzero (r : row) : nat :=
    match r with
    | [] => 0
    | x :: r' => if negb (a_eqi A x 0) then 0 else S (m_first_nonzero r')
    end.

  (** [normalize(row, equations)] (algorithm_row_operations.cpp 222-243). *)
  Definition m_normalize_step (r eq : row) : res row :=
    let index := m_first_nonzero eq in
    do a <- get r index;
    if negb (a_eqi A a 0) then
      do b <- get eq index;
      do r1 <- m_row_mul r b;
      do s <- m_row_mul eq a;
      m_row_sub r1 s
    else Ok r.
  (** Also algorithm_row_operations.cpp 222-243. *)
  Definition m_normalize (r : row) (equations : matrix) : res row :=
    do r' <- foldM m_normalize_step r equations; m_row_reduce r'.

  (** ** algorithm_inequality_operations.cpp *)

  (** [distance] (algorithm_inequality_operations.cpp 32-36, [scalarProduct] 74-79). *)
  Definition m_distance (inequality vertex : row) : res T :=
    do s <- m_dot vertex inequality; a_neg A s.

  (** [extremalVertex] (algorithm_inequality_operations.cpp 40-57): [better d extremum] replaces the best vertex. *)
  Fixpoint m_extremal (better : T -> T -> bool) (inequality : row) (best : row) (extremum : T) (vs : matrix) : res row :=
    match vs with
    | [] => Ok best
    | v :: vs' =>
        do d <- m_distance inequality v;
        if better d extremum then m_extremal better inequality v d vs' else m_extremal better inequality best extremum vs'
    end.
  (** Also algorithm_inequality_operations.cpp 40-57. *)
  Definition m_extremal_vertex (better : T -> T -> bool) (vertices : matrix) (inequality : row) : res row :=
    match vertices with
    | [] => UB
    | v :: vs => do d <- m_distance inequality v; m_extremal better inequality v d vs
    end.
  (** [furthestVertex] (algorithm_inequality_operations.cpp 60-64), [nearestVertex] (66-70). *)
  Definition m_furthest (vertices : matrix) (inequality : row) : res row :=
    m_extremal_vertex (fun d e => a_gt A d e) vertices inequality.
  (** algorithm_inequality_operations.cpp 66-70. *)
  Definition m_nearest (vertices : matrix) (inequality : row) : res row :=
    m_extremal_vertex (fun d e => a_gt A e d) vertices inequality.
End Ops.
