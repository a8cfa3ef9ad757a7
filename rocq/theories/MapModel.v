(** * MapModel: normalising maps by equations (algorithm_map_operations.cpp 29-38 and 91-197). *)
From Coq Require Import List ZArith Arith Bool.
From Verif Require Import Base ListUtil ArithModel SafeIntModel IntTypes ClassesModel.
Import ListNotations.
Open Scope Z_scope.

(** ** simplify (163-185) *)
(** [std::sort] of an image: terms are compared by index, then by factor.  Terms that compare equal are identical, so the
    result is the only sorted permutation. *)
Definition term_le (a b : term) : bool := (fst a <? fst b)%nat || ((fst a =? fst b)%nat && (snd a <=? snd b)).
(** Insertion in a sorted image. *)
Fixpoint term_insert (x : term) (l : image) : image :=
  match l with
  | [] => [x]
  | y :: l' => if term_le x y then x :: l else y :: term_insert x l'
  end.
(** [std::sort(image.begin(), image.end())] (algorithm_map_operations.cpp 169). *)
Definition term_sort (l : image) : image := fold_right term_insert [] l.

(** [std::size_t] arithmetic. *)
Definition size_wrap (z : Z) : Z := z mod 2 ^ 64.
(** [image[i]], [image[i] = x] and [image.erase(image.begin() + i)] for an index of type [std::size_t]. *)
Definition at_z {X} (l : list X) (i : Z) : res X := if i <? Z.of_nat (length l) then get l (Z.to_nat i) else UB.
(** [image[i] = x] for an index of type std::size_t. *)
Definition set_z {X} (l : list X) (i : Z) (x : X) : res (list X) := if i <? Z.of_nat (length l) then set l (Z.to_nat i) x else UB.
(** [image.erase(image.begin() + i)] for an index of type std::size_t. *)
Definition erase_z {X} (l : list X) (i : Z) : res (list X) := if i <? Z.of_nat (length l) then eraseM l (Z.to_nat i) else UB.

(** The loop (algorithm_map_operations.cpp 170-183): [i] wraps around below 0.  The theorems show that [length image] rounds suffice. *)
Fixpoint m_simplify_loop (fuel : nat) (i : Z) (im : image) : res image :=
  if size_wrap (i + 1) <? Z.of_nat (length im) then
    match fuel with
    | O => UB
    | S fuel' =>
        do a <- at_z im i;
        do b <- at_z im (size_wrap (i + 1));
        if (fst a =? fst b)%nat then
          do s <- i_add 32 (snd a) (snd b);
          do im1 <- set_z im i (fst a, s);
          do im2 <- erase_z im1 (size_wrap (i + 1));
          if s =? 0 then
            do im3 <- erase_z im2 i;
            m_simplify_loop fuel' (size_wrap (size_wrap (size_wrap (i - 1) - 1) + 1)) im3
          else m_simplify_loop fuel' (size_wrap (size_wrap (i - 1) + 1)) im2
        else m_simplify_loop fuel' (size_wrap (i + 1)) im
    end
  else Ok im.
(** Also algorithm_map_operations.cpp 170-183. *)
Definition m_simplify_image (im : image) : res image := m_simplify_loop (length im) 0 (term_sort im).
(** Also algorithm_map_operations.cpp 170-183. *)
Definition m_simplify (m : lmap) : res lmap := mapM m_simplify_image m.

Section Normalize.
  Variable t : int_type.
  Notation row := (list (num (arith t))).
  Notation matrix := (list (list (num (arith t)))).

  (** [indices] (algorithm_map_operations.cpp 95-109). *)
  Definition m_indices (equations : matrix) : list nat := map (m_first_nonzero (arith t)) equations.

  (** [eliminateZeroCoefficients] (algorithm_map_operations.cpp 111-119). *)
  Definition m_eliminate (m : lmap) (indices : list nat) : res lmap := foldM (fun m index => set m index []) m indices.

  (** [-term.second * equation[j]] (134) as a [Factor]: an [int] product for int16_t and int; an [int64_t] product converted to
      [int] for int64_t; for the classes the only candidate is the built-in product of two [int]s, after the conversion
      of the coefficient to [int], which throws if it does not fit. *)
  Definition m_factor (c e : Z) : res Z :=
    do c' <- i_neg 32 c;
    match t with
    | INT16 | INT32 => i_mul 32 c' e
    | INT64 => do p <- i_mul 64 c' e; Ok (wrap_signed 32 p)
    | SAFE | EXACT => if fits 32 e then i_mul 32 c' e else Throw
    end.
  (** algorithm_map_operations.cpp 134. *)
  Definition factor_of (c : Z) (e : num (arith t)) : res Z := m_factor c e.

  (** The terms [j], [j + 1], ... of the loop algorithm_map_operations.cpp 130-136, for the coefficients [eq] from position [j] on. *)
  Fixpoint m_expand (c : Z) (j : nat) (eq : row) : res image :=
    match eq with
    | [] => Ok []
    | e :: eq' =>
        if negb (a_eqi (arith t) e 0) then
          do f <- factor_of c e;
          do rest <- m_expand c (S j) eq';
          Ok ((j, f) :: rest)
        else m_expand c (S j) eq'
    end.
  (** [subtractEquation] (algorithm_map_operations.cpp 121-148) for one image.  The vector that the range-for loop iterates over is assigned at the end of the body
      (145), which invalidates the iterators: the loop ends normally if there was one term, reading a further term is undefined. *)
  Definition m_subtract_image (index : nat) (equation : row) (im : image) : res image :=
    match im with
    | [] => Ok []
    | tm :: others =>
        do new_image <- (if (fst tm =? index)%nat then m_expand (snd tm) (S index) (skipn (S index) equation) else Ok [tm]);
        match others with [] => Ok new_image | _ :: _ => UB end
    end.
  (** Also algorithm_map_operations.cpp 121-148. *)
  Definition m_subtract (m : lmap) (index : nat) (equation : row) : res lmap := mapM (m_subtract_image index equation) m.
  (** [subtractEquations] (algorithm_map_operations.cpp 150-161). *)
  Definition m_subtract_all (m : lmap) (equations : matrix) : res lmap :=
    foldM (fun m eq => m_subtract m (m_first_nonzero (arith t) eq) eq) m equations.

  (** [normalizeMap] (algorithm_map_operations.cpp 187-197). *)
  Definition m_normalize_map (equations : matrix) (m : lmap) : res lmap :=
    do m1 <- m_eliminate m (m_indices equations);
    do m2 <- m_subtract_all m1 equations;
    m_simplify m2.
  (** [normalize(maps, equations)] (algorithm_map_operations.cpp 29-38). *)
  Definition m_normalize_maps (equations : matrix) (maps : list lmap) : res (list lmap) := mapM (m_normalize_map equations) maps.
End Normalize.
