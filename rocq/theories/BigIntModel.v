(** * BigIntModel: the class BigInteger (big_integer.h, big_integer.cpp, big_integer_arithmetics.cpp, big_integer_comparisons.cpp,
    big_integer_constructors.cpp).

    [uint_fast32_t], the type of a limb, has at least 32 bits; its width is the parameter [W] (64 with glibc on 64-bit machines).
    [strict] says what [-static_cast<int>(m)] and [std::abs(v)] do when the result would be 2^31: [true] is the C++ standard (undefined),
    [false] is a compiler that wraps around.  Distinct objects are assumed: the operators are not modelled for [a *= a] and the like,
    which the program does not use.  The private [operator<<=] is only called with distance 1 (104, 105 of big_integer.cpp, 57 of
    big_integer_arithmetics.cpp) and modelled for it here; every distance, [operator>>=] and [operator<<], which are never called, are modelled in BigIntShift. *)
From Coq Require Import List ZArith Arith Bool.
From Verif Require Import Base ArithModel SafeIntModel.
Import ListNotations.
Open Scope Z_scope.

(** big_integer.h:115-122: the sign ([true] for [Sign::Negative]) and the limbs, least significant first. *)
Record big := mk_big { negative : bool; limbs : list Z }.

(** [try { return fallback; } catch ( ... ) { return other; }]. *)
Definition catching {A} (fallback other : res A) : res A := match fallback with Throw => other | r => r end.

Section Big.
  Variables (W : nat) (strict : bool).
  (** [2^W], the number of values of a limb; W is the width of a limb (big_integer.h: Magnitude). *)
  Definition base : Z := 2 ^ Z.of_nat W.
  (** Unsigned arithmetic of a limb (C++ language). *)
  Definition limb_wrap (z : Z) : Z := z mod base.

  (** Negating an [int] and [std::abs] of an [int]. *)
  Definition int_neg (v : Z) : res Z := if fits 32 (- v) then Ok (- v) else if strict then UB else Ok (wrap_signed 32 (- v)).
  (** [std::abs(int)]. *)
  Definition int_abs (v : Z) : res Z := if v <? 0 then int_neg v else Ok v.

  (** ** big_integer.cpp *)
  (** [isZero] (big_integer.cpp 201-204): the short-circuit [&&] reads [data[0]] only if there is one limb. *)
  Definition b_is_zero (a : big) : bool := match limbs a with [x] => x =? 0 | _ => false end.
  (** [isNegative] (big_integer.cpp 191-194), [isPositive] (196-199). *)
  Definition b_is_negative (a : big) : bool := negative a.
  (** big_integer.cpp 196-199. *)
  Definition b_is_positive (a : big) : bool := negb (negative a) && negb (b_is_zero a).
  (** [flipSign] (big_integer.cpp 226-232). *)
  Definition b_flip (a : big) : big := if b_is_zero a then a else mk_big (negb (negative a)) (limbs a).
  (** [setZero] (big_integer.cpp 246-250). *)
  Definition b_set_zero : big := mk_big false [0].
  (** [shrinkToFit] (big_integer.cpp 234-244): the loop that removes leading zero limbs, then the sign of zero. *)
  Fixpoint drop_zeros (l : list Z) : list Z :=
    match l with
    | [] => []
    | x :: l' => match drop_zeros l' with [] => if x =? 0 then [] else [x] | y :: r => x :: y :: r end
    end.
  (** (At least one limb stays: the lowest one.) *)
  Definition shrink_limbs (l : list Z) : list Z := match drop_zeros l with [] => firstn 1 l | r => r end.
  (** big_integer.cpp 234-244. *)
  Definition b_shrink (a : big) : big :=
    let l := shrink_limbs (limbs a) in
    match l with [x] => if x =? 0 then mk_big false l else mk_big (negative a) l | _ => mk_big (negative a) l end.

  (** [isMagnitudeSmallerThan] (big_integer.cpp 206-214) and [isMagnitudeGreaterThan] (216-224): the first difference from the most significant limb. *)
  Fixpoint mismatch_lt (a b : list Z) : bool :=
    match a, b with
    | x :: a', y :: b' => if x =? y then mismatch_lt a' b' else x <? y
    | _, _ => false
    end.
  (** big_integer.cpp 216-224. *)
  Fixpoint mismatch_gt (a b : list Z) : bool :=
    match a, b with
    | x :: a', y :: b' => if x =? y then mismatch_gt a' b' else x >? y
    | _, _ => false
    end.
  (** big_integer.cpp 206-214. *)
  Definition b_mag_smaller (a b : big) : bool :=
    if negb (length (limbs a) =? length (limbs b))%nat then (length (limbs a) <? length (limbs b))%nat
    else mismatch_lt (rev (limbs a)) (rev (limbs b)).
  (** big_integer.cpp 216-224. *)
  Definition b_mag_greater (a b : big) : bool :=
    if negb (length (limbs a) =? length (limbs b))%nat then (length (limbs b) <? length (limbs a))%nat
    else mismatch_gt (rev (limbs a)) (rev (limbs b)).

  (** [operator<<=] (big_integer.cpp 17-48) for distance 1: there is no block distance; a limb whose top bit is set adds 1 to the next limb, and one limb is
      appended if the top bit of the last one is set. *)
  Definition top_bit (x : Z) : bool := Z.testbit x (Z.of_nat W - 1).
  (** Also big_integer.cpp 17-48. *)
  Fixpoint shift_limbs (carry : bool) (l : list Z) : list Z :=
    match l with
    | [] => if carry then [1] else []
    | x :: l' => limb_wrap (limb_wrap (2 * x) + (if carry then 1 else 0)) :: shift_limbs (top_bit x) l'
    end.
  (** Also big_integer.cpp 17-48. *)
  Definition b_shift1 (a : big) : res big :=
    if b_is_zero a then Ok a
    else match limbs a with [] => UB | l => Ok (mk_big (negative a) (shift_limbs false l)) end.

  (** [addMagnitude] (big_integer.cpp 132-162): [data[i]], [second[i]] while both exist (data is extended by zeros first), then the remaining carries. *)
  Fixpoint carry_limbs (carry : bool) (d : list Z) : list Z :=
    match d with
    | [] => if carry then [1] else []
    | x :: d' => if carry then let x' := limb_wrap (x + 1) in x' :: carry_limbs (x' =? 0) d' else x :: d'
    end.
  (** Also big_integer.cpp 132-162. *)
  Fixpoint add_limbs (carry : bool) (d s : list Z) : list Z :=
    match s with
    | [] => carry_limbs carry d
    | y :: s' =>
        let '(x, d') := match d with [] => (0, []) | x :: d' => (x, d') end in
        if carry && (limb_wrap (y + 1) =? 0) then x :: add_limbs true d' s'
        else
          let x' := limb_wrap (x + limb_wrap (y + (if carry then 1 else 0))) in
          x' :: add_limbs (x' <? x) d' s'
    end.
  (** Also big_integer.cpp 132-162. *)
  Definition b_add_mag (a : big) (s : list Z) : big := mk_big (negative a) (add_limbs false (limbs a) s).

  (** [subtractMagnitude] (big_integer.cpp 164-189): reading beyond the limbs of [*this] is undefined; a final borrow is lost. *)
  Fixpoint borrow_limbs (carry : bool) (d : list Z) : list Z :=
    match d with
    | [] => []
    | x :: d' => if carry then limb_wrap (x - 1) :: borrow_limbs (x =? 0) d' else x :: d'
    end.
  (** Also big_integer.cpp 164-189. *)
  Fixpoint sub_limbs (carry : bool) (d s : list Z) {struct s} : res (list Z) :=
    match s with
    | [] => Ok (borrow_limbs carry d)
    | y :: s' =>
        match d with
        | [] => UB
        | x :: d' =>
            if carry && (limb_wrap (y + 1) =? 0) then do r <- sub_limbs true d' s'; Ok (x :: r)
            else
              let x' := limb_wrap (x - limb_wrap (y + (if carry then 1 else 0))) in
              do r <- sub_limbs (x' >? x) d' s'; Ok (x' :: r)
        end
    end.
  (** Also big_integer.cpp 164-189. *)
  Definition b_sub_mag (a : big) (s : list Z) : res big :=
    do l <- sub_limbs false (limbs a) s; Ok (b_shrink (mk_big (negative a) l)).

  (** [operator-] (big_integer.cpp 76-81) and [abs] (83-87). *)
  Definition b_neg (a : big) : big := b_flip a.
  (** big_integer.cpp 83-87. *)
  Definition b_abs (a : big) : big := mk_big false (limbs a).

  (** ** big_integer_constructors.cpp *)
  (** [BigInteger(int16_t)] (big_integer_constructors.cpp 25-41), [BigInteger(int32_t)] (45-61), [BigInteger(int64_t)] (65-81). *)
  Definition b_of_signed (value : Z) : big :=
    mk_big (negb (value >=? 0)) [if value >=? 0 then limb_wrap value else limb_wrap (limb_wrap (- (1 + value)) + 1)].
  (** Constructors from unsigned types (big_integer_constructors.cpp 85-108). *)
  Definition b_of_unsigned (value : Z) : big := mk_big false [limb_wrap value].
  (** The conversion to [int] (big_integer_constructors.cpp 111-155); the range of [int] is not symmetric. *)
  Definition b_to_int (a : big) : res Z :=
    if (1 <? length (limbs a))%nat then Throw
    else
      do x <- get (limbs a) 0;
      if negb (negative a) && (x >? int_max 32) then Throw
      else if negative a && (limb_wrap (x - 1) >? int_max 32) then Throw
      else if negative a then int_neg (wrap_signed 32 x) else Ok (wrap_signed 32 x).

  (** ** big_integer_comparisons.cpp *)
  (** [operator==(int)] (big_integer_comparisons.cpp 14-25). *)
  Definition b_eqi (a : big) (v : Z) : res bool :=
    if (1 <? length (limbs a))%nat then Ok false
    else if negb (Bool.eqb (v >=? 0) (negb (negative a))) then Ok false
    else do x <- get (limbs a) 0; do w <- int_abs v; Ok (x =? limb_wrap w).
  (** [operator<(int)] (big_integer_comparisons.cpp 32-47). *)
  Definition b_lti (a : big) (v : Z) : res bool :=
    if (1 <? length (limbs a))%nat then Ok (negative a)
    else if negb (Bool.eqb (negb (negative a)) (v >=? 0)) then Ok (negative a)
    else do x <- get (limbs a) 0; if negative a then do w <- int_abs v; Ok (x >? limb_wrap w) else Ok (x <? limb_wrap v).
  (** [operator>(int)] (big_integer_comparisons.cpp 49-64). *)
  Definition b_gti (a : big) (v : Z) : res bool :=
    if (1 <? length (limbs a))%nat then Ok (negb (negative a))
    else if negb (Bool.eqb (negb (negative a)) (v >=? 0)) then Ok (negb (negative a))
    else do x <- get (limbs a) 0; if negative a then do w <- int_abs v; Ok (x <? limb_wrap w) else Ok (x >? limb_wrap v).
  (** [operator!=(int)] (big_integer_comparisons.cpp 27-30), [operator<=(int)] (66-69), [operator>=(int)] (71-74). *)
  Definition b_nei (a : big) (v : Z) : res bool := do e <- b_eqi a v; Ok (negb e).
  (** big_integer_comparisons.cpp 66-69. *)
  Definition b_lei (a : big) (v : Z) : res bool := do e <- b_gti a v; Ok (negb e).
  (** big_integer_comparisons.cpp 71-74. *)
  Definition b_gei (a : big) (v : Z) : res bool := do e <- b_lti a v; Ok (negb e).
  (** [operator==] (big_integer_comparisons.cpp 76-83). *)
  Fixpoint equal_limbs (a b : list Z) : bool :=
    match a, b with
    | x :: a', y :: b' => (x =? y) && equal_limbs a' b'
    | _, _ => true
    end.
  (** Also big_integer_comparisons.cpp 76-83. *)
  Definition b_eq (a b : big) : bool :=
    if negb (Bool.eqb (negative a) (negative b)) || negb (length (limbs a) =? length (limbs b))%nat then false
    else equal_limbs (limbs a) (limbs b).
  (** [operator!=] (big_integer_comparisons.cpp 85-88), [operator<] (90-104), [operator>] (106-109), [operator<=] (111-114), [operator>=] (116-119). *)
  Definition b_ne (a b : big) : bool := negb (b_eq a b).
  (** big_integer_comparisons.cpp 90-104. *)
  Definition b_lt (a b : big) : bool :=
    if negb (Bool.eqb (negative a) (negative b)) then negative a
    else if negb (negative a) then b_mag_smaller a b else b_mag_greater a b.
  (** big_integer_comparisons.cpp 106-109. *)
  Definition b_gt (a b : big) : bool := b_lt b a.
  (** big_integer_comparisons.cpp 111-114. *)
  Definition b_le (a b : big) : bool := negb (b_gt a b).
  (** big_integer_comparisons.cpp 116-119. *)
  Definition b_ge (a b : big) : bool := negb (b_lt a b).

  (** ** big_integer_arithmetics.cpp *)
  (** [fallbackAddAssign] (big_integer_arithmetics.cpp 247-257). *)
  Definition fallback_add (first second : big) : res big :=
    do a <- b_to_int first;
    do b <- b_to_int second;
    do over <- (if (a >? 0) && (b >? 0) then do d <- i_sub 32 (int_max 32) a; Ok (b >? d) else Ok false);
    do under <- (if over then Ok true else if (a <? 0) && (b <? 0) then do d <- i_sub 32 (int_min 32) a; Ok (b <? d) else Ok false);
    if under then Throw else do s <- i_add 32 a b; Ok (b_of_signed s).
  (** [operator+=] (big_integer_arithmetics.cpp 102-134), [operator+] (198-203). *)
  Definition b_add (a b : big) : res big :=
    if b_is_zero b then Ok a
    else catching (fallback_add a b)
      (if Bool.eqb (negative a) (negative b) then Ok (b_add_mag a (limbs b))
       else
         let swapped := mk_big (negative b) (limbs a) in
         if b_eq swapped b then Ok b_set_zero
         else if Bool.eqb (negb (negative b)) (b_gt swapped b) then b_sub_mag a (limbs b)
         else b_sub_mag (mk_big (negative b) (limbs b)) (limbs a)).

  (** [fallbackSubtractAssign] (big_integer_arithmetics.cpp 259-269). *)
  Definition fallback_sub (first second : big) : res big :=
    do a <- b_to_int first;
    do b <- b_to_int second;
    do over <- (if b <? 0 then do d <- i_add 32 (int_max 32) b; Ok (a >? d) else Ok false);
    do under <- (if over then Ok true else if b >? 0 then do d <- i_add 32 (int_min 32) b; Ok (a <? d) else Ok false);
    if under then Throw else do s <- i_sub 32 a b; Ok (b_of_signed s).
  (** [operator-=] (big_integer_arithmetics.cpp 136-161), [operator-] (205-210). *)
  Definition b_sub (a b : big) : res big :=
    if b_is_zero b then Ok a
    else catching (fallback_sub a b)
      (if negb (Bool.eqb (negative a) (negative b)) then Ok (b_add_mag a (limbs b))
       else if Bool.eqb (negative a) (b_gt a b) then b_sub_mag (b_flip (mk_big (negative a) (limbs b))) (limbs a)
       else b_sub_mag a (limbs b)).

  (** [fallbackMultiplyAssign] (big_integer_arithmetics.cpp 221-232). *)
  Definition fallback_mul (first second : big) : res big :=
    do a <- b_to_int first;
    do b <- b_to_int second;
    let limit := if Bool.eqb (a >? 0) (b >? 0) then int_max 32 else int_min 32 in
    do over <- (if a >? 0 then do q <- i_div 32 limit b; Ok (q <? a) else Ok false);
    do under <- (if over then Ok true else if a <? 0 then do q <- i_div 32 limit b; Ok (q >? a) else Ok false);
    if under then Throw else do s <- i_mul 32 a b; Ok (b_of_signed s).
  (** The inner loop of [operator*=] (big_integer_arithmetics.cpp 57-63) for the bits [j], ... of one limb of the second factor. *)
  Definition mul_limb (entry : Z) (s : big * big) : res (big * big) :=
    foldM (fun (s : big * big) j =>
      let '(this, copy) := s in
      do this' <- (if Z.testbit entry (Z.of_nat j) then b_add this copy else Ok this);
      do copy' <- b_shift1 copy;
      Ok (this', copy')) s (seq 0 W).
  (** [operator*=] (big_integer_arithmetics.cpp 30-70), [operator*] (180-185). *)
  Definition b_mul (a b : big) : res big :=
    if b_is_zero a || b_is_zero b then Ok b_set_zero
    else
      do one <- b_eqi b 1;
      do unit <- (if one then Ok true else b_eqi b (-1));
      if unit then Ok (if negative b then b_flip a else a)
      else catching (fallback_mul a b)
        (do r <- foldM (fun s entry => mul_limb entry s) (mk_big (negative a) [0], a) (limbs b);
         Ok (if negative b then b_flip (fst r) else fst r)).

  (** [divideMagnitudesWithRemainder] (big_integer.cpp 89-130): the new value of [*this] and the remainder. *)
  Definition b_or_front (a : big) (bit : bool) : res big :=
    match limbs a with
    | [] => UB
    | x :: l => Ok (mk_big (negative a) (Z.lor x (if bit then 1 else 0) :: l))
    end.
  (** Also big_integer.cpp 89-130. *)
  Definition div_step (data : list Z) (second : big) (s : big * big) (it : nat) : res (big * big) :=
    let '(result, remainder) := s in
    do block <- get data (it / W);
    do remainder <- b_shift1 remainder;
    do result <- b_shift1 result;
    do remainder <- b_or_front remainder (Z.testbit block (Z.of_nat (it mod W)));
    if negb (b_mag_smaller remainder second) then
      do remainder <- b_sub_mag remainder (limbs second);
      do result <- b_or_front result true;
      Ok (result, remainder)
    else Ok (result, remainder).
  (** Also big_integer.cpp 89-130. *)
  Definition b_div_mag (a second : big) : res (big * big) :=
    if b_mag_smaller a second then Ok (b_of_signed 0, a)
    else if b_eq a second then Ok (b_of_signed 1, b_of_signed 0)
    else
      let is_negative := negative a in
      let data := limbs (if is_negative then b_flip a else a) in
      do r <- foldM (div_step data second) (b_of_signed 0, b_of_signed 0) (rev (seq 0 (W * length data)));
      let '(result, remainder) := r in
      if is_negative then
        do remainder' <- b_add (b_flip remainder) second;
        Ok (b_flip result, remainder')
      else Ok (result, remainder).

  (** [fallbackDivideAssign] (big_integer_arithmetics.cpp 234-245). *)
  Definition fallback_div (first second : big) : res big :=
    do a <- b_to_int first;
    do b <- b_to_int second;
    do over <- (if b =? -1 then
                  do low <- (if a <? 0 then do d <- i_add 32 (int_max 32) a; Ok (d <? 0) else Ok false);
                  if low then Ok true else if a >? 0 then do d <- i_add 32 a (int_min 32); Ok (d >? 0) else Ok false
                else Ok false);
    if over then Throw else do q <- i_div 32 a b; Ok (b_of_signed q).
  (** [operator/=] (big_integer_arithmetics.cpp 72-100), [operator/] (187-196). *)
  Definition b_div (a b : big) : res big :=
    if b_is_zero b then Throw
    else
      do unit <- (if b_is_zero a then Ok true else do one <- b_eqi b 1; if one then Ok true else b_eqi b (-1));
      if unit then Ok (if negative b then b_flip a else a)
      else catching (fallback_div a b)
        (do r <- b_div_mag a b;
         Ok (if negb (Bool.eqb (negative b) (negative a)) then b_flip (fst r) else fst r)).

  (** [fallbackModuloAssign] (big_integer_arithmetics.cpp 271-279). *)
  Definition fallback_mod (first second : big) : res big :=
    do a <- b_to_int first;
    do b <- b_to_int second;
    do m <- i_mod 32 a b;
    do s <- i_add 32 (if a <? 0 then b else 0) m;
    Ok (b_of_signed s).
  (** [operator%=] (big_integer_arithmetics.cpp 163-178), [operator%] (212-217). *)
  Definition b_mod (a b : big) : res big :=
    if negb (b_is_positive b) then Throw
    else catching (fallback_mod a b) (do r <- b_div_mag a b; Ok (snd r)).
End Big.
