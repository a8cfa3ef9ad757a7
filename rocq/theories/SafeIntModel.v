(** * SafeIntModel: machine integers and the class SafeInteger (safe_integer.h, .tpp, _arithmetics.tpp,
    _comparisons.tpp, _constructors.tpp).

    A value of a built-in signed integer type is the integer it denotes; every built-in operation is checked and is
    [UB] when the C++ standard says so (overflow, division by zero).  A SafeInteger is its member [data]. *)
From Coq Require Import ZArith Bool.
From Verif Require Import Base.
Open Scope Z_scope.

(** Values of the signed type of [w] bits. *)
Definition int_min (w : Z) : Z := - 2 ^ (w - 1).
(** The largest value. *)
Definition int_max (w : Z) : Z := 2 ^ (w - 1) - 1.
(** The value is representable. *)
Definition fits (w z : Z) : bool := (int_min w <=? z) && (z <=? int_max w).

(** Result of a built-in signed operation whose exact result is [z]. *)
Definition ck (w z : Z) : res Z := if fits w z then Ok z else UB.
(** Negation of a built-in integer. *)
Definition i_neg (w a : Z) : res Z := ck w (- a).
(** Addition of built-in integers. *)
Definition i_add (w a b : Z) : res Z := ck w (a + b).
(** Subtraction of built-in integers. *)
Definition i_sub (w a b : Z) : res Z := ck w (a - b).
(** Multiplication of built-in integers. *)
Definition i_mul (w a b : Z) : res Z := ck w (a * b).
(** [/] truncates; [%] is the remainder of that division, undefined when the quotient is not representable. *)
Definition i_div (w a b : Z) : res Z := if b =? 0 then UB else ck w (Z.quot a b).
(** [%] of built-in integers. *)
Definition i_mod (w a b : Z) : res Z :=
  if b =? 0 then UB else if fits w (Z.quot a b) then Ok (Z.rem a b) else UB.

(** [SafeInteger::DataType] is [int64_t] (safe_integer.h:111). *)
Notation W64 := 64 (only parsing).
(** [std::numeric_limits<DataType>::min()]. *)
Definition data_min : Z := int_min W64.
(** [std::numeric_limits<DataType>::max()]. *)
Definition data_max : Z := int_max W64.

(** [operator-()] (safe_integer.tpp:26-36). *)
Definition si_neg (a : Z) : res Z :=
  do s <- i_add W64 data_min data_max;
  let symmetric_range := s =? 0 in
  if negb symmetric_range && (a =? data_min) then Throw
  else i_mul W64 a (-1).

(** [abs] (safe_integer.tpp:38-41). *)
Definition si_abs (a : Z) : res Z := if a <? 0 then si_neg a else Ok a.

(** [operator*=] (safe_integer_arithmetics.tpp:7-27), [operator*] (87-92). *)
Definition si_mul (a b : Z) : res Z :=
  if (a =? 0) || (b =? 0) then Ok 0
  else if b =? -1 then si_neg a
  else
    let limit_result := if Bool.eqb (a >? 0) (b >? 0) then data_max else data_min in
    do limit_this <- i_div W64 limit_result b;
    if ((a >? 0) && (limit_this <? a)) || ((a <? 0) && (limit_this >? a)) then Throw
    else i_mul W64 a b.

(** [operator/=] (safe_integer_arithmetics.tpp:29-42), [operator/] (94-99). *)
Definition si_div (a b : Z) : res Z :=
  if b =? 0 then Throw
  else if b =? -1 then si_neg a
  else i_div W64 a b.

(** [operator+=] (safe_integer_arithmetics.tpp:44-53), [operator+] (101-106): [&&] and [||] evaluate from left to
    right and stop early, so the subtractions are only evaluated under the sign tests. *)
Definition si_add (a b : Z) : res Z :=
  do over <- (if (a >? 0) && (b >? 0) then do d <- i_sub W64 data_max a; Ok (b >? d) else Ok false);
  do under <- (if over then Ok true
               else if (a <? 0) && (b <? 0) then do d <- i_sub W64 data_min a; Ok (b <? d) else Ok false);
  if under then Throw else i_add W64 a b.

(** [operator-=] (safe_integer_arithmetics.tpp:55-67), [operator-] (108-113). *)
Definition si_sub (a b : Z) : res Z :=
  do over <- (if b <? 0 then do d <- i_add W64 data_max b; Ok (a >? d) else Ok false);
  if over then Throw
  else
    do under <- (if b >? 0 then do d <- i_add W64 data_min b; Ok (a <? d) else Ok false);
    if under then Throw else i_sub W64 a b.

(** [operator%=] (safe_integer_arithmetics.tpp:69-85), [operator%] (115-120). *)
Definition si_mod (a b : Z) : res Z :=
  if b =? 0 then Throw
  else if b <? 0 then Throw
  else do r <- i_mod W64 a b; if r <? 0 then i_add W64 r b else Ok r.

(** Comparisons with an [int] (safe_integer_comparisons.tpp:7-35) and with another SafeInteger (37-65). *)
Definition si_eqi (a : Z) (i : Z) : bool := a =? i.
(** safe_integer_comparisons.tpp 12-15. *)
Definition si_nei (a : Z) (i : Z) : bool := negb (si_eqi a i).
(** safe_integer_comparisons.tpp 17-20. *)
Definition si_lti (a : Z) (i : Z) : bool := a <? i.
(** safe_integer_comparisons.tpp 22-25. *)
Definition si_gti (a : Z) (i : Z) : bool := a >? i.
(** safe_integer_comparisons.tpp 27-30. *)
Definition si_lei (a : Z) (i : Z) : bool := negb (si_gti a i).
(** safe_integer_comparisons.tpp 32-35. *)
Definition si_gei (a : Z) (i : Z) : bool := negb (si_lti a i).
(** safe_integer_comparisons.tpp 37-40. *)
Definition si_eq (a b : Z) : bool := a =? b.
(** safe_integer_comparisons.tpp 42-45. *)
Definition si_ne (a b : Z) : bool := negb (si_eq a b).
(** safe_integer_comparisons.tpp 47-50. *)
Definition si_lt (a b : Z) : bool := a <? b.
(** safe_integer_comparisons.tpp 52-55. *)
Definition si_gt (a b : Z) : bool := si_lt b a.
(** safe_integer_comparisons.tpp 57-60. *)
Definition si_le (a b : Z) : bool := negb (si_gt a b).
(** safe_integer_comparisons.tpp 62-65. *)
Definition si_ge (a b : Z) : bool := negb (si_lt a b).

(** Constructors from signed types (safe_integer_constructors.tpp:10-45): the comparison is made in [int64_t]. *)
Definition si_of_signed (value : Z) : res Z :=
  if (value >? data_max) || (value <? data_min) then Throw else Ok value.
(** Constructors from unsigned types (safe_integer_constructors.tpp 49-84): [static_cast<uint64_t>] of both sides, then the value is stored in an
    [int64_t] (the conversion of an unrepresentable value wraps). *)
Definition to_u64 (z : Z) : Z := z mod 2 ^ 64.
(** Conversion of an integer to a signed type of [w] bits (modulo 2^w). *)
Definition wrap_signed (w z : Z) : Z := (z + 2 ^ (w - 1)) mod 2 ^ w - 2 ^ (w - 1).
(** Also safe_integer_constructors.tpp 49-84. *)
Definition si_of_unsigned (value : Z) : res Z :=
  if to_u64 value >? to_u64 data_max then Throw else Ok (wrap_signed 64 value).
(** [operator int()] (safe_integer_constructors.tpp 87-94). *)
Definition si_to_int (a : Z) : res Z :=
  if (a >? int_max 32) || (a <? int_min 32) then Throw else Ok (wrap_signed 32 a).
