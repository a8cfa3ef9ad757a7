(** * BitsetModel: the bitsets of the elimination as arrays of 32-bit words.

    Models bitset_fixed_size.tpp and bitset_variable_size.cpp, whose member functions are the same text; the
    number of words is fixed by the type in the first case and by the constructor argument in the second.
    A word is an [N] below 2^32, every access to the array is checked ([UB] outside). *)
From Coq Require Import List NArith Arith.
From Verif Require Import Base Bits ListUtil.
Import ListNotations.
Open Scope nat_scope.

(** The array of words: bitset_fixed_size.h, bitset_variable_size.h, member [data]. *)
Definition words := list N.

(** [data[i]]. *)
Definition getw (d : words) (i : nat) : res N :=
  match nth_error d i with Some w => Ok w | None => UB end.

(** [data[i] = w]. *)
Definition setw (d : words) (i : nat) (w : N) : res words :=
  if i <? length d then Ok (upd d i w) else UB.

(** [1 + (max - 1) / 32]; for [max = 0] the unsigned subtraction wraps and the loops run off the array, which
    is rendered as immediate [UB] (simplification: the code might return before the first bad access). *)
Definition word_end (max : nat) : res nat :=
  match max with O => UB | S m => Ok (1 + m / 32) end.

(** bitset_fixed_size.tpp 13-21 ([Size] words, zero-initialised) and bitset_variable_size.cpp 16-21. *)
Definition bs_fixed (size : nat) : words := repeat 0%N size.
(** bitset_variable_size.cpp 16-21. *)
Definition bs_variable (bits : nat) : res words := do e <- word_end bits; Ok (repeat 0%N e).

(** popcount.tpp 22-26: [__builtin_popcount] is the number of set bits. *)
Definition popcount (n : N) : nat := popcountN n.

(** popcount.tpp 28-33, the portable version; arithmetic modulo 2^32. *)
Definition w32 (n : N) : N := N.modulo n 4294967296.
(** Also popcount.tpp 28-33. *)
Definition popcount_portable (n0 : N) : N :=
  let n1 := w32 (n0 + (4294967296 - N.land (N.shiftr n0 1) 1431655765)) in
  let n2 := w32 (N.land n1 858993459 + N.land (N.shiftr n1 2) 858993459) in
  N.shiftr (w32 (N.land (w32 (n2 + N.shiftr n2 4)) 252645135 * 16843009)) 24.

(** [contains], bitset_fixed_size.tpp 31-43 / bitset_variable_size.cpp 30-42: [i] runs up to [end]. *)
Fixpoint contains_loop (a b : words) (i n : nat) : res bool :=
  match n with
  | O => Ok true
  | S n' =>
      do x <- getw a i; do y <- getw b i;
      if N.eqb (N.land x y) y then contains_loop a b (S i) n' else Ok false
  end.
(** Also bitset_fixed_size.tpp 31-43  bitset_variable_size.cpp 30-42. *)
Definition bs_contains (a b : words) (max : nat) : res bool :=
  do e <- word_end max; contains_loop a b 0 e.

(** [equals], bitset_fixed_size.tpp 24-29 / bitset_variable_size.cpp 23-28. *)
Fixpoint equals_loop (a b : words) (i n : nat) : res bool :=
  match n with
  | O => Ok true
  | S n' =>
      do x <- getw a i; do y <- getw b i;
      if N.eqb x y then equals_loop a b (S i) n' else Ok false
  end.
(** Also bitset_fixed_size.tpp 24-29  bitset_variable_size.cpp 23-28. *)
Definition bs_equals (a b : words) (max : nat) : res bool :=
  do e <- word_end max; equals_loop a b 0 e.

(** [count], bitset_fixed_size.tpp 45-55 / bitset_variable_size.cpp 44-53. *)
Definition bs_count (a : words) (max : nat) : res nat :=
  do e <- word_end max;
  foldM (fun total i => do x <- getw a i; Ok (total + popcount x)) 0 (seq 0 e).

(** [merge], bitset_fixed_size.tpp 57-67 / bitset_variable_size.cpp 55-65. *)
Definition bs_merge (a b : words) (max : nat) : res words :=
  do e <- word_end max;
  foldM (fun r i => do x <- getw r i; do y <- getw b i; setw r i (N.lor x y)) a (seq 0 e).

(** [set], bitset_fixed_size.tpp 69-75 / bitset_variable_size.cpp 67-72. *)
Definition bs_set (a : words) (index : nat) : res words :=
  let mask := N.shiftl 1 (N.of_nat (index mod 32)) in
  do x <- getw a (index / 32); setw a (index / 32) (N.lor x mask).

(** [unionCount], bitset_fixed_size.tpp 77-89 / bitset_variable_size.cpp 74-85 ([total -=] on [size_t] never
    wraps since the common bits were just added twice). *)
Definition bs_unionCount (a b : words) (max : nat) : res nat :=
  do e <- word_end max;
  foldM (fun total i => do x <- getw a i; do y <- getw b i;
           Ok (total + popcount x + popcount y - popcount (N.land x y))) 0 (seq 0 e).

(** [unionContains], bitset_fixed_size.tpp 91-103 / bitset_variable_size.cpp 87-98. *)
Fixpoint unionContains_loop (a b inner : words) (i n : nat) : res bool :=
  match n with
  | O => Ok true
  | S n' =>
      do x <- getw a i; do y <- getw b i; do z <- getw inner i;
      if N.eqb (N.land (N.lor x y) z) z then unionContains_loop a b inner (S i) n' else Ok false
  end.
(** Also bitset_fixed_size.tpp 91-103  bitset_variable_size.cpp 87-98. *)
Definition bs_unionContains (a b inner : words) (max : nat) : res bool :=
  do e <- word_end max; unionContains_loop a b inner 0 e.
