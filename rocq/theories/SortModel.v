(** * SortModel: the order of the input rows (option "-s"), input.cpp.

    Rows are vectors of [int]; only comparisons of entries are involved, so they are modelled as integers. *)
From Coq Require Import List ZArith Arith Bool.
From Verif Require Import Base Spec.
Import ListNotations.
Open Scope Z_scope.

(** [InputOrder] (input_order.h). *)
Inductive input_order := LexicographicAscending | LexicographicDescending | NonZeroEntriesAscending | NonZeroEntriesDescending | Reverse | NoSorting.

(** [operator<] of two rows: std::lexicographical_compare. *)
Fixpoint row_lt (a b : vec) : bool :=
  match a, b with
  | _, [] => false
  | [], _ :: _ => true
  | x :: a', y :: b' => if x <? y then true else if y <? x then false else row_lt a' b'
  end.
(** [std::count(a.cbegin(), a.cend(), 0)]. *)
Definition zero_entries (a : vec) : nat := length (filter (Z.eqb 0) a).
(** The comparisons of [sort] (input.cpp 398-407, 412-421). *)
Definition nz_ascending_lt (a b : vec) : bool :=
  if negb (zero_entries a =? zero_entries b)%nat then (zero_entries b <? zero_entries a)%nat else row_lt a b.
(** input.cpp 412-421. *)
Definition nz_descending_lt (a b : vec) : bool :=
  if negb (zero_entries a =? zero_entries b)%nat then (zero_entries a <? zero_entries b)%nat else row_lt a b.

(** [std::sort]: its result is a permutation of the range that is ascending with respect to the comparison.  The theorems show that there is only one
    (rows that are equivalent for the comparison are equal), so any sorting algorithm is a faithful model of the library's; here insertion sort. *)
Fixpoint insert_row (lt : vec -> vec -> bool) (x : vec) (M : list vec) : list vec :=
  match M with
  | [] => [x]
  | y :: M' => if lt y x then y :: insert_row lt x M' else x :: M
  end.
(** [std::sort] (insertion sort). *)
Definition std_sort (lt : vec -> vec -> bool) (M : list vec) : list vec := fold_right (insert_row lt) [] M.

(** [sort] (input.cpp 381-434); sorting the range rbegin()..rend() sorts the reversed sequence. *)
Definition m_sort (order : input_order) (M : list vec) : list vec :=
  match order with
  | LexicographicAscending => std_sort row_lt M
  | LexicographicDescending => rev (std_sort row_lt (rev M))
  | NonZeroEntriesAscending => std_sort nz_ascending_lt M
  | NonZeroEntriesDescending => std_sort nz_descending_lt M
  | Reverse => rev M
  | NoSorting => M
  end.
