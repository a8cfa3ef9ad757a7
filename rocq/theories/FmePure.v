(** * FmePure: facet enumeration by Fourier-Motzkin elimination over exact integers.

    Exact-arithmetic counterpart of algorithm_fourier_motzkin_elimination.cpp.  The executable model in which
    every container access is checked and the integer type is a parameter is FmeModel.v; it is proved there to
    compute the functions below. *)
From Coq Require Import List ZArith NArith Lia Bool Arith Permutation.
From Verif Require Import Spec LinAlg Cone Bits ListUtil FmeCore Gauss.
Import ListNotations.
Open Scope Z_scope.

(** [transpose] of a matrix with [n] columns (algorithm_matrix_operations.cpp 52-65). *)
Definition transpose (n : nat) (M : list vec) : list vec := map (fun j => colv j M) (seq 0 n).

(** [std::swap(l[i], l[j])]. *)
Definition swap {A} (d : A) (l : list A) (i j : nat) : list A := upd (upd l i (nth j l d)) j (nth i l d).

(** [std::sort(indices.rbegin(), indices.rend())]: descending order of distinct indices. *)
Fixpoint insert_desc (x : nat) (l : list nat) : list nat :=
  match l with
  | [] => [x]
  | y :: l' => if (y <=? x)%nat then x :: l else y :: insert_desc x l'
  end.
Definition sort_desc (l : list nat) : list nat := fold_right insert_desc [] l.

(** [extractEquations(matrix, indices)] (algorithm_matrix_operations.cpp 190-202): the extracted rows and the
    remaining matrix. *)
Definition extract_rows (M : list vec) (idx : list nat) : list vec * list vec :=
  let M' := fold_left (fun M i => swap (A:=vec) [] M (nth i idx 0%nat) (length M - 1 - i)) (seq 0 (length idx)) M in
  (rev (skipn (length M - length idx) M'), firstn (length M - length idx) M').

(** Column indices of the equations, row indices of the used vertices ([L], [T] of [gaussianElimination]). *)
Definition eq_columns (t : nat) (piv : list (nat * nat)) : list nat :=
  map snd (filter (fun p => (t <=? fst p)%nat) piv).
Definition used_rows (t : nat) (piv : list (nat * nat)) : list nat :=
  map fst (filter (fun p => (fst p <? t)%nat) piv).

(** [eliminateZeroColumns] (algorithm_fourier_motzkin_elimination.cpp 462-488). *)
Definition zero_col_step (s : list vec * list vec * list nat) (col : nat) : list vec * list vec * list nat :=
  let '(M, V, zc) := s in
  if forallb (fun r => nth col r 0 =? 0) M
  then (map (erase col) M, map (erase col) V, zc ++ [col])
  else s.
Definition eliminate_zero_columns (n : nat) (M V : list vec) : list vec * list vec * list nat :=
  fold_left zero_col_step (rev (seq 0 n)) (M, V, []).

(** [reinsertZeroColumns] (490-501). *)
Definition reinsert_zero_columns (zc : list nat) (M : list vec) : list vec :=
  fold_left (fun M col => map (insert_at col 0) M) (rev zc) M.

(** Moving the vertices used by the elimination to the front (89-97). *)
Definition use_step (s : list vec * list vec) (i : nat) : list vec * list vec :=
  (fst s ++ [nth i (snd s) []], erase i (snd s)).
Definition take_used (V : list vec) (T : list nat) : list vec :=
  let '(used, rest) := fold_left use_step (rev T) ([], V) in
  used ++ rest.

(** [initializeR] (503-526), one bitset. *)
Definition initial_bits (row : vec) (W : list vec) (d : nat) : N :=
  fold_left (fun b j => if dot row (nth j W []) <? 0 then N.setbit b (N.of_nat j) else b) (seq 0 d) 0%N.
Definition initial_system (M W : list vec) : list entry :=
  map (fun row => (row, initial_bits row W (length M))) M.

(** [detectBadRow] (317-333): after an erasure the loop skips the following row. *)
Definition bad_row (row : vec) : bool :=
  forallb (fun x => x =? 0) (removelast row) && (last row 0 =? -1).
Fixpoint detect_bad_row (M : list vec) : list vec :=
  match M with
  | [] => []
  | row :: M' =>
      if bad_row row
      then match M' with [] => [] | row' :: M'' => row' :: detect_bad_row M'' end
      else row :: detect_bad_row M'
  end.

(** [extractFacets] (226-239). *)
Definition extract_facets (M W : list vec) (start : nat) : list vec :=
  filter (fun row => forallb (fun v => dot row v <=? 0) (skipn start W)) M.

(** The common first part of both enumerations (73-97): the equations, the initial matrix, the reordered
    vertices and the eliminated columns. *)
Record prepared := mk_prepared {
  p_eqs : list vec;
  p_matrix : list vec;
  p_vertices : list vec;
  p_zero : list nat }.

Definition prepare (n : nat) (V : list vec) : prepared :=
  let '(M, piv) := gauss n V in
  let B := transpose n (skipn (length V) M) in
  let '(eqs, rest) := extract_rows B (sort_desc (eq_columns (length V) piv)) in
  let '(M', V', zc) := eliminate_zero_columns n rest V in
  mk_prepared eqs M' (take_used V' (used_rows (length V) piv)) zc.

Section Sort.
  (** [std::sort] by a key: the positions in the order the sort puts them, given the keys. *)
  Variable order : list nat -> list nat.

  Definition zsort_of (l : list entry) : list entry :=
    map (fun i => nth i l ([], 0%N)) (order (map (fun e => popcountN (snd e)) l)).

  (** All rows after the last projection, before [detectBadRow]. *)
  Definition fme_rows (p : prepared) : list vec :=
    let d := length (p_matrix p) in
    map fst (projects zsort_of d d (initial_system (p_matrix p) (p_vertices p)) (skipn d (p_vertices p))).

  (** [fourierMotzkinElimination]. *)
  Definition fme (n : nat) (V : list vec) : list vec :=
    let p := prepare n V in
    reinsert_zero_columns (p_zero p) (detect_bad_row (fme_rows p)).

  (** [phaseTwoHeuristic] (354-371): [ws] are the vertices still to be processed. *)
  Fixpoint heuristic_loop (d i : nat) (sys : list entry) (ws : list vec) : list vec :=
    match ws with
    | [] => map fst sys
    | w :: ws' =>
        let facets := detect_bad_row (filter (fun row => forallb (fun v => dot row v <=? 0) ws) (map fst sys)) in
        match facets with
        | [] => heuristic_loop d (S i) (project zsort_of d i sys w) ws'
        | _ => facets
        end
    end.

  Definition fme_heuristic (n : nat) (V : list vec) : list vec :=
    let p := prepare n V in
    let d := length (p_matrix p) in
    reinsert_zero_columns (p_zero p)
      (heuristic_loop d d (initial_system (p_matrix p) (p_vertices p)) (skipn d (p_vertices p))).
End Sort.

(** [extractEquations(matrix)] (algorithm_matrix_operations.cpp 174-188). *)
Definition equations_of (n : nat) (V : list vec) : list vec :=
  let '(M, piv) := gauss n V in
  fst (extract_rows (transpose n (skipn (length V) M)) (sort_desc (eq_columns (length V) piv))).
