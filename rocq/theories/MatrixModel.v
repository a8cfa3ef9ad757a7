(** * MatrixModel: algorithm_matrix_operations.cpp over an arbitrary integer type. *)
From Coq Require Import List ZArith Arith Bool.
From Verif Require Import Base ListUtil ArithModel.
Import ListNotations.
Open Scope nat_scope.

(** [std::swap(m[i], m[j])]. *)
Definition swapM {A} (l : list A) (i j : nat) : res (list A) :=
  do x <- get l i; do y <- get l j; do l1 <- set l i y; set l1 j x.

(** [std::sort(indices.rbegin(), indices.rend())]: descending order (insertion sort; the indices are integers, so
    every sorting algorithm gives this result). *)
Fixpoint insert_nat_desc (x : nat) (l : list nat) : list nat :=
  match l with
  | [] => [x]
  | y :: l' => if y <=? x then x :: l else y :: insert_nat_desc x l'
  end.
(** [std::sort(indices.rbegin(), indices.rend())]. *)
Definition sort_nat_desc (l : list nat) : list nat := fold_right insert_nat_desc [] l.

Section Ops.
  Variable A : Arith.
  Notation T := (num A).
  Notation row := (list (num A)).
  Notation matrix := (list (list (num A))).

  (** [m[i][j]]. *)
  Definition m_at (M : matrix) (i j : nat) : res T := do r <- get M i; get r j.

  (** [matrix * vector] (algorithm_matrix_operations.cpp 40-50). *)
  Definition m_mat_vec (M : matrix) (v : row) : res row := mapM (fun r => m_dot A r v) M.

  (** [transpose] (algorithm_matrix_operations.cpp 52-65); the result is built row by row instead of being filled in place. *)
  Definition m_transpose (M : matrix) : res matrix :=
    do b <- back M;
    mapM (fun i => mapM (fun j => m_at M j i) (seq 0 (length M))) (seq 0 (length b)).

  (** [appendNegativeIdentityMatrix] (algorithm_matrix_operations.cpp 161-172). *)
  Definition m_append_negative_identity (M : matrix) : res matrix :=
    do b <- back M;
    do rows <- mapM (fun i => set (repeat (a_lit A 0) (length b)) i (a_lit A (-1))) (seq 0 (length b));
    Ok (M ++ rows).

  (** [normalizeColumn] (algorithm_matrix_operations.cpp 206-222). *)
  Definition m_normalize_column (M : matrix) (column : nat) : res matrix :=
    do g <- foldM (fun g j => do e <- m_at M j column; m_gcd A g e) (a_lit A 0) (seq 0 (length M));
    if a_gti A g 1
    then for_each (fun r => do e <- get r column; do q <- a_div A e g; set r column q) M
    else Ok M.

  (** [eliminateColumn] (algorithm_matrix_operations.cpp 224-235). *)
  Definition m_eliminate_column (M : matrix) (row col ecol : nat) : res matrix :=
    do x <- m_at M row col;
    do a <- a_neg A x;
    do b <- m_at M row ecol;
    for_each (fun r =>
      do e <- get r ecol; do e1 <- a_mul A e a; do r1 <- set r ecol e1;
      do c <- get r1 col; do p <- a_mul A c b;
      do e' <- get r1 ecol; do e2 <- a_add A e' p; set r1 ecol e2) M.

  (** [eliminateColumns] (algorithm_matrix_operations.cpp 238-254). *)
  Definition m_eliminate_columns (M : matrix) (row col : nat) : res matrix :=
    do bk <- back M;
    foldM (fun M i =>
      do b <- m_at M row i;
      if negb (i =? col) && negb (a_eqi A b 0)
      then do M1 <- m_eliminate_column M row col i; m_normalize_column M1 i
      else Ok M) M (seq 0 (length bk)).

  (** [pivot] (algorithm_matrix_operations.cpp 257-285).  [std::binary_search] in the sorted vector of used columns is membership. *)
  Fixpoint m_pivot_col (M : matrix) (row : nat) (used cols : list nat) : res (option nat) :=
    match cols with
    | [] => Ok None
    | c :: cols' =>
        do e <- m_at M row c;
        if negb (a_eqi A e 0) && negb (existsb (Nat.eqb c) used) then Ok (Some c)
        else m_pivot_col M row used cols'
    end.
  (** Also algorithm_matrix_operations.cpp 257-285. *)
  Fixpoint m_pivot_rows (M : matrix) (used : list nat) (col_size : nat) (rows : list nat) : res (nat * nat) :=
    match rows with
    | [] => Ok (length M, col_size)
    | r :: rows' =>
        do c <- m_pivot_col M r used (seq 0 col_size);
        match c with
        | Some c => Ok (r, c)
        | None => m_pivot_rows M used col_size rows'
        end
    end.
  (** Result row and column, and the new list of used columns. *)
  Definition m_pivot (M : matrix) (iteration : nat) (used : list nat) : res (nat * nat * list nat) :=
    do b <- back M;
    do p <- m_pivot_rows M used (length b) (seq iteration (length M - iteration));
    Ok (p, used ++ [snd p]).

  (** [gaussianElimination] (algorithm_matrix_operations.cpp 116-159), main loop (127-144); [fuel] bounds the number of remaining rows. *)
  Fixpoint m_gauss_loop (fuel t row : nat) (M : matrix) (used L Tr : list nat) : res (matrix * list nat * list nat) :=
    match fuel with
    | O => Ok (M, L, Tr)
    | S fuel' =>
        if row <? length M then
          do q <- m_pivot M row used;
          let '(prow, col, used') := q in
          if prow =? length M then Ok (M, L, Tr)
          else
            do M' <- m_eliminate_columns M prow col;
            if t <=? prow then m_gauss_loop fuel' t (S prow) M' used' (L ++ [col]) Tr
            else m_gauss_loop fuel' t (S prow) M' used' L (Tr ++ [prow])
        else Ok (M, L, Tr)
    end.
  (** The loop giving every column a positive first entry (algorithm_matrix_operations.cpp 145-157); [*std::find_if] at the end is [UB]. *)
  Fixpoint m_find_nonzero (rows : matrix) (col : nat) : res row :=
    match rows with
    | [] => UB
    | r :: rows' => do e <- get r col; if negb (a_eqi A e 0) then Ok r else m_find_nonzero rows' col
    end.
  (** Also algorithm_matrix_operations.cpp 145-157. *)
  Definition m_sign_column (M : matrix) (col : nat) : res matrix :=
    do p <- m_find_nonzero M col;
    do e <- get p col;
    if a_lti A e 0
    then for_each (fun r => do x <- get r col; do y <- a_mul A x (a_lit A (-1)); set r col y) M
    else Ok M.
  (** Matrix, equation columns [L], used rows [T].  [t] wraps in C++ if there are fewer rows than columns; the
      callers append an identity, so it does not, and [UB] stands for that case. *)
  Definition m_gaussian_elimination (M : matrix) : res (matrix * list nat * list nat) :=
    do b <- back M;
    if length M <? length b then UB else
    do q <- m_gauss_loop (length M) (length M - length b) 0 M [] [] [];
    let '(M1, L, Tr) := q in
    do M2 <- foldM m_sign_column M1 (seq 0 (length b));
    Ok (M2, L, Tr).

  (** [extractEquations(matrix, indices)] (algorithm_matrix_operations.cpp 190-202): equations and remaining matrix. *)
  Definition m_extract_equations_at (M : matrix) (indices : list nat) : res (matrix * matrix) :=
    do M' <- foldM (fun M i => do k <- get indices i;
                if length M <? 1 + i then UB else swapM M k (length M - 1 - i)) M (seq 0 (length indices));
    if length M' <? length indices then UB
    else Ok (firstn (length indices) (rev M'), firstn (length M' - length indices) M').

  (** [extractEquations(matrix)] (algorithm_matrix_operations.cpp 174-188). *)
  Definition m_extract_equations (M : matrix) : res matrix :=
    do St <- m_append_negative_identity M;
    do q <- m_gaussian_elimination St;
    let '(M1, L, _) := q in
    do B <- m_transpose (skipn (length M) M1);
    do r <- m_extract_equations_at B (sort_nat_desc L);
    Ok (fst r).

  (** [dimension] (algorithm_matrix_operations.cpp 78-114).  [kept] are the rows before position [i] with their pivot columns. *)
  Definition m_dim_reduce (row : row) (kept : list (list T * nat)) : res (list T) :=
    foldM (fun r k =>
      let '(p, piv) := k in
      do x <- get r piv;
      if negb (a_eqi A x 0) then
        do y <- get p piv;
        do f <- a_neg A y;
        do r1 <- m_row_mul A r f;
        do s <- m_row_mul A p x;
        do r2 <- m_row_add A r1 s;
        m_row_reduce A r2
      else Ok r) row kept.
  (** Erasing the row and decrementing [i] (modulo 2^64) followed by [++i] continues with the next row. *)
  Fixpoint m_dim_loop (rows : matrix) (kept : list (list T * nat)) : res nat :=
    match rows with
    | [] => Ok (length kept)
    | r :: rows' =>
        do r' <- m_dim_reduce r kept;
        let j := m_first_nonzero A r' in
        if j <? length r' then m_dim_loop rows' (kept ++ [(r', j)]) else m_dim_loop rows' kept
    end.
  (** algorithm_matrix_operations.cpp 78-114. *)
  Definition m_dimension (M : matrix) : res nat := m_dim_loop M [].
End Ops.
