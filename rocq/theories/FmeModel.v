(** * FmeModel: algorithm_fourier_motzkin_elimination.cpp over an arbitrary integer type. *)
From Coq Require Import List ZArith Arith Bool.
From Verif Require Import Base ListUtil ArithModel MatrixModel BitsetModel.
Import ListNotations.
Open Scope nat_scope.

Section Fme.
  Variable A : Arith.
  (** [std::sort] by a key: the positions in the order the sort leaves them, given the keys. *)
  Variable order : list nat -> list nat.
  Notation T := (num A).
  Notation row := (list (num A)).
  Notation matrix := (list (list (num A))).

  (** [std::all_of]. *)
  Fixpoint allM {X} (f : X -> res bool) (l : list X) : res bool :=
    match l with
    | [] => Ok true
    | x :: l' => do b <- f x; if b then allM f l' else Ok false
    end.

  (** [eliminateZeroColumns] (algorithm_fourier_motzkin_elimination.cpp 462-488). *)
  Definition m_zero_column_step (s : matrix * matrix * list nat) (col : nat) : res (matrix * matrix * list nat) :=
    let '(M, V, zc) := s in
    do z <- allM (fun r => do e <- get r col; Ok (a_eqi A e 0)) M;
    if z then
      do M' <- mapM (fun r => eraseM r col) M;
      do V' <- mapM (fun r => eraseM r col) V;
      Ok (M', V', zc ++ [col])
    else Ok s.
  (** Also algorithm_fourier_motzkin_elimination.cpp 462-488. *)
  Definition m_eliminate_zero_columns (M V : matrix) : res (matrix * matrix * list nat) :=
    do b <- back M; foldM m_zero_column_step (M, V, []) (rev (seq 0 (length b))).

  (** [reinsertZeroColumns] (algorithm_fourier_motzkin_elimination.cpp 490-501). *)
  Definition m_reinsert_zero_columns (M : matrix) (zc : list nat) : res matrix :=
    foldM (fun M col => mapM (fun r => insertM r col (a_lit A 0)) M) M (rev zc).

  (** Moving the used vertices to the front (algorithm_fourier_motzkin_elimination.cpp 89-97, 119-127). *)
  Definition m_take_used (V : matrix) (used : list nat) : res matrix :=
    do q <- foldM (fun s i => do v <- get (snd s) i; do r <- eraseM (snd s) i; Ok (fst s ++ [v], r)) ([], V) (rev used);
    Ok (fst q ++ snd q).

  (** [initializeR] (algorithm_fourier_motzkin_elimination.cpp 503-526): [empty] is [Bitset(vertices.size())]. *)
  Definition m_initialize_R (M V : matrix) (empty : words) : res (list words) :=
    mapM (fun r =>
      foldM (fun bits j => do v <- get V j; do s <- m_dot A r v; if a_lti A s 0 then bs_set bits j else Ok bits)
        empty (seq 0 (length M))) M.

  (** [getIndicesNZP(s)] (algorithm_fourier_motzkin_elimination.cpp 373-396). *)
  Definition m_indices_neg (s : row) : list nat :=
    filter (fun j => match nth_error s j with Some x => a_lti A x 0 | None => false end) (seq 0 (length s)).
  (** Also algorithm_fourier_motzkin_elimination.cpp 373-396. *)
  Definition m_indices_zero (s : row) : list nat :=
    filter (fun j => match nth_error s j with Some x => negb (a_lti A x 0) && a_eqi A x 0 | None => false end) (seq 0 (length s)).
  (** Also algorithm_fourier_motzkin_elimination.cpp 373-396. *)
  Definition m_indices_pos (s : row) : list nat :=
    filter (fun j => match nth_error s j with Some x => negb (a_lti A x 0) && negb (a_eqi A x 0) | None => false end) (seq 0 (length s)).
  (** Sorting the zero indices by [R[a].count(max)] (algorithm_fourier_motzkin_elimination.cpp 398-405). *)
  Definition m_sort_zero (R : list words) (max : nat) (zeros : list nat) : res (list nat) :=
    do keys <- mapM (fun j => do b <- get R j; bs_count b max) zeros;
    mapM (fun i => get zeros i) (order keys).

  (** [pnrIteration] (algorithm_fourier_motzkin_elimination.cpp 256-282): list of (index_n, index_p, bits). *)
  Definition pnr_t := (nat * nat * words)%type.
  (** Also algorithm_fourier_motzkin_elimination.cpp 256-282. *)
  Fixpoint m_pnr_scan (pnrs : list pnr_t) (u : words) (max : nat) : res (option (list pnr_t)) :=
    match pnrs with
    | [] => Ok (Some [])
    | q :: pnrs' =>
        do c <- bs_contains u (snd q) max;
        if c then Ok None
        else
          do c' <- bs_contains (snd q) u max;
          do rest <- m_pnr_scan pnrs' u max;
          match rest with
          | None => Ok None
          | Some l => Ok (Some (if c' then l else q :: l))
          end
    end.
  (** Also algorithm_fourier_motzkin_elimination.cpp 256-282. *)
  Definition m_pnr_iteration (pnrs : list pnr_t) (index_n index_p : nat) (u : words) (max : nat) : res (list pnr_t) :=
    do r <- m_pnr_scan pnrs u max;
    match r with
    | None => Ok pnrs
    | Some kept => Ok ((index_n, index_p, u) :: kept)
    end.

  (** [updateSystem] (algorithm_fourier_motzkin_elimination.cpp 407-446). *)
  Definition m_combine (M : matrix) (s : row) (q : pnr_t) : res row :=
    let '(index_n, index_p, _) := q in
    do sp <- get s index_p; do rn <- get M index_n;
    do sn <- get s index_n; do rp <- get M index_p;
    do x <- m_row_mul A rn sp; do y <- m_row_mul A rp sn;
    do r <- m_row_sub A x y;
    m_row_reduce A r.
  (** Also algorithm_fourier_motzkin_elimination.cpp 407-446. *)
  Definition m_update_system (M : matrix) (R : list words) (i : nat) (negs zeros : list nat) (s : row) (pnrs : list pnr_t)
    : res (matrix * list words) :=
    do zrows <- mapM (fun z => get M z) zeros;
    do zbits <- mapM (fun z => get R z) zeros;
    do nrows <- mapM (fun n => get M n) negs;
    do nbits <- mapM (fun n => do b <- get R n; bs_set b i) negs;
    do prows <- mapM (m_combine M s) pnrs;
    Ok (zrows ++ nrows ++ prows, zbits ++ nbits ++ map snd pnrs).

  (** [projection] (algorithm_fourier_motzkin_elimination.cpp 284-315, with [countCheck] 241-245 and [containmentCheck] 247-254), the pair loop. *)
  Definition m_pair (max_count index : nat) (R : list words) (zeros : list nat) (pnrs : list pnr_t) (index_n index_p : nat)
    : res (list pnr_t) :=
    do Rn <- get R index_n; do Rp <- get R index_p;
    do c <- bs_unionCount Rn Rp index;
    if c <=? max_count then
      do ok <- allM (fun z => do Rz <- get R z; do b <- bs_unionContains Rn Rp Rz index; Ok (negb b)) zeros;
      if ok then do u <- bs_merge Rn Rp index; m_pnr_iteration pnrs index_n index_p u index
      else Ok pnrs
    else Ok pnrs.
  (** [max_count = index + 2 - d]; [d <= index]. *)
  Definition m_projection (M : matrix) (R : list words) (vertex : row) (index : nat) : res (matrix * list words) :=
    let d := length vertex in
    let max_count := index + 2 - d in
    do s <- m_mat_vec A M vertex;
    let negs := m_indices_neg s in
    do zeros <- m_sort_zero R index (m_indices_zero s);
    let poss := m_indices_pos s in
    do pnrs <- foldM (fun acc n => foldM (fun acc' p => m_pair max_count index R zeros acc' n p) acc poss) [] negs;
    m_update_system M R index negs zeros s pnrs.

  (** [detectBadRow] (algorithm_fourier_motzkin_elimination.cpp 317-333): after an erasure the next row is skipped ([++j]). *)
  Definition m_bad_row (r : row) : res bool :=
    let possible := forallb (fun x => a_eqi A x 0) (firstn (length r - 1) r) in
    if possible then do b <- back r; Ok (a_eqi A b (-1)) else Ok false.
  (** Also algorithm_fourier_motzkin_elimination.cpp 317-333. *)
  Fixpoint m_detect_bad_row (M : matrix) : res matrix :=
    match M with
    | [] => Ok []
    | r :: M' =>
        do b <- m_bad_row r;
        if b then
          match M' with
          | [] => Ok []
          | r' :: M'' => do rest <- m_detect_bad_row M''; Ok (r' :: rest)
          end
        else do rest <- m_detect_bad_row M'; Ok (r :: rest)
    end.

  (** [phaseTwo] (algorithm_fourier_motzkin_elimination.cpp 335-352). *)
  Definition m_phase_two (M V : matrix) (empty : words) : res matrix :=
    do b <- back M;
    let d := length b in
    do R <- m_initialize_R M V empty;
    do q <- foldM (fun s i => do v <- get V i; m_projection (fst s) (snd s) v i) (M, R) (seq d (length V - d));
    m_detect_bad_row (fst q).

  (** [phaseTwoDispatch] (algorithm_fourier_motzkin_elimination.cpp 146-224): the number of words of the chosen bitset. *)
  Definition bitset_sizes : list nat := [1; 2; 3; 4; 6; 8; 10; 12; 16; 20; 30; 40; 50; 75; 100; 150; 200].
  (** Also algorithm_fourier_motzkin_elimination.cpp 146-224. *)
  Definition m_phase_two_dispatch (M V : matrix) : res matrix :=
    do bitset_size <- word_end (length V);
    match find (fun k => bitset_size <=? k) bitset_sizes with
    | Some k => m_phase_two M V (bs_fixed k)
    | None => do e <- bs_variable (length V); m_phase_two M V e
    end.

  (** [extractFacets] (algorithm_fourier_motzkin_elimination.cpp 226-239). *)
  Definition m_extract_facets (M V : matrix) (start : nat) : res matrix :=
    do l <- mapM (fun r => do ok <- allM (fun v => do s <- m_dot A r v; Ok (a_lei A s 0)) (skipn start V); Ok (r, ok)) M;
    Ok (map fst (filter snd l)).

  (** [phaseTwoHeuristic] (algorithm_fourier_motzkin_elimination.cpp 354-371). *)
  Fixpoint m_heuristic_loop (M V : matrix) (R : list words) (is : list nat) : res matrix :=
    match is with
    | [] => Ok M
    | i :: is' =>
        do f <- m_extract_facets M V i;
        do facets <- m_detect_bad_row f;
        match facets with
        | [] => do v <- get V i; do q <- m_projection M R v i; m_heuristic_loop (fst q) V (snd q) is'
        | _ => Ok facets
        end
    end.
  (** Also algorithm_fourier_motzkin_elimination.cpp 354-371. *)
  Definition m_phase_two_heuristic (M V : matrix) : res matrix :=
    let d := length M in
    do e <- bs_variable (length V);
    do R <- m_initialize_R M V e;
    m_heuristic_loop M V R (seq d (length V - d)).

  (** The common first part (algorithm_fourier_motzkin_elimination.cpp 73-97, 103-127): initial matrix, reordered vertices, eliminated columns. *)
  Definition m_prepare (V : matrix) : res (matrix * matrix * list nat) :=
    do St <- m_append_negative_identity A V;
    do q <- m_gaussian_elimination A St;
    let '(M1, L, Tr) := q in
    do B <- m_transpose A (skipn (length V) M1);
    do r <- m_extract_equations_at A B (sort_nat_desc L);
    do z <- m_eliminate_zero_columns (snd r) V;
    let '(M, V', zc) := z in
    do W <- m_take_used V' Tr;
    Ok (M, W, zc).

  (** [fourierMotzkinElimination] (algorithm_fourier_motzkin_elimination.cpp 73-101). *)
  Definition m_fme (V : matrix) : res matrix :=
    do p <- m_prepare V;
    let '(M, W, zc) := p in
    do F <- m_phase_two_dispatch M W;
    m_reinsert_zero_columns F zc.

  (** [fourierMotzkinEliminationHeuristic] (algorithm_fourier_motzkin_elimination.cpp 103-131). *)
  Definition m_fme_heuristic (V : matrix) : res matrix :=
    do p <- m_prepare V;
    let '(M, W, zc) := p in
    do F <- m_phase_two_heuristic M W;
    m_reinsert_zero_columns F zc.
End Fme.
