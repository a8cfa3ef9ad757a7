(** * VertexAdModel: vertex enumeration by adjacency decomposition, the default method for files of inequalities, from the rows to the printed text
    (method_adjacency_decomposition_implementation.cpp 50-168 with tag::vertex, list.cpp 60-81) on one node. *)
From Coq Require Import List ZArith Arith Bool Ascii String.
From Verif Require Import Base Spec ListUtil ArithModel MatrixModel FmeModel SafeIntModel IntTypes ClassesModel StreamModel OutputModel RotationModel ListModel AdModel.
Import ListNotations.
Open Scope list_scope.

Section Representatives.
Variable t : int_type.
(** The loop with [classRepresentative] (method_adjacency_decomposition_implementation.cpp 144-148); [None] if some class is not finished within [fuel] rounds. *)
Fixpoint m_vertex_representatives (fuel : nat) (maps : list lmap) (rows : list vec) : res (option (list vec)) :=
  match rows with
  | [] => Ok (Some [])
  | r :: rows' =>
      do x <- m_representative (arith t) fuel Vertex_tag maps r;
      match x with
      | None => Ok None
      | Some x =>
          do xs <- m_vertex_representatives fuel maps rows';
          match xs with
          | None => Ok None
          | Some xs => Ok (Some (x :: xs))
          end
      end
  end.
End Representatives.

(** The known rows as they are put (method_adjacency_decomposition_implementation.cpp 138-140 and 153-158); there are no equations (121-126, 167-170), so that normalising only divides by the gcd. *)
Definition m_vad_known (t : int_type) (fuel : nat) (maps : list lmap) (known : list vec) : res (option (list vec)) :=
  do rows <- mapM (fun r => m_normalize (arith t) r []) known;
  m_vertex_representatives t fuel maps rows.
(** The rows the asynchronous task puts (method_adjacency_decomposition_implementation.cpp 151-159); an exception ends it unseen, as in [m_ad_added]. *)
Definition m_vad_added (t : int_type) (fuel : nat) (maps : list lmap) (known added : list vec) : Prop :=
  exists k, m_vad_known t fuel maps (firstn k known) = Ok (Some added) /\ (length known <= k \/ m_vad_known t fuel maps (firstn (S k) known) = Throw).
(** The rows put by [initializationOnMaster] before the threads start (method_adjacency_decomposition_implementation.cpp 136-149). *)
Definition m_vad_start (t : int_type) (order : list nat -> list nat) (fuel : nat) (inequalities : list vec) (maps : list lmap) (known : list vec) : res (option (list vec)) :=
  match known with
  | r :: _ => m_vad_known t fuel maps [r]
  | [] => do rows <- m_fme_heuristic (arith t) order inequalities; m_vertex_representatives t fuel maps rows
  end.

(** The rows put after a row has been processed (method_adjacency_decomposition_implementation.cpp 75-76). *)
Definition m_vad_neighbours (t : int_type) (order : list nat -> list nat) (fuel : nat) (inequalities : list vec) (maps : list lmap) (r : vec) : list vec :=
  match m_rotation (arith t) order fuel inequalities r maps Vertex_tag with
  | Ok (Some l) => l
  | _ => []
  end.
(** Processing a row succeeds (the same lines). *)
Definition m_vad_processed (t : int_type) (order : list nat -> list nat) (fuel : nat) (inequalities : list vec) (maps : list lmap) (r : vec) : Prop :=
  exists l : list vec, m_rotation (arith t) order fuel inequalities r maps Vertex_tag = Ok (Some l).

(** The lines of new rows: [std::cout << row << '\n'] (list.cpp 75, algorithm_row_operations.cpp 24-42). *)
Definition m_raw_lines (t : int_type) (rows : list vec) : prints := for_all (fun v => calc (m_cast t v) (fun r => say (m_print_row r ++ end_line))) rows.
(** The title (method_adjacency_decomposition_implementation.cpp 129-133, 169). *)
Definition m_vad_title (maps : list lmap) : text := m_reduced (nonempty maps) ++ lit "Vertices / Rays:" ++ end_line.

(** The program prints [out] and ends, as in [m_ad_run]; [reduce] returns the maps as they are and no equations (method_adjacency_decomposition_implementation.cpp 121-126). *)
Definition m_vad_run (t : int_type) (order : list nat -> list nat) (fuel threads : nat) (inequalities : list vec) (maps : list lmap) (known : list vec) (s : state) (out : text) : Prop :=
  exists start added ls lines,
    m_vad_start t order fuel inequalities maps known = Ok (Some start) /\
    m_vad_added t fuel maps known added /\
    run (m_vad_neighbours t order fuel inequalities maps) (initial start added threads 0) ls s /\ terminated s /\
    (forall r, In r (handed (sh s)) -> m_vad_processed t order fuel inequalities maps r) /\
    m_raw_lines t (printed (sh s)) = say lines /\
    out = m_vad_title maps ++ lines.
