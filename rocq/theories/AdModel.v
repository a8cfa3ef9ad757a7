(** * AdModel: facet enumeration by adjacency decomposition from the rows to the printed text
    (method_adjacency_decomposition_implementation.cpp 50-168, list.cpp 60-80) on one node. *)
From Coq Require Import List ZArith Arith Bool Ascii String.
From Verif Require Import Base Spec ListUtil ArithModel MatrixModel FmeModel SafeIntModel IntTypes ClassesModel MapModel StreamModel OutputModel RotationModel ListModel.
Import ListNotations.
Open Scope list_scope.

Section Representatives.
Variable t : int_type.
(** [std::transform] with [classRepresentative]; [None] if some class is not finished within [fuel] rounds. *)
Fixpoint m_representatives (fuel : nat) (maps : list lmap) (rows : list vec) : res (option (list vec)) :=
  match rows with
  | [] => Ok (Some [])
  | r :: rows' =>
      do x <- m_representative (arith t) fuel Facet_tag maps r;
      match x with
      | None => Ok None
      | Some x =>
          do xs <- m_representatives fuel maps rows';
          match xs with
          | None => Ok None
          | Some xs => Ok (Some (x :: xs))
          end
      end
  end.
End Representatives.

(** [reduce] for facets (method_adjacency_decomposition_implementation.cpp 93-107), without the printing: the equations and the maps; the maps are normalised only if there are equations. *)
Definition m_ad_reduce (t : int_type) (vertices : list vec) (maps : list lmap) : res (list vec * list lmap) :=
  do equations <- m_extract_equations (arith t) vertices;
  match equations with
  | [] => Ok ([], maps)
  | _ => do reduced <- m_normalize_maps t equations maps; Ok (equations, reduced)
  end.

(** The known rows as they are put (method_adjacency_decomposition_implementation.cpp 138-140 and 153-158): normalised and replaced by their representatives. *)
Definition m_ad_known (t : int_type) (fuel : nat) (equations : list vec) (maps : list lmap) (known : list vec) : res (option (list vec)) :=
  do rows <- mapM (fun r => m_normalize (arith t) r equations) known;
  m_representatives t fuel maps rows.
(** The rows the asynchronous task puts (method_adjacency_decomposition_implementation.cpp 151-159): an exception ends the task; it is stored in the future, on which only
    [wait] is called (line 80), so that it is never seen and the remaining known rows are not put. *)
Definition m_ad_added (t : int_type) (fuel : nat) (equations : list vec) (maps : list lmap) (known added : list vec) : Prop :=
  exists k, m_ad_known t fuel equations maps (firstn k known) = Ok (Some added) /\ (length known <= k \/ m_ad_known t fuel equations maps (firstn (S k) known) = Throw).
(** The rows put by [initializationOnMaster] before the threads start (method_adjacency_decomposition_implementation.cpp 136-149). *)
Definition m_ad_start (t : int_type) (order : list nat -> list nat) (fuel : nat) (vertices equations : list vec) (maps : list lmap) (known : list vec) : res (option (list vec)) :=
  match known with
  | r :: _ => m_ad_known t fuel equations maps [r]
  | [] => do rows <- m_fme_heuristic (arith t) order vertices; m_representatives t fuel maps rows
  end.

(** The rows put after a row has been processed (method_adjacency_decomposition_implementation.cpp 75-76). *)
Definition m_ad_neighbours (t : int_type) (order : list nat -> list nat) (fuel : nat) (vertices : list vec) (maps : list lmap) (r : vec) : list vec :=
  match m_rotation (arith t) order fuel vertices r maps Facet_tag with
  | Ok (Some l) => l
  | _ => []
  end.
(** Processing a row succeeds. *)
Definition m_ad_processed (t : int_type) (order : list nat -> list nat) (fuel : nat) (vertices : list vec) (maps : list lmap) (r : vec) : Prop :=
  exists l : list vec, m_rotation (arith t) order fuel vertices r maps Facet_tag = Ok (Some l).

(** The equations section printed by [reduce] (method_adjacency_decomposition_implementation.cpp 110-119). *)
Definition m_ad_equations (t : int_type) (names : list text) (equations : list vec) : prints :=
  match equations with
  | [] => say []
  | _ => andthen (say (lit "Equations:" ++ end_line)) (andthen (m_pretty_matrix t names "=" equations) (say end_line))
  end.

(** The program prints [out] and ends: there is an interleaving of [threads] worker threads, the main thread and the task that adds the known rows, in which no row that is
    processed fails, at whose end all threads have stopped; the lines of the new rows appear in the order of their insertion into the list, as printing is done by [put] while
    the mutex is held.  (The insertion of the empty row without the mutex is taken to be atomic: see C13 for the race.) *)
Definition m_ad_run (t : int_type) (order : list nat -> list nat) (fuel threads : nat) (vertices : list vec) (names : list text) (maps : list lmap) (known : list vec)
    (s : state) (out : text) : Prop :=
  exists equations reduced start added ls head lines,
    m_ad_reduce t vertices maps = Ok (equations, reduced) /\
    m_ad_start t order fuel vertices equations reduced known = Ok (Some start) /\
    m_ad_added t fuel equations reduced known added /\
    run (m_ad_neighbours t order fuel vertices reduced) (initial start added threads 0) ls s /\ terminated s /\
    (forall r, In r (handed (sh s)) -> m_ad_processed t order fuel vertices reduced r) /\
    m_ad_equations t names equations = say head /\ m_pretty_matrix t names "<=" (printed (sh s)) = say lines /\
    out = head ++ m_reduced (nonempty reduced) ++ lit "Inequalities:" ++ end_line ++ lines.
