(** * MpiModel: adjacency decomposition distributed over several processes (built with MPI_SUPPORT).

    The master runs the job list (ListModel), its own worker threads, and for every other process as many request threads (job_manager.cpp 45-87).  The other processes (slaves) run
    worker threads whose job manager is a [JobManagerProxy] (job_manager_proxy.cpp 15-25).  Rows and matrices are sent as in CommModel: between two processes they arrive unchanged
    and in order (C39), so a channel is a list of rows or matrices here. *)
From Coq Require Import List ZArith Arith Bool.
From Verif Require Import Spec ListModel.
Import ListNotations.
Open Scope nat_scope.

(** A worker thread of a slave (method_adjacency_decomposition_implementation.cpp 64-79): in [get], that is [fromMaster]; computing; in [put], that is [toMaster]; ended. *)
Inductive sphase := SIdle | SWork (r : vec) | SSend (l : list vec) | SStopped.
(** What belongs to one slave: rows on their way to it, its threads, matrices on their way back; the number of request threads for it that wait in [fromSlave] (job_manager.cpp 75)
    and of those that have ended (68-71). *)
Record node := Node { n_rows : list vec; n_slaves : list sphase; n_replies : list (list vec); n_awaiting : nat; n_done : nat }.
(** The state: the job list, the main thread and the asynchronous task as in ListModel; the threads of the master that are neither waiting for a reply nor ended as request threads:
    the worker threads ([None]) and the request threads of slave [k] ([Some k]).  A request thread in [Work r] is about to send [r] (line 67), in [Stopped] it is about to send the empty row. *)
Record dstate := DState { d_sh : jobs; d_main : option (list vec); d_threads : list (option nat * phase); d_known : list vec; d_nodes : list node }.

(** A request thread does not compute: after [get] it sends its row (job_manager.cpp 66-67). *)
Definition keeps_jobs (ths : list (option nat * phase)) (ps : list phase) : Prop :=
  Forall2 (fun t p => fst t <> None -> forall r, snd t = Work r -> p = Work r) ths ps.

(** The steps of all threads of all processes. *)
Inductive dstep (nb : vec -> list vec) : label -> dstate -> dstate -> Prop :=
(** A step of the job list. *)
| d_list lab h m ths kn ns h' m' ps kn' : step nb lab (State h m (map snd ths) kn) (State h' m' ps kn') -> keeps_jobs ths ps ->
    dstep nb lab (DState h m ths kn ns) (DState h' m' (combine (map fst ths) ps) kn' ns)
(** [communication.toSlave(facet, id)] (job_manager.cpp 67). *)
| d_send h m kn t1 t2 r a n c : r <> [] ->
    dstep nb Normal (DState h m (t1 ++ (Some (length a), Work r) :: t2) kn (a ++ n :: c))
      (DState h m (t1 ++ t2) kn (a ++ Node (n_rows n ++ [r]) (n_slaves n) (n_replies n) (n_awaiting n + 1) (n_done n) :: c))
| d_stop h m kn t1 t2 a n c :
    dstep nb Normal (DState h m (t1 ++ (Some (length a), Stopped) :: t2) kn (a ++ n :: c))
      (DState h m (t1 ++ t2) kn (a ++ Node (n_rows n ++ [[]]) (n_slaves n) (n_replies n) (n_awaiting n) (n_done n + 1) :: c))
(** [fromMaster] (job_manager_proxy.cpp 24). *)
| d_receive h m ths kn a c r rs s1 s2 replies aw dn :
    dstep nb Normal (DState h m ths kn (a ++ Node (r :: rs) (s1 ++ SIdle :: s2) replies aw dn :: c))
      (DState h m ths kn (a ++ Node rs (s1 ++ match r with [] => SStopped | _ => SWork r end :: s2) replies aw dn :: c))
(** [algorithm::rotation] on the slave (implementation.cpp 75). *)
| d_compute h m ths kn a c rs s1 s2 r replies aw dn :
    dstep nb Normal (DState h m ths kn (a ++ Node rs (s1 ++ SWork r :: s2) replies aw dn :: c))
      (DState h m ths kn (a ++ Node rs (s1 ++ SSend (nb r) :: s2) replies aw dn :: c))
(** [toMaster] (job_manager_proxy.cpp 18); undefined for an empty matrix (C39). *)
| d_reply h m ths kn a c rs s1 s2 l replies aw dn : l <> [] ->
    dstep nb Normal (DState h m ths kn (a ++ Node rs (s1 ++ SSend l :: s2) replies aw dn :: c))
      (DState h m ths kn (a ++ Node rs (s1 ++ SIdle :: s2) (replies ++ [l]) aw dn :: c))
(** [fromSlave] and the call of [put] (job_manager.cpp 75-76); any of the waiting request threads gets the matrix. *)
| d_result h m ths kn a c rs ss l replies aw dn :
    dstep nb Normal (DState h m ths kn (a ++ Node rs ss (l :: replies) (S aw) dn :: c))
      (DState h m (ths ++ [(Some (length a), Put l)]) kn (a ++ Node rs ss replies aw dn :: c)).

(** The start (job_manager.cpp 46-87, method_adjacency_decomposition_implementation.cpp 54-79): [local] worker threads on the master, for each of the [count] slaves [remote] request threads; [slaves] worker threads on each slave. *)
Definition d_initial (start known : list vec) (local remote count slaves : nat) : dstate :=
  DState l_new (Some start) (repeat (None, New) local ++ flat_map (fun k => repeat (Some k, Entry) remote) (seq 0 count)) known (repeat (Node [] (repeat SIdle slaves) [] 0 0) count).
(** Sequences of steps. *)
Inductive drun (nb : vec -> list vec) : dstate -> list label -> dstate -> Prop :=
| drun_nil d : drun nb d [] d
| drun_step d l d1 ls d2 : drun nb d ls d1 -> dstep nb l d1 d2 -> drun nb d (ls ++ [l]) d2.

(** The destructors join the threads (joining_thread.cpp 11-17).  All threads of the master have ended; all threads of all processes have ended. *)
Definition master_ended (d : dstate) : Prop := d_main d = None /\ d_known d = [] /\ (forall t, In t (d_threads d) -> t = (None, Stopped)) /\ forall n, In n (d_nodes d) -> n_awaiting n = 0.
(** All threads of all processes have ended. *)
Definition all_ended (d : dstate) : Prop := master_ended d /\ forall n s, In n (d_nodes d) -> In s (n_slaves n) -> s = SStopped.
