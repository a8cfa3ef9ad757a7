(** * ListModel: list.cpp (the shared job list) and the worker loops of adjacency decomposition as a transition system.

    Every critical section (a region in which the mutex is held) is one step; the one access to shared data outside the
    mutex (list.cpp 88) is a step of its own.  Progress messages on std::cerr (list.cpp 47-57, 101-115) only read the
    list and are left out, except that the read of [rows.size()] counts as an access for data races. *)
From Coq Require Import List ZArith Arith Bool.
From Verif Require Import Spec.
Import ListNotations.

(** [operator==] of rows. *)
Definition row_eq_dec : forall a b : vec, {a = b} + {a <> b} := list_eq_dec Z.eq_dec.

(** The members of [List] (list.h 40-46): [workers], the set [rows] (in insertion order: only membership is observed),
    [iterators] as the rows they point to; and two histories, the rows printed and the rows handed out by [get]. *)
Record jobs := Jobs { workers : nat; rows : list vec; queue : list vec; printed : list vec; handed : list vec }.

(** List::List (list.cpp 119-130). *)
Definition l_new : jobs := Jobs 1 [] [] [] [].

(** [rows.insert(row)]: the second component tells whether it was added. *)
Definition l_insert (rs : list vec) (r : vec) : list vec * bool := if in_dec row_eq_dec r rs then (rs, false) else (rs ++ [r], true).

(** put(const Row&) without the notification (list.cpp 60-81); the boolean tells whether [notify_one] is called. *)
Definition l_put_row (s : jobs) (r : vec) : jobs * bool :=
  let '(rs, added) := l_insert (rows s) r in
  if added then (Jobs (workers s) rs (queue s ++ [r]) (printed s ++ [r]) (handed s), true) else (s, false).

(** The end of put(const Matrix&) (list.cpp 45-46). *)
Definition l_done (s : jobs) : jobs := Jobs (workers s - 1) (rows s) (queue s) (printed s) (handed s).

(** empty (list.cpp 132-137). *)
Definition l_empty (s : jobs) : bool := (workers s =? 0)%nat && match queue s with [] => true | _ => false end.

(** The abort branch of get: the unprotected insertion (list.cpp 88) and the notification (89-91). *)
Definition l_abort_insert (s : jobs) : jobs := Jobs (workers s) (fst (l_insert (rows s) [])) (queue s) (printed s) (handed s).
(** list.cpp 89-91. *)
Definition l_abort_push (s : jobs) : jobs := Jobs (workers s) (rows s) (queue s ++ [[]]) (printed s) (handed s).

(** The end of get (list.cpp 95-100) when the queue is [r :: q]. *)
Definition l_take (s : jobs) (r : vec) (q : list vec) : jobs :=
  match r with
  | [] => Jobs (workers s + 1) (rows s) (queue s) (printed s) (handed s)
  | _ => Jobs (workers s + 1) (rows s) q (printed s) (handed s ++ [r])
  end.

(** Where a worker is: method_adjacency_decomposition_implementation.cpp 66-78 for the threads of the process, and
    job_manager.cpp 59-83 for the request threads serving other processes (same calls of get and put). *)
Inductive phase :=
| New                    (* thread not created yet *)
| Entry                  (* about to call get: next is the test of list.cpp 86 *)
| Abort1                 (* test was true: next is line 88 *)
| Abort2                 (* next are lines 89-91 *)
| Lock                   (* next is line 93: acquire the mutex, test the predicate of line 94 *)
| Waiting                (* blocked in line 94 *)
| Woken                  (* notified: will reacquire the mutex and test the predicate again *)
| Work (r : vec)         (* computing the neighbours of [r] *)
| Put (l : list vec)     (* in put(Matrix): [l] is still to be put, then [workers] is decremented *)
| Stopped.               (* got the empty row and left the loop *)

(** A state of the program: [main] is [Some l] while the main thread is in its put(Matrix) of the start rows
    (implementation.cpp 135-149), [known] are the rows the asynchronous task still has to put (151-159). *)
Record state := State { sh : jobs; main : option (list vec); threads : list phase; known : list vec }.

(** condition.notify_one(): some blocked thread, if there is one. *)
Definition notify_one (ths ths' : list phase) : Prop :=
  (~ In Waiting ths /\ ths' = ths) \/ exists l1 l2, ths = l1 ++ Waiting :: l2 /\ ths' = l1 ++ Woken :: l2.
(** [if ( added ) condition.notify_one()] (list.cpp 47-57). *)
Definition notified (added : bool) (ths ths' : list phase) : Prop := if added then notify_one ths ths' else ths' = ths.
(** condition.notify_all(). *)
Definition wake (p : phase) : phase := match p with Waiting => Woken | _ => p end.

(** Whether the step is a spurious wake-up. *)
Inductive label := Normal | Spurious.

(** One step; [nb] maps a row to the rows returned by rotation (classes of neighbours). *)
Inductive step (nb : vec -> list vec) : label -> state -> state -> Prop :=
| step_main_put s x l ths' : main s = Some (x :: l) -> notified (snd (l_put_row (sh s) x)) (threads s) ths' ->
    step nb Normal s (State (fst (l_put_row (sh s) x)) (Some l) ths' (known s))
| step_main_done s : main s = Some [] -> step nb Normal s (State (l_done (sh s)) None (threads s) (known s))
| step_known s x l ths' : main s = None -> known s = x :: l -> notified (snd (l_put_row (sh s) x)) (threads s) ths' ->
    step nb Normal s (State (fst (l_put_row (sh s) x)) None ths' l)
| step_start s l1 l2 : main s = None -> threads s = l1 ++ New :: l2 ->
    step nb Normal s (State (sh s) None (l1 ++ Entry :: l2) (known s))
| step_test s l1 l2 : threads s = l1 ++ Entry :: l2 ->
    step nb Normal s (State (sh s) (main s) (l1 ++ (if l_empty (sh s) then Abort1 else Lock) :: l2) (known s))
| step_abort1 s l1 l2 : threads s = l1 ++ Abort1 :: l2 ->
    step nb Normal s (State (l_abort_insert (sh s)) (main s) (l1 ++ Abort2 :: l2) (known s))
| step_abort2 s l1 l2 : threads s = l1 ++ Abort2 :: l2 ->
    step nb Normal s (State (l_abort_push (sh s)) (main s) (map wake l1 ++ Lock :: map wake l2) (known s))
| step_wait s l1 l2 p : threads s = l1 ++ p :: l2 -> p = Lock \/ p = Woken -> queue (sh s) = [] ->
    step nb Normal s (State (sh s) (main s) (l1 ++ Waiting :: l2) (known s))
| step_take s l1 l2 p r q : threads s = l1 ++ p :: l2 -> p = Lock \/ p = Woken -> queue (sh s) = r :: q ->
    step nb Normal s (State (l_take (sh s) r q) (main s) (l1 ++ match r with [] => Stopped | _ => Work r end :: l2) (known s))
| step_work s l1 l2 r : threads s = l1 ++ Work r :: l2 ->
    step nb Normal s (State (sh s) (main s) (l1 ++ Put (nb r) :: l2) (known s))
| step_put s l1 l2 x l ths' : threads s = l1 ++ Put (x :: l) :: l2 -> notified (snd (l_put_row (sh s) x)) (l1 ++ Put l :: l2) ths' ->
    step nb Normal s (State (fst (l_put_row (sh s) x)) (main s) ths' (known s))
| step_done s l1 l2 : threads s = l1 ++ Put [] :: l2 ->
    step nb Normal s (State (l_done (sh s)) (main s) (l1 ++ Entry :: l2) (known s))
| step_spurious s l1 l2 : threads s = l1 ++ Waiting :: l2 ->
    step nb Spurious s (State (sh s) (main s) (l1 ++ Woken :: l2) (known s)).

(** The start: [local] worker threads are created after the start rows have been put, [remote] request threads (only with
    MPI) run from the beginning. *)
Definition initial (start known : list vec) (local remote : nat) : state :=
  State l_new (Some start) (repeat New local ++ repeat Entry remote) known.

(** Sequences of steps. *)
Inductive run (nb : vec -> list vec) : state -> list label -> state -> Prop :=
| run_nil s : run nb s [] s
| run_step s l s1 ls s2 : run nb s ls s1 -> step nb l s1 s2 -> run nb s (ls ++ [l]) s2.

(** Main thread, task and worker threads have ended (method_adjacency_decomposition_implementation.cpp 54-79). *)
Definition terminated (s : state) : Prop := main s = None /\ known s = [] /\ forall p, In p (threads s) -> p = Stopped.

(** A data race on [rows]: a thread is about to insert without holding the mutex (line 88) while another one is about to
    access [rows] (with or without the mutex). *)
Definition accesses_rows (s : state) (p : phase) : Prop :=
  match p with
  | Abort1 | Put (_ :: _) => True
  | Lock | Woken => exists r q, queue (sh s) = r :: q /\ r <> []
  | _ => False
  end.
(** A data race in the sense of the C++ memory model. *)
Definition race (s : state) : Prop :=
  exists l1 l2, threads s = l1 ++ Abort1 :: l2 /\
    ((exists p, In p (l1 ++ l2) /\ accesses_rows s p) \/ (exists x l, main s = Some (x :: l)) \/ (main s = None /\ exists x l, known s = x :: l)).

(** The rows that have to be found: everything reachable from the start rows. *)
Inductive closure (nb : vec -> list vec) (start : list vec) : vec -> Prop :=
| closure_start r : In r start -> closure nb start r
| closure_step r x : closure nb start r -> In x (nb r) -> closure nb start x.
