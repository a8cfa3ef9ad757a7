(** * PropertiesList: the shared job list of adjacency decomposition (C10-C13). *)
From Coq Require Import List ZArith Arith Bool Lia.
From Verif Require Import Spec ListModel ListProofs ListProtocol ListTheorems ListKnown ListExec.
Import ListNotations.
Open Scope nat_scope.

(** [nb r] are the rows put after processing [r], [start] the rows put by the main thread, [known] the rows put by the
    asynchronous task, [local] the number of worker threads and [remote] the number of request threads.  A run is any
    interleaving of the steps of all threads; spurious wake-ups are labelled.  The unprotected insertion of the empty row
    is a step of its own (its races are the subject of C13; here it is taken to be atomic).  Rows are not empty. *)
Definition rows_not_empty (nb : vec -> list vec) (given : list vec) : Prop := forall r, closure nb given r -> r <> [].
Definition reachable (nb : vec -> list vec) (start known : list vec) (local remote : nat) (s : state) : Prop :=
  exists ls, run nb (initial start known local remote) ls s.

(** ** C10: no row twice *)
Theorem C10_no_row_twice : forall nb start known local remote s,
  rows_not_empty nb (start ++ known) -> 0 < local -> reachable nb start known local remote s ->
  NoDup (printed (sh s)) /\ NoDup (handed (sh s)) /\
  exists waiting, printed (sh s) = handed (sh s) ++ waiting.
Proof.
  intros nb start kn local remote s Hne Hl (ls & Hr). split; [apply (c_nodup _ _ _ _ (r_contents nb start kn local remote Hne ls s Hr))|].
  apply (nodup_handed nb start kn local remote Hne ls s Hr).
Qed.
Print Assumptions C10_no_row_twice.

(** Nothing else is printed, and everything put is printed: the rows in the set are the printed ones. *)
Theorem C10_printed_rows : forall nb start known local remote s r,
  rows_not_empty nb (start ++ known) -> 0 < local -> reachable nb start known local remote s ->
  (In r (printed (sh s)) -> closure nb (start ++ known) r) /\
  (In r (rows (sh s)) /\ r <> [] <-> In r (printed (sh s))) /\
  (terminated s -> In r (start ++ known) -> In r (printed (sh s))).
Proof.
  intros nb start kn local remote s r Hne Hl (ls & Hr). assert (C := r_contents nb start kn local remote Hne ls s Hr).
  split; [|split].
  - intros H. apply (c_held _ _ _ _ C). right; right; right; right. auto.
  - symmetry. apply (c_printed _ _ _ _ C).
  - intros Ht Hin. apply (given_printed nb start kn s); auto. apply (r_todo nb start kn local remote Hne ls s Hr).
Qed.
Print Assumptions C10_printed_rows.

(** A put of a row of [l] by a worker: the row is printed in the next state, whatever happens concurrently before. *)
Theorem C10_put_prints : forall s r, let s' := fst (l_put_row s r) in
  In r (rows s') /\ printed s' = printed s ++ (if in_dec row_eq_dec r (rows s) then [] else [r]).
Proof.
  intros s r. unfold l_put_row, l_insert. destruct (in_dec row_eq_dec r (rows s)); cbn [fst rows printed]; [rewrite app_nil_r; auto|].
  split; auto. rewrite in_app_iff. right. left. auto.
Qed.
Print Assumptions C10_put_prints.

(** ** C11: complete on termination *)
Theorem C11_complete : forall nb start local remote s,
  rows_not_empty nb start -> 0 < local -> reachable nb start [] local remote s -> terminated s ->
  (forall r, In r (printed (sh s)) <-> closure nb start r) /\ handed (sh s) = printed (sh s).
Proof.
  intros nb start local remote s Hne Hl (ls & Hr) Ht.
  assert (Hne' : forall r, closure nb (start ++ []) r -> r <> []) by (rewrite app_nil_r; exact Hne).
  assert (Q := complete_after nb start [] local remote Hne' Hl [] (initial start [] local remote) (run_nil nb _) ls s eq_refl).
  rewrite app_nil_r in Q. apply Q; auto.
  intros [(p & Hp & Hpp)|[]]. cbn [initial threads] in Hp. rewrite in_app_iff in Hp. destruct Hp as [H|H]; apply repeat_spec in H; subst; intuition discriminate.
Qed.
Print Assumptions C11_complete.

(** ** C12: no deadlock, no lost wake-up *)
(** Without any spurious wake-up: a run that is not over can be continued. *)
Theorem C12_no_deadlock : forall nb start known local remote s,
  rows_not_empty nb (start ++ known) -> 0 < local -> reachable nb start known local remote s ->
  terminated s \/ exists s', step nb Normal s s'.
Proof.
  intros nb start kn local remote s Hne Hl (ls & Hr). apply no_deadlock. apply (r_proto nb start kn local remote Hne Hl ls s Hr).
Qed.
Print Assumptions C12_no_deadlock.

(** With finitely many rows to be found there is a bound on the number of steps, whatever the schedule; only spurious
    wake-ups can prolong a run. *)
Theorem C12_all_runs_end : forall nb start known local remote found,
  rows_not_empty nb (start ++ known) -> 0 < local -> (forall r, closure nb (start ++ known) r -> In r found) ->
  exists bound, forall ls s, run nb (initial start known local remote) ls s ->
    length (filter is_normal ls) <= bound + length (filter (fun l => negb (is_normal l)) ls).
Proof.
  intros nb start kn local remote found Hne Hl HC.
  exists (measure nb found (local + remote) (initial start kn local remote)). intros ls s Hr.
  destruct (measure_run nb start kn Hne found (local + remote) HC (initial start kn local remote) ls s) as (_ & Q); auto.
  - apply contents_initial; auto.
  - cbn [initial threads]. rewrite app_length, !repeat_length. auto.
  - lia.
Qed.
Print Assumptions C12_all_runs_end.

Theorem C12_can_finish : forall nb start known local remote found s,
  rows_not_empty nb (start ++ known) -> 0 < local -> (forall r, closure nb (start ++ known) r -> In r found) ->
  reachable nb start known local remote s ->
  exists ls s', run nb s ls s' /\ Forall (eq Normal) ls /\ terminated s'.
Proof.
  intros nb start kn local remote found s Hne Hl HC (ls & Hr).
  apply (finishes nb start kn Hne found (local + remote) HC s).
  - apply (r_contents nb start kn local remote Hne ls s Hr).
  - apply (r_proto nb start kn local remote Hne Hl ls s Hr).
  - rewrite (run_length nb _ _ _ Hr). cbn [initial threads]. rewrite app_length, !repeat_length. auto.
Qed.
Print Assumptions C12_can_finish.

(** ** C13: known rows and data races *)
(** Nothing is lost if the known rows have been put before some thread finds the list empty. *)
Theorem C13_known_rows_in_time_partial : forall nb start known local remote s s' ls',
  rows_not_empty nb (start ++ known) -> 0 < local -> reachable nb start known local remote s ->
  ListModel.known s = [] -> ~ In [] (queue (sh s)) -> (forall p, In p (threads s) -> p <> Abort1 /\ p <> Abort2 /\ p <> Stopped) ->
  run nb s ls' s' -> terminated s' ->
  (forall r, In r (printed (sh s')) <-> closure nb (start ++ known) r) /\ handed (sh s') = printed (sh s').
Proof.
  intros nb start kn local remote s s' ls' Hne Hl (ls & Hr) Hk Hq Hp Hr' Ht.
  apply (complete_after nb start kn local remote Hne Hl ls s Hr ls' s'); auto.
  intros [(p & H1 & H2)|H]; [|contradiction]. specialize (Hp p H1). intuition.
Qed.
Print Assumptions C13_known_rows_in_time_partial.

(** Whatever the known rows are and whenever they are put: all rows reachable from the start rows are found and processed. *)
Theorem C13_start_rows_complete : forall nb start known local remote s r,
  rows_not_empty nb (start ++ known) -> 0 < local -> reachable nb start known local remote s -> terminated s ->
  closure nb start r -> In r (handed (sh s)) /\ In r (printed (sh s)).
Proof.
  intros nb start kn local remote s r Hne Hl (ls & Hr) Ht Hc. assert (H := start_complete nb start kn local remote ls s Hne Hl Hr Ht r Hc). split; auto.
  rewrite (c_fifo _ _ _ _ (r_contents nb start kn local remote Hne ls s Hr)). apply in_app_iff. auto.
Qed.
Print Assumptions C13_start_rows_complete.

(** If the known rows are among those reachable from the start rows, then they change nothing: exactly the reachable rows are printed and processed. *)
Theorem C13_known_rows_found_anyway : forall nb start known local remote s,
  rows_not_empty nb (start ++ known) -> (forall x, In x known -> closure nb start x) -> 0 < local -> reachable nb start known local remote s -> terminated s ->
  (forall r, In r (printed (sh s)) <-> closure nb start r) /\ handed (sh s) = printed (sh s).
Proof. intros nb start kn local remote s Hne Hk Hl (ls & Hr) Ht. exact (known_complete nb start kn local remote ls s Hne Hk Hl Hr Ht). Qed.
Print Assumptions C13_known_rows_found_anyway.

(** Otherwise rows can be lost: the row [1] is supplied with the known row [2]; the only worker has found the list empty
    after [1] when [2] is put.  The neighbour [3] of [2] is printed but never processed, its neighbour [4] never found. *)
Definition sample_nb (r : vec) : list vec :=
  match r with [2%Z] => [[3%Z]] | [3%Z] => [[4%Z]] | _ => [] end.

Lemma sample_ne : rows_not_empty sample_nb ([[1%Z]] ++ [[1%Z]; [2%Z]]).
Proof.
  intros r H. assert (Q : r = [1%Z] \/ r = [2%Z] \/ r = [3%Z] \/ r = [4%Z]).
  { induction H as [r H|r x _ IH H].
    - cbn in H. intuition.
    - destruct IH as [->|[->|[->| ->]]]; cbn in H; intuition. }
  intuition (subst; discriminate).
Qed.


Theorem C13_known_rows_lost : exists s,
  reachable sample_nb [[1%Z]] [[1%Z]; [2%Z]] 1 0 s /\ terminated s /\
  In [3%Z] (printed (sh s)) /\ ~ In [3%Z] (handed (sh s)) /\
  closure sample_nb ([[1%Z]] ++ [[1%Z]; [2%Z]]) [4%Z] /\ ~ In [4%Z] (printed (sh s)).
Proof.
  exists (State (Jobs 1 [[1%Z]; []; [2%Z]; [3%Z]] [[]; [3%Z]] [[1%Z]; [2%Z]; [3%Z]] [[1%Z]; [2%Z]]) None [Stopped] []).
  split; [|split; [|split; [|split; [|split]]]].
  - apply (exec_all_ok _ [CMain; CMain; CThread 0; CThread 0; CThread 0; CThread 0; CThread 0; CKnown; CThread 0; CThread 0; CKnown; CThread 0; CThread 0; CThread 0; CThread 0; CThread 0; CThread 0; CThread 0]). vm_compute. reflexivity.
  - split; [reflexivity|]. split; [reflexivity|]. intros p [<-|[]]. reflexivity.
  - cbn. auto.
  - cbn. intuition discriminate.
  - apply (closure_step _ _ [3%Z]); [|cbn; auto]. apply (closure_step _ _ [2%Z]); [|cbn; auto]. apply closure_start. cbn. auto.
  - cbn. intuition discriminate.
Qed.
Print Assumptions C13_known_rows_lost.

(** A single worker without known rows: no data race on the row set. *)
Theorem C13_one_worker_no_race_partial : forall nb start s,
  rows_not_empty nb start -> reachable nb start [] 1 0 s -> ~ race s.
Proof.
  intros nb start s Hne (ls & Hr) H.
  assert (Hne' : forall r, closure nb (start ++ []) r -> r <> []) by (rewrite app_nil_r; exact Hne).
  destruct (race_abort nb start [] 1 0 Hne' ltac:(lia) ls s Hr eq_refl H) as (l1 & l2 & l3 & Ht).
  assert (L := run_length nb _ _ _ Hr). rewrite Ht in L. cbn [initial threads repeat app length] in L.
  rewrite app_length in L. cbn [length] in L. rewrite app_length in L. cbn [length] in L. lia.
Qed.
Print Assumptions C13_one_worker_no_race_partial.

(** Without known rows a data race involves two unprotected insertions ([List::get], abort branch). *)
Theorem C13_only_aborts_race_partial : forall nb start local remote s,
  rows_not_empty nb start -> 0 < local -> reachable nb start [] local remote s -> race s ->
  exists l1 l2 l3, threads s = l1 ++ Abort1 :: l2 ++ Abort1 :: l3.
Proof.
  intros nb start local remote s Hne Hl (ls & Hr) H.
  assert (Hne' : forall r, closure nb (start ++ []) r -> r <> []) by (rewrite app_nil_r; exact Hne).
  exact (race_abort nb start [] local remote Hne' Hl ls s Hr eq_refl H).
Qed.
Print Assumptions C13_only_aborts_race_partial.

(** Two workers do race: the second one finds the list empty as well before the first one has announced it. *)
Theorem C13_two_workers_race : exists nb start s,
  rows_not_empty nb start /\ reachable nb start [] 2 0 s /\ race s.
Proof.
  exists (fun _ => []), [[1%Z]], (State (Jobs 0 [[1%Z]] [] [[1%Z]] [[1%Z]]) None [Abort1; Abort1] []).
  split; [|split].
  - intros r H. assert (r = [1%Z]) as ->; [|discriminate]. induction H as [r H|r x _ _ H]; [cbn in H; intuition|destruct H].
  - apply (exec_all_ok _ [CMain; CMain; CThread 0; CThread 1; CThread 0; CThread 0; CThread 0; CThread 0; CThread 0; CThread 1]). vm_compute. reflexivity.
  - exists [], [Abort1]. split; [reflexivity|]. left. exists Abort1. split; [left; auto|exact I].
Qed.
Print Assumptions C13_two_workers_race.

(** With known rows even one worker races: its unprotected insertion against the insertion by the asynchronous task. *)
Theorem C13_known_rows_race : exists s,
  rows_not_empty sample_nb ([[1%Z]] ++ [[1%Z]; [2%Z]]) /\ reachable sample_nb [[1%Z]] [[1%Z]; [2%Z]] 1 0 s /\ race s.
Proof.
  exists (State (Jobs 0 [[1%Z]] [] [[1%Z]] [[1%Z]]) None [Abort1] [[2%Z]]). split; [apply sample_ne|]. split.
  - apply (exec_all_ok _ [CMain; CMain; CThread 0; CThread 0; CThread 0; CThread 0; CThread 0; CKnown; CThread 0]). vm_compute. reflexivity.
  - exists [], []. split; [reflexivity|]. right. right. split; [reflexivity|]. exists [2%Z], []. reflexivity.
Qed.
Print Assumptions C13_known_rows_race.

(** ** Examples: the hypotheses are met by a run with three workers that ends *)
Example C10_example : exists s, rows_not_empty sample_nb ([[2%Z]] ++ []) /\ reachable sample_nb [[2%Z]] [] 3 1 s /\ terminated s /\
  (forall r, In r (printed (sh s)) <-> closure sample_nb [[2%Z]] r) /\ In [4%Z] (printed (sh s)).
Proof.
  assert (Hin : forall r, closure sample_nb ([[2%Z]] ++ []) r -> In r [[2%Z]; [3%Z]; [4%Z]]).
  { intros r H. induction H as [r H|r x _ IH H]; [cbn in *; intuition|]. cbn in IH. destruct IH as [<-|[<-|[<-|[]]]]; cbn in *; intuition. }
  assert (Hne : rows_not_empty sample_nb ([[2%Z]] ++ [])) by (intros r H; apply Hin in H; cbn in H; intuition (subst; discriminate)).
  destruct (C12_can_finish sample_nb [[2%Z]] [] 3 1 [[2%Z]; [3%Z]; [4%Z]] (initial [[2%Z]] [] 3 1) Hne ltac:(lia) Hin) as (ls & s & Hr & _ & Ht).
  { exists []. apply run_nil. }
  exists s. split; auto. split; [exists ls; auto|]. split; auto.
  destruct (C11_complete sample_nb [[2%Z]] 3 1 s Hne ltac:(lia) (ex_intro _ ls Hr) Ht) as (Q & _). split; auto.
  apply Q. apply (closure_step _ _ [3%Z]); [|cbn; auto]. apply (closure_step _ _ [2%Z]); [|cbn; auto]. apply closure_start. cbn. auto.
Qed.
