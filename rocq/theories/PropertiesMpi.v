(** * PropertiesMpi: adjacency decomposition distributed over several processes (C51). *)
From Coq Require Import List ZArith Arith Bool Lia Permutation.
From Verif Require Import Spec ListModel ListProofs ListProtocol ListTheorems PropertiesList MpiModel MpiProofs.
Import ListNotations.
Open Scope nat_scope.

(** [nb r] are the rows found from [r] (by whichever process), [start] the rows put at first, [known] the rows put by the asynchronous task; [local] worker threads on the master, [count] other processes with
    [slaves] worker threads each, and for each of these processes [remote] request threads on the master.  A run is any interleaving of the steps of all threads of all processes. *)
Definition reachable_distributed (nb : vec -> list vec) (start known : list vec) (local remote count slaves : nat) (d : dstate) : Prop :=
  exists ls, drun nb (d_initial start known local remote count slaves) ls d.
(** Rotation always finds a row: an empty matrix cannot be sent (C39). *)
Definition always_neighbours (nb : vec -> list vec) (given : list vec) : Prop := forall r, closure nb given r -> nb r <> [].

Theorem C51_no_row_twice : forall nb start known local remote count slaves d,
  rows_not_empty nb (start ++ known) -> 0 < local -> reachable_distributed nb start known local remote count slaves d ->
  NoDup (printed (d_sh d)) /\ NoDup (handed (d_sh d)) /\ (forall r, In r (printed (d_sh d)) -> closure nb (start ++ known) r) /\
  exists waiting, printed (d_sh d) = handed (d_sh d) ++ waiting.
Proof.
  intros nb start kn local R c S d Hne Hl (ls & Hd). destruct (reach nb start kn local R c S ls d Hd) as (ls' & s & Hr & Hs). rewrite <- (same_sh d s Hs).
  destruct (C10_no_row_twice nb start kn local (c * R) s Hne Hl (ex_intro _ ls' Hr)) as (H1 & H2 & H3). repeat split; auto.
  intros r. apply (C10_printed_rows nb start kn local (c * R) s r Hne Hl (ex_intro _ ls' Hr)).
Qed.
Print Assumptions C51_no_row_twice.

(** When all threads of the master have ended, all rows have been found and processed, on whichever processes. *)
Theorem C51_complete : forall nb start local remote count slaves d,
  rows_not_empty nb start -> always_neighbours nb start -> 0 < local -> reachable_distributed nb start [] local remote count slaves d -> master_ended d ->
  (forall r, In r (printed (d_sh d)) <-> closure nb start r) /\ handed (d_sh d) = printed (d_sh d).
Proof.
  intros nb start local R c S d Hne Hnb Hl (ls & Hd) Hm. destruct (reach nb start [] local R c S ls d Hd) as (ls' & s & Hr & Hs). rewrite <- (same_sh d s Hs).
  apply (C11_complete nb start local (c * R) s Hne Hl (ex_intro _ ls' Hr)). apply (master_terminated local R S Hl d s); auto.
  apply (reach_inv nb start [] local R c S) with (ls := ls); auto; rewrite app_nil_r; auto.
Qed.
Print Assumptions C51_complete.

(** No deadlock over all processes, without any spurious wake-up, if the processes have as many worker threads as the master has request threads for them. *)
Theorem C51_no_deadlock_partial : forall nb start known local threads count d,
  rows_not_empty nb (start ++ known) -> always_neighbours nb (start ++ known) -> 0 < local -> reachable_distributed nb start known local threads count threads d ->
  all_ended d \/ exists d', dstep nb Normal d d'.
Proof.
  intros nb start kn local R c d Hne Hnb Hl (ls & Hd). destruct (reach nb start kn local R c R ls d Hd) as (ls' & s & Hr & Hs).
  apply (d_progress nb start kn R d s); auto.
  - apply (r_contents nb start kn local (c * R) Hne ls' s Hr).
  - apply (r_proto nb start kn local (c * R) Hne Hl ls' s Hr).
  - apply (reach_inv nb start kn local R c R Hne Hnb ls d Hd).
Qed.
Print Assumptions C51_no_deadlock_partial.

(** All runs end, whatever the schedule; only spurious wake-ups can prolong them. *)
Theorem C51_all_runs_end : forall nb start known local remote count slaves found,
  rows_not_empty nb (start ++ known) -> 0 < local -> (forall r, closure nb (start ++ known) r -> In r found) ->
  exists bound, forall ls d, drun nb (d_initial start known local remote count slaves) ls d ->
    length (filter is_normal ls) <= bound + 9 * length (filter (fun l => negb (is_normal l)) ls).
Proof.
  intros nb start kn local R c S found Hne Hl HC. exists (potential nb local R c found (d_initial start kn local R c S) (initial start kn local (c * R))).
  intros ls d Hd. destruct (reach_bound nb start kn local R c S Hne Hl found HC ls d Hd) as (ls' & s & _ & _ & B). lia.
Qed.
Print Assumptions C51_all_runs_end.

Theorem C51_can_finish_partial : forall nb start known local threads count found d,
  rows_not_empty nb (start ++ known) -> always_neighbours nb (start ++ known) -> 0 < local -> (forall r, closure nb (start ++ known) r -> In r found) ->
  reachable_distributed nb start known local threads count threads d ->
  exists ls d', drun nb d ls d' /\ Forall (eq Normal) ls /\ all_ended d'.
Proof.
  intros nb start kn local R c found d Hne Hnb Hl HC (ls & Hd). destruct (reach nb start kn local R c R ls d Hd) as (ls' & s & Hr & Hs).
  apply (d_finishes nb start kn local R c found Hne Hl Hnb HC (potential nb local R c found d s) ls d s); eauto.
Qed.
Print Assumptions C51_can_finish_partial.

(** When everything has ended no message is left: the processes can call MPI_Finalize. *)
Theorem C51_no_message_left : forall nb start known local threads count d,
  rows_not_empty nb (start ++ known) -> always_neighbours nb (start ++ known) -> 0 < local -> reachable_distributed nb start known local threads count threads d -> all_ended d ->
  forall n, In n (d_nodes d) -> n_rows n = [] /\ n_replies n = [].
Proof.
  intros nb start kn local R c d Hne Hnb Hl (ls & Hd) ((_ & _ & E1 & E2) & E3) n Hn. assert (A := E2 n Hn). assert (W := fun x => E3 n x Hn). apply In_nth_error in Hn as (k & Hk).
  destruct (inv_nodes _ _ _ (reach_inv nb start kn local R c R Hne Hnb ls d Hd) k n Hk) as [K1 K2 K3 K4 K5].
  assert (C0 : MpiProofs.count k (d_threads d) = 0).
  { unfold MpiProofs.count. assert (E : filter (requests k) (d_threads d) = []); [|rewrite E; auto]. clear - E1. induction (d_threads d) as [|t ths IH]; auto. cbn [filter]. rewrite (E1 t (or_introl eq_refl)). cbn [requests fst]. apply IH. intros x Hx. apply E1. right. auto. }
  rewrite (stopped_all _ W) in K4. split; [destruct (n_rows n); [auto|cbn [length] in K4; lia]|destruct (n_replies n); [auto|cbn [length] in K3; lia]].
Qed.
Print Assumptions C51_no_message_left.

(** The number of request threads is the thread count of the master, the number of worker threads of a slave its own thread count.  With more worker threads on a slave than request threads for it
    some worker thread waits for a row forever: no run ever ends. *)
Theorem C51_more_slave_threads_refuted : forall nb start known local remote count slaves d,
  rows_not_empty nb (start ++ known) -> always_neighbours nb (start ++ known) -> 0 < count -> remote < slaves ->
  reachable_distributed nb start known local remote count slaves d -> ~ all_ended d.
Proof.
  intros nb start kn local R c S d Hne Hnb Hc HS (ls & Hd) (_ & E). assert (I := reach_inv nb start kn local R c S Hne Hnb ls d Hd).
  assert (L : length (d_nodes d) = c).
  { clear - Hd. remember (d_initial start kn local R c S) as d0 eqn:E0. revert E0. induction Hd as [d0|d0 l d1 ls d2 _ IH H]; intros ->; [apply repeat_length|]. rewrite <- (IH eq_refl). destruct H; cbn [d_nodes]; rewrite ?app_length; auto. }
  destruct (d_nodes d) as [|n ns] eqn:En; [cbn in L; lia|]. destruct (inv_nodes _ _ _ I 0 n) as [K1 K2 K3 K4 K5]; [rewrite En; auto|].
  rewrite (stopped_all (n_slaves n)) in K4 by (intros x Hx; apply (E n x); [left; auto|auto]). assert (B : reals (n_rows n) <= length (n_rows n)) by apply filter_length_le. lia.
Qed.
Print Assumptions C51_more_slave_threads_refuted.

(** ** Example: two other processes with two threads each *)
Definition ring_nb (r : vec) : list vec := match r with [1%Z] => [[2%Z]; [3%Z]] | [2%Z] => [[1%Z]; [3%Z]] | _ => [[1%Z]; [2%Z]] end.
Example C51_example : exists d, rows_not_empty ring_nb ([[1%Z]] ++ []) /\ always_neighbours ring_nb ([[1%Z]] ++ []) /\
  reachable_distributed ring_nb [[1%Z]] [] 1 2 2 2 d /\ all_ended d /\ Permutation (printed (d_sh d)) [[1%Z]; [2%Z]; [3%Z]].
Proof.
  assert (Hin : forall r, closure ring_nb ([[1%Z]] ++ []) r -> In r [[1%Z]; [2%Z]; [3%Z]]).
  { intros r H. induction H as [r H|r x _ IH H]; [cbn in *; intuition|]. cbn in IH. destruct IH as [<-|[<-|[<-|[]]]]; cbn in *; intuition. }
  assert (Hne : rows_not_empty ring_nb ([[1%Z]] ++ [])) by (intros r H; apply Hin in H; cbn in H; intuition (subst; discriminate)).
  assert (Hnb : always_neighbours ring_nb ([[1%Z]] ++ [])) by (intros r H; apply Hin in H; cbn in H; intuition (subst; discriminate)).
  destruct (C51_can_finish_partial ring_nb [[1%Z]] [] 1 2 2 [[1%Z]; [2%Z]; [3%Z]] (d_initial [[1%Z]] [] 1 2 2 2) Hne Hnb ltac:(lia) Hin) as (ls & d & Hr & _ & Ht); [exists []; constructor|].
  exists d. split; auto. split; auto. assert (RD : reachable_distributed ring_nb [[1%Z]] [] 1 2 2 2 d) by (exists ls; auto). split; auto. split; auto.
  destruct (C51_complete ring_nb [[1%Z]] 1 2 2 2 d Hne Hnb ltac:(lia) RD (proj1 Ht)) as (Q & _).
  destruct (C51_no_row_twice ring_nb [[1%Z]] [] 1 2 2 2 d Hne ltac:(lia) RD) as (N & _). apply NoDup_Permutation; auto.
  - repeat constructor; cbn; intuition discriminate.
  - intros r. rewrite Q. split; [apply Hin|]. intros H. assert (C1 : closure ring_nb [[1%Z]] [1%Z]) by (apply closure_start; left; auto).
    destruct H as [<-|[<-|[<-|[]]]]; auto; apply (closure_step _ _ [1%Z]); auto; cbn; auto.
Qed.
