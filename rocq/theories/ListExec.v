(** * ListExec: executable schedules, used to exhibit concrete runs of the job list. *)
From Coq Require Import List ZArith Arith Bool Lia.
From Verif Require Import Spec ListModel ListProofs ListProtocol ListTheorems.
Import ListNotations.
Open Scope nat_scope.

Inductive cmd := CMain | CKnown | CThread (i : nat).

Fixpoint wake_first (ths : list phase) : list phase :=
  match ths with [] => [] | Waiting :: l => Woken :: l | p :: l => p :: wake_first l end.
Definition notify_first (b : bool) (ths : list phase) : list phase := if b then wake_first ths else ths.

Lemma wake_first_spec ths : notify_one ths (wake_first ths).
Proof.
  induction ths as [|p l IH]; cbn [wake_first]; [left; auto|]. destruct p; try (right; exists [], l; auto; fail).
  all: destruct IH as [(H & E)|(l1 & l2 & -> & ->)]; [left; split; [cbn [In]; intuition discriminate|congruence]|].
  all: match goal with |- notify_one (?p :: _) _ => right; exists (p :: l1), l2; auto end.
Qed.
Lemma notify_first_spec b ths : notified b ths (notify_first b ths).
Proof. destruct b; cbn [notified notify_first]; auto. apply wake_first_spec. Qed.

Section Exec.
  Variable nb : vec -> list vec.

  Definition exec (c : cmd) (s : state) : option state :=
    match c with
    | CMain =>
        match main s with
        | Some (x :: l) => let '(j, b) := l_put_row (sh s) x in Some (State j (Some l) (notify_first b (threads s)) (known s))
        | Some [] => Some (State (l_done (sh s)) None (threads s) (known s))
        | None => None
        end
    | CKnown =>
        match main s, known s with
        | None, x :: l => let '(j, b) := l_put_row (sh s) x in Some (State j None (notify_first b (threads s)) l)
        | _, _ => None
        end
    | CThread i =>
        let l1 := firstn i (threads s) in let l2 := skipn (S i) (threads s) in
        let go p := Some (State (sh s) (main s) (l1 ++ p :: l2) (known s)) in
        match nth_error (threads s) i with
        | Some New => match main s with None => Some (State (sh s) None (l1 ++ Entry :: l2) (known s)) | _ => None end
        | Some Entry => go (if l_empty (sh s) then Abort1 else Lock)
        | Some Abort1 => Some (State (l_abort_insert (sh s)) (main s) (l1 ++ Abort2 :: l2) (known s))
        | Some Abort2 => Some (State (l_abort_push (sh s)) (main s) (map wake l1 ++ Lock :: map wake l2) (known s))
        | Some Lock | Some Woken =>
            match queue (sh s) with
            | [] => go Waiting
            | r :: q => Some (State (l_take (sh s) r q) (main s) (l1 ++ match r with [] => Stopped | _ => Work r end :: l2) (known s))
            end
        | Some (Work r) => go (Put (nb r))
        | Some (Put (x :: l)) => let '(j, b) := l_put_row (sh s) x in Some (State j (main s) (notify_first b (l1 ++ Put l :: l2)) (known s))
        | Some (Put []) => Some (State (l_done (sh s)) (main s) (l1 ++ Entry :: l2) (known s))
        | _ => None
        end
    end.

  Lemma split_nth {A} (l : list A) i x : nth_error l i = Some x -> l = firstn i l ++ x :: skipn (S i) l.
  Proof. revert i. induction l as [|y l IH]; intros [|i]; cbn [nth_error firstn skipn app]; try discriminate; [congruence|]. intros H. f_equal. apply IH. exact H. Qed.

  Lemma exec_ok c s s' : exec c s = Some s' -> step nb Normal s s'.
  Proof.
    intros H. destruct c as [| |i]; cbn [exec] in H.
    - destruct (main s) as [[|x l]|] eqn:Hm; [| |discriminate].
      + inversion H; subst. apply step_main_done; auto.
      + assert (Q := step_main_put nb s x l (notify_first (snd (l_put_row (sh s) x)) (threads s)) Hm (notify_first_spec _ _)).
        destruct (l_put_row (sh s) x) as [j b]. inversion H; subst. exact Q.
    - destruct (main s) eqn:Hm; [discriminate|]. destruct (known s) as [|x l] eqn:Hk; [discriminate|].
      assert (Q := step_known nb s x l (notify_first (snd (l_put_row (sh s) x)) (threads s)) Hm Hk (notify_first_spec _ _)).
      destruct (l_put_row (sh s) x) as [j b]. inversion H; subst. exact Q.
    - destruct (nth_error (threads s) i) as [p|] eqn:E; [|discriminate]. apply split_nth in E.
      destruct p as [| | | | | | |r|l|]; try discriminate.
      + destruct (main s) eqn:Hm; [discriminate|]. inversion H; subst. apply step_start; auto.
      + inversion H; subst. apply step_test; auto.
      + inversion H; subst. apply step_abort1; auto.
      + inversion H; subst. apply step_abort2; auto.
      + destruct (queue (sh s)) as [|r q] eqn:Hq; inversion H; subst; [eapply step_wait; eauto|eapply step_take; eauto].
      + destruct (queue (sh s)) as [|r q] eqn:Hq; inversion H; subst; [eapply step_wait; eauto|eapply step_take; eauto].
      + inversion H; subst. apply step_work; auto.
      + destruct l as [|x l]; [inversion H; subst; apply step_done; auto|].
        assert (Q := step_put nb s _ _ x l (notify_first (snd (l_put_row (sh s) x)) (firstn i (threads s) ++ Put l :: skipn (S i) (threads s))) E (notify_first_spec _ _)).
        destruct (l_put_row (sh s) x) as [j b]. inversion H; subst. exact Q.
  Qed.

  Fixpoint exec_all (cs : list cmd) (s : state) : option state :=
    match cs with [] => Some s | c :: cs' => match exec c s with Some s1 => exec_all cs' s1 | None => None end end.
  Lemma exec_all_ok cs s s' : exec_all cs s = Some s' -> exists ls, run nb s ls s'.
  Proof.
    revert s. induction cs as [|c cs IH]; intros s H; cbn [exec_all] in H.
    - inversion H; subst. exists []. constructor.
    - destruct (exec c s) as [s1|] eqn:E; [|discriminate]. destruct (IH s1 H) as (ls & R). exists (Normal :: ls).
      eapply run_cons; [apply (exec_ok c); eauto|exact R].
  Qed.
End Exec.
