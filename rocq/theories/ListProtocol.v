(** * ListProtocol: counting of workers, wake-ups, completeness and termination of the job list. *)
From Coq Require Import List ZArith Arith Bool Lia.
From Verif Require Import Spec ListModel ListProofs.
Import ListNotations.
Open Scope nat_scope.

Definition mainn (m : option (list vec)) : nat := match m with None => 0 | _ => 1 end.

Ltac steps Hs := destruct Hs as [s x l ths' Hm Hnot|s Hm|s x l ths' Hm Hk Hnot|s l1 l2 Hm Ht|s l1 l2 Ht|s l1 l2 Ht|s l1 l2 Ht|s l1 l2 p Ht Hp Hq|s l1 l2 p r q Ht Hp Hq|s l1 l2 r Ht|s l1 l2 x l ths' Ht Hnot|s l1 l2 Ht|s l1 l2 Ht].
Ltac prj := cbn [sh main threads known workers rows queue printed handed l_done l_abort_insert l_abort_push l_take fst snd] in *.
Ltac inapp := rewrite ?in_app_iff in *; cbn [In] in *.

Lemma put_workers s x : workers (fst (l_put_row s x)) = workers s.
Proof. destruct (put_spec s x) as [(_ & _ & ->)|(_ & _ & ->)]; auto. Qed.
Lemma put_handed s x : handed (fst (l_put_row s x)) = handed s.
Proof. destruct (put_spec s x) as [(_ & _ & ->)|(_ & _ & ->)]; auto. Qed.
Lemma put_queue s x : queue (fst (l_put_row s x)) = queue s ++ if snd (l_put_row s x) then [x] else [].
Proof. destruct (put_spec s x) as [(-> & _ & ->)|(-> & _ & ->)]; cbn [queue]; rewrite ?app_nil_r; auto. Qed.
Lemma take_workers s r q : workers (l_take s r q) = workers s + 1. Proof. destruct r; reflexivity. Qed.

(** ** Protocol *)
Section Protocol.
  Variables (nb : vec -> list vec) (start kn : list vec).
  Notation cl := (closure nb (start ++ kn)).
  Hypothesis Hne : forall r, cl r -> r <> [].

  Record proto (s : state) : Prop := {
    p_workers : workers (sh s) = mainn (main s) + tot busy (threads s) + tot stop (threads s);
    p_sentinel : In [] (queue (sh s)) -> ~ In Waiting (threads s);
    p_stopped : In Stopped (threads s) -> In [] (queue (sh s));
    p_new : main s <> None -> In New (threads s);
    p_idle : main s = None -> workers (sh s) = 0 -> queue (sh s) = [] -> exists p, In p (threads s) /\ entering p = true;
    p_wake : queue (sh s) <> [] -> In Waiting (threads s) -> exists p, In p (threads s) /\ active p = true
  }.

  Lemma tot_repeat f p k : tot f (repeat p k) = k * f p.
  Proof. induction k as [|k IH]; cbn [repeat]; auto. rewrite tot_cons, IH. reflexivity. Qed.
  Lemma proto_initial l m : 0 < l -> proto (initial start kn l m).
  Proof.
    intros Hl. unfold initial. constructor; prj.
    - rewrite !tot_app, !tot_repeat. cbn. lia.
    - intros [].
    - intros H. inapp. destruct H as [H|H]; apply repeat_spec in H; discriminate.
    - intros _. inapp. left. destruct l; [lia|]. left; auto.
    - discriminate.
    - intros H. contradiction.
  Qed.

  Lemma proto_step l s s' : contents nb start kn s -> proto s -> step nb l s s' -> proto s'.
  Proof.
    intros C [Pw Ps Pst Pn Pi Pk] Hs. steps Hs.
    - (* main put *)
      assert (T1 := tot_notified busy _ _ _ eq_refl Hnot). assert (T2 := tot_notified stop _ _ _ eq_refl Hnot).
      assert (Hx : x <> []) by (apply Hne; apply (c_held _ _ _ _ C); left; exists (x :: l); split; [auto|left; auto]).
      rewrite Hm in *. constructor; prj; rewrite ?put_workers, ?put_queue; try discriminate.
      + cbn [mainn] in *. lia.
      + intros H Hw. apply (notified_in _ _ _ _ Hnot) in Hw. destruct Hw as [Hw|]; [|discriminate]. apply Ps; auto.
        inapp. destruct H as [H|H]; auto. destruct (snd _); [destruct H as [H|[]]; congruence|destruct H].
      + intros H. inapp. left. apply Pst. apply (notified_in _ _ _ _ Hnot) in H. destruct H as [|]; [auto|discriminate].
      + intros _. apply (notified_keep _ _ _ _ Hnot); [|discriminate]. apply Pn. discriminate.
      + intros _ _. exists New. split; auto. apply (notified_keep _ _ _ _ Hnot); [|discriminate]. apply Pn. discriminate.
    - (* main done *)
      rewrite Hm in *. assert (Hn : In New (threads s)) by (apply Pn; discriminate).
      constructor; prj; auto.
      + cbn [mainn] in *. lia.
      + intros _ _ _. exists New. auto.
    - (* known *)
      assert (T1 := tot_notified busy _ _ _ eq_refl Hnot). assert (T2 := tot_notified stop _ _ _ eq_refl Hnot).
      assert (Hx : x <> []) by (apply Hne; apply (c_held _ _ _ _ C); right; left; rewrite Hk; left; auto).
      rewrite Hm in *. constructor; prj; rewrite ?put_workers, ?put_queue.
      + cbn [mainn] in *. lia.
      + intros H Hw. apply (notified_in _ _ _ _ Hnot) in Hw. destruct Hw as [Hw|]; [|discriminate]. apply Ps; auto.
        inapp. destruct H as [H|H]; auto. destruct (snd _); [destruct H as [H|[]]; congruence|destruct H].
      + intros H. inapp. left. apply Pst. apply (notified_in _ _ _ _ Hnot) in H. destruct H as [|]; [auto|discriminate].
      + congruence.
      + intros _ H1 H2. destruct (snd (l_put_row (sh s) x)); [destruct (queue (sh s)); discriminate|]. rewrite app_nil_r in H2.
        cbn [notified] in Hnot. subst ths'. auto.
      + intros Hq Hw. destruct (snd (l_put_row (sh s) x)).
        * exists Woken. split; auto. apply (notified_wait _ _ Hnot Hw).
        * cbn [notified] in Hnot. subst ths'. rewrite app_nil_r in Hq. auto.
    - (* start *)
      rewrite Hm, Ht in *. constructor; prj; auto.
      + rewrite !tot_app, !tot_cons in *. cbn [busy stop mainn] in *. lia.
      + intros H Hw. apply (Ps H). inapp. intuition discriminate.
      + intros H. apply Pst. inapp. intuition discriminate.
      + congruence.
      + intros _ _ _. exists Entry. inapp. auto.
      + intros _ _. exists Entry. inapp. auto.
    - (* test *)
      rewrite Ht in *. constructor; prj; auto.
      + rewrite !tot_app, !tot_cons in *. destruct (l_empty (sh s)); cbn [busy stop mainn] in *; lia.
      + intros H Hw. apply (Ps H). inapp. destruct (l_empty (sh s)); intuition discriminate.
      + intros H. apply Pst. inapp. destruct (l_empty (sh s)); intuition discriminate.
      + intros H. specialize (Pn H). inapp. intuition discriminate.
      + intros _ Hw Hq. unfold l_empty. rewrite Hw, Hq. exists Abort1. inapp. auto.
      + intros _ _. destruct (l_empty (sh s)); [exists Abort1|exists Lock]; inapp; auto.
    - (* abort1 *)
      rewrite Ht in *. constructor; prj; auto.
      + rewrite !tot_app, !tot_cons in *. cbn [busy stop] in *. lia.
      + intros H Hw. apply (Ps H). inapp. intuition discriminate.
      + intros H. apply Pst. inapp. intuition discriminate.
      + intros H. specialize (Pn H). inapp. intuition discriminate.
      + intros _ _ _. exists Abort2. inapp. auto.
      + intros _ _. exists Abort2. inapp. auto.
    - (* abort2 *)
      rewrite Ht in *. constructor; prj.
      + rewrite !tot_app, !tot_cons, !tot_wake in * by auto. cbn [busy stop] in *. lia.
      + intros _ Hw. inapp. destruct Hw as [H|[H|H]]; [|discriminate|]; apply wake_in in H; intuition congruence.
      + intros _. inapp. auto.
      + intros H. specialize (Pn H). inapp. destruct Pn as [H1|[H1|H1]]; [|discriminate|]; apply wake_keep in H1; try discriminate; auto.
      + intros _ _ H. destruct (queue (sh s)); discriminate.
      + intros _ _. exists Lock. inapp. auto.
    - (* wait *)
      rewrite Ht in *. constructor; prj; auto.
      + rewrite !tot_app, !tot_cons in *. destruct Hp as [-> | ->]; cbn [busy stop] in *; lia.
      + rewrite Hq. intros [].
      + intros H. apply Pst. inapp. intuition discriminate.
      + intros H. specialize (Pn H). inapp. destruct Pn as [|[H1|]]; auto. subst. destruct Hp; discriminate.
      + intros H1 H2 _. destruct (Pi H1 H2 Hq) as (p' & Hp' & He). exists p'. split; auto. inapp. destruct Hp' as [|[<-|]]; auto.
        destruct Hp as [-> | ->]; discriminate.
      + congruence.
    - (* take *)
      rewrite Ht in *. constructor; prj; rewrite ?take_workers.
      + rewrite !tot_app, !tot_cons in *. destruct Hp as [-> | ->], r; cbn [busy stop] in *; lia.
      + intros H Hw. assert (Hin : In [] (queue (sh s))).
        { rewrite Hq. destruct r; [left; auto|]. right. exact H. }
        apply (Ps Hin). inapp. destruct Hw as [|[H1|]]; auto. destruct r; discriminate.
      + intros H. destruct r as [|z r]; prj; [rewrite Hq; left; auto|].
        assert (In [] (queue (sh s))) as Hin by (apply Pst; inapp; intuition discriminate). rewrite Hq in Hin. destruct Hin; [discriminate|auto].
      + intros H. specialize (Pn H). inapp. destruct Pn as [|[H1|]]; auto. subst. destruct Hp; discriminate.
      + intros _ H. lia.
      + intros _ Hw. destruct r as [|z r].
        * exfalso. apply Ps; [rewrite Hq; left; auto|]. inapp. intuition discriminate.
        * exists (Work (z :: r)). inapp. auto.
    - (* work *)
      rewrite Ht in *. constructor; prj; auto.
      + rewrite !tot_app, !tot_cons in *. cbn [busy stop] in *. lia.
      + intros H Hw. apply (Ps H). inapp. intuition discriminate.
      + intros H. apply Pst. inapp. intuition discriminate.
      + intros H. specialize (Pn H). inapp. intuition discriminate.
      + intros H1 H2 H3. destruct (Pi H1 H2 H3) as (p' & Hp' & He). exists p'. split; auto. inapp. destruct Hp' as [|[<-|]]; auto. discriminate.
      + intros _ _. exists (Put (nb r)). inapp. auto.
    - (* put *)
      assert (T1 := tot_notified busy _ _ _ eq_refl Hnot). assert (T2 := tot_notified stop _ _ _ eq_refl Hnot).
      assert (Hx : x <> []).
      { apply Hne; apply (c_held _ _ _ _ C). right; right; right; left. exists (x :: l). split; [rewrite Ht; inapp; auto|left; auto]. }
      assert (Hput : In (Put l) ths') by (apply (notified_keep _ _ _ _ Hnot); [inapp; auto|discriminate]).
      rewrite Ht in *. constructor; prj; rewrite ?put_workers, ?put_queue.
      + rewrite T1, T2. rewrite !tot_app, !tot_cons in *. cbn [busy stop] in *. lia.
      + intros H Hw. apply (notified_in _ _ _ _ Hnot) in Hw. destruct Hw as [Hw|]; [|discriminate]. apply Ps.
        * inapp. destruct H as [H|H]; auto. destruct (snd _); [destruct H as [H|[]]; congruence|destruct H].
        * inapp. intuition discriminate.
      + intros H. inapp. left. apply Pst. apply (notified_in _ _ _ _ Hnot) in H. destruct H as [|]; [inapp; intuition discriminate|discriminate].
      + intros H. specialize (Pn H). apply (notified_keep _ _ _ _ Hnot); [|discriminate]. inapp. intuition discriminate.
      + intros H1 H2. rewrite !tot_app, !tot_cons in Pw. cbn [busy stop] in Pw. lia.
      + intros _ _. exists (Put l). auto.
    - (* done *)
      rewrite Ht in *. constructor; prj; auto.
      + rewrite !tot_app, !tot_cons in *. cbn [busy stop] in *. lia.
      + intros H Hw. apply (Ps H). inapp. intuition discriminate.
      + intros H. apply Pst. inapp. intuition discriminate.
      + intros H. specialize (Pn H). inapp. intuition discriminate.
      + intros _ _ _. exists Entry. inapp. auto.
      + intros _ _. exists Entry. inapp. auto.
    - (* spurious *)
      rewrite Ht in *. constructor; prj; auto.
      + rewrite !tot_app, !tot_cons in *. cbn [busy stop] in *. lia.
      + intros H Hw. apply (Ps H). inapp. auto.
      + intros H. apply Pst. inapp. intuition discriminate.
      + intros H. specialize (Pn H). inapp. intuition discriminate.
      + intros H1 H2 H3. destruct (Pi H1 H2 H3) as (p' & Hp' & He). exists p'. split; auto. inapp. destruct Hp' as [|[<-|]]; auto. discriminate.
      + intros _ _. exists Woken. inapp. auto.
  Qed.

  Lemma proto_run s ls s' : contents nb start kn s -> proto s -> run nb s ls s' -> proto s'.
  Proof.
    intros C P H. induction H as [|s l s1 ls s2 H0 IH H]; auto. apply (proto_step l s1); auto.
    apply (contents_run nb start kn Hne s ls); auto.
  Qed.

  (** ** No deadlock *)
  Lemma notified_ex b ths : exists ths', notified b ths ths'.
  Proof.
    destruct b; [|exists ths; reflexivity]. cbn [notified]. unfold notify_one.
    destruct (in_dec (fun p q : phase => ltac:(decide equality; apply list_eq_dec; try apply row_eq_dec; apply Z.eq_dec) : {p = q} + {p <> q}) Waiting ths) as [H|H].
    - apply in_split in H. destruct H as (l1 & l2 & ->). eexists. right. eauto.
    - exists ths. auto.
  Qed.
  Lemma active_step s p : main s = None -> In p (threads s) -> active p = true -> exists s', step nb Normal s s'.
  Proof.
    intros Hm Hp Ha. apply in_split in Hp. destruct Hp as (l1 & l2 & Ht). destruct p; try discriminate.
    - eexists. apply step_start; eauto.
    - eexists. apply step_test; eauto.
    - eexists. apply step_abort1; eauto.
    - eexists. apply step_abort2; eauto.
    - destruct (queue (sh s)) eqn:Hq; eexists; [eapply step_wait; eauto|eapply step_take; eauto].
    - destruct (queue (sh s)) eqn:Hq; eexists; [eapply step_wait; eauto|eapply step_take; eauto].
    - eexists. apply step_work; eauto.
    - destruct l as [|x l]; [eexists; apply step_done; eauto|].
      destruct (notified_ex (snd (l_put_row (sh s) x)) (l1 ++ Put l :: l2)) as (ths' & Hn). eexists. eapply step_put; eauto.
  Qed.
  Lemma no_deadlock s : proto s -> terminated s \/ exists s', step nb Normal s s'.
  Proof.
    intros [Pw Ps Pst Pn Pi Pk]. destruct (main s) as [[|x l]|] eqn:Hm.
    - right. eexists. apply step_main_done; auto.
    - right. destruct (notified_ex (snd (l_put_row (sh s) x)) (threads s)) as (ths' & Hn). eexists. eapply step_main_put; eauto.
    - destruct (known s) as [|x l] eqn:Hk.
      2:{ right. destruct (notified_ex (snd (l_put_row (sh s) x)) (threads s)) as (ths' & Hn). eexists. eapply step_known; eauto. }
      destruct (existsb active (threads s)) eqn:E.
      { apply existsb_exists in E. destruct E as (p & Hp & Ha). right. apply (active_step s p); auto. }
      assert (Hall : forall p, In p (threads s) -> p = Waiting \/ p = Stopped).
      { intros p Hp. destruct (active p) eqn:Ha; [|destruct p; try discriminate; auto].
        exfalso. assert (existsb active (threads s) = true); [|congruence]. apply existsb_exists. eauto. }
      left. split; auto. split; auto. intros p Hp. destruct (Hall p Hp) as [->|]; auto. exfalso.
      destruct (queue (sh s)) eqn:Hq.
      + destruct (Pi eq_refl) as (p' & Hp' & He); auto.
        * cbn [mainn] in Pw. rewrite Pw.
          assert (Hz : forall f, f Waiting = 0 -> f Stopped = 0 -> tot f (threads s) = 0).
          { intros f F1 F2. clear - F1 F2 Hall. induction (threads s) as [|q ths IH]; auto. rewrite tot_cons, IH; [|intros; apply Hall; right; auto].
            destruct (Hall q (or_introl eq_refl)) as [->| ->]; lia. }
          rewrite (Hz busy) by auto. destruct (tot stop (threads s)) eqn:Es; auto. exfalso.
          destruct (tot_ex stop (threads s)) as (p1 & Hp1 & Hs1); [lia|]. destruct (Hall p1 Hp1) as [->| ->]; [cbn in Hs1; lia|]. apply (Pst Hp1).
        * destruct (Hall p' Hp') as [->| ->]; discriminate.
      + destruct (Pk ltac:(discriminate) Hp) as (p' & Hp' & He). destruct (Hall p' Hp') as [->| ->]; discriminate.
  Qed.

  (** ** Completeness *)
  (** Some thread has found the list empty. *)
  Definition closing (s : state) : Prop := (exists p, In p (threads s) /\ (p = Abort1 \/ p = Abort2 \/ p = Stopped)) \/ In [] (queue (sh s)).
  Definition quiet (s : state) : Prop := main s = None /\ known s = [] /\ tot busy (threads s) = 0 /\ filter real (queue (sh s)) = [].

  Record todo (s : state) : Prop := {
    t_start : forall x, In x start -> In x (printed (sh s)) \/ exists l, main s = Some l /\ In x l;
    t_known : forall x, In x kn -> In x (printed (sh s)) \/ In x (known s);
    t_nb : forall r x, In r (printed (sh s)) -> In x (nb r) ->
      In r (queue (sh s)) \/ In (Work r) (threads s) \/ In x (printed (sh s)) \/ exists l, In (Put l) (threads s) /\ In x l
  }.

  Lemma todo_initial l m : todo (initial start kn l m).
  Proof. constructor; cbn; auto. intros x Hx. right. eauto. Qed.
  Lemma put_printed s x y : contents nb start kn s -> cl x -> In y (printed (fst (l_put_row (sh s) x))) <-> In y (printed (sh s)) \/ y = x.
  Proof.
    intros C Hx. destruct (put_spec (sh s) x) as [(_ & _ & ->)|(_ & Hi & ->)]; prj; inapp; [intuition|].
    split; auto. intros [| ->]; auto. apply (c_printed _ _ _ _ C). split; auto.
  Qed.
  Lemma put_printed_inv s x r : In r (printed (fst (l_put_row s x))) -> In r (printed s) \/ (r = x /\ In x (queue (fst (l_put_row s x)))).
  Proof.
    destruct (put_spec s x) as [(_ & _ & ->)|(_ & Hi & ->)]; prj; inapp; auto. intros [|[<-|[]]]; auto.
  Qed.

  Lemma todo_step l s s' : contents nb start kn s -> todo s -> step nb l s s' -> todo s'.
  Proof.
    intros C [Ts Tk Tn] Hs. steps Hs.
    - (* main put *)
      assert (Hx : cl x) by (apply (c_held _ _ _ _ C); left; exists (x :: l); split; [auto|left; auto]).
      assert (Pp := put_printed s x). constructor; prj.
      + intros y Hy. destruct (Ts y Hy) as [H|(l0 & H1 & H2)]; [left; apply Pp; auto|]. rewrite Hm in H1. inversion H1; subst.
        destruct H2 as [<-|H2]; [left; apply Pp; auto|right; eauto].
      + intros y Hy. destruct (Tk y Hy); auto. left. apply Pp; auto.
      + intros r y Hr Hy. rewrite put_queue. apply put_printed_inv in Hr. destruct Hr as [Hr|(-> & Hr)]; [|left; rewrite <- put_queue; auto].
        destruct (Tn r y Hr Hy) as [H|[H|[H|(l0 & H1 & H2)]]].
        * left. inapp. auto.
        * right. left. apply (notified_keep _ _ _ _ Hnot); auto. discriminate.
        * right. right. left. apply Pp; auto.
        * right. right. right. exists l0. split; auto. apply (notified_keep _ _ _ _ Hnot); auto. discriminate.
    - (* main done *)
      constructor; prj; auto. intros y Hy. destruct (Ts y Hy) as [H|(l0 & H1 & H2)]; auto. rewrite Hm in H1. inversion H1; subst. destruct H2.
    - (* known *)
      assert (Hx : cl x) by (apply (c_held _ _ _ _ C); right; left; rewrite Hk; left; auto).
      assert (Pp := put_printed s x). constructor; prj.
      + intros y Hy. destruct (Ts y Hy) as [H|(l0 & H1 & H2)]; [left; apply Pp; auto|]. congruence.
      + intros y Hy. destruct (Tk y Hy) as [H|H]; [left; apply Pp; auto|]. rewrite Hk in H. destruct H as [<-|H]; auto. left. apply Pp; auto.
      + intros r y Hr Hy. rewrite put_queue. apply put_printed_inv in Hr. destruct Hr as [Hr|(-> & Hr)]; [|left; rewrite <- put_queue; auto].
        destruct (Tn r y Hr Hy) as [H|[H|[H|(l0 & H1 & H2)]]].
        * left. inapp. auto.
        * right. left. apply (notified_keep _ _ _ _ Hnot); auto. discriminate.
        * right. right. left. apply Pp; auto.
        * right. right. right. exists l0. split; auto. apply (notified_keep _ _ _ _ Hnot); auto. discriminate.
    - rewrite <- Hm in *. constructor; prj; auto. rewrite Ht in Tn.
      intros r y Hr Hy. destruct (Tn r y Hr Hy) as [H|[H|[H|(l0 & H1 & H2)]]]; auto; inapp.
      + right; left. intuition discriminate.
      + right; right; right. exists l0. inapp. intuition discriminate.
    - constructor; prj; auto. rewrite Ht in Tn.
      intros r y Hr Hy. destruct (Tn r y Hr Hy) as [H|[H|[H|(l0 & H1 & H2)]]]; auto; inapp.
      + right; left. intuition discriminate.
      + right; right; right. exists l0. inapp. intuition discriminate.
    - constructor; prj; auto. rewrite Ht in Tn.
      intros r y Hr Hy. destruct (Tn r y Hr Hy) as [H|[H|[H|(l0 & H1 & H2)]]]; auto; inapp.
      + right; left. intuition discriminate.
      + right; right; right. exists l0. inapp. intuition discriminate.
    - constructor; prj; auto. rewrite Ht in Tn.
      intros r y Hr Hy. destruct (Tn r y Hr Hy) as [H|[H|[H|(l0 & H1 & H2)]]]; auto; inapp; auto.
      + right; left. destruct H as [H|[H|H]]; [|discriminate|]; apply wake_keep in H; try discriminate; auto.
      + right; right; right. exists l0. inapp. split; auto. destruct H1 as [H|[H|H]]; [|discriminate|]; apply wake_keep in H; try discriminate; auto.
    - constructor; prj; auto. rewrite Ht in Tn.
      intros r y Hr Hy. destruct (Tn r y Hr Hy) as [H|[H|[H|(l0 & H1 & H2)]]]; auto; inapp.
      + right; left. destruct H as [|[H|]]; auto. subst. destruct Hp; discriminate.
      + right; right; right. exists l0. inapp. split; auto. destruct H1 as [|[H|]]; auto. subst. destruct Hp; discriminate.
    - (* take *)
      rewrite Ht in Tn. assert (Hpr : printed (l_take (sh s) r q) = printed (sh s)) by (destruct r; reflexivity).
      constructor; prj; rewrite ?Hpr; auto.
      intros r' y Hr Hy. destruct (Tn r' y Hr Hy) as [H|[H|[H|(l0 & H1 & H2)]]]; auto; inapp.
      + rewrite Hq in H. destruct r as [|z r].
        * left. prj. rewrite Hq. auto.
        * prj. destruct H as [<-|H]; auto.
      + right; left. destruct H as [|[H|]]; auto. subst. destruct Hp; discriminate.
      + right; right; right. exists l0. inapp. split; auto. destruct H1 as [|[H|]]; auto. subst. destruct Hp; discriminate.
    - (* work *)
      constructor; prj; auto. rewrite Ht in Tn.
      intros r' y Hr Hy. destruct (Tn r' y Hr Hy) as [H|[H|[H|(l0 & H1 & H2)]]]; auto; inapp.
      + destruct H as [H|[H|H]]; auto. inversion H; subst. right; right; right. exists (nb r'). inapp. auto.
      + right; right; right. exists l0. inapp. intuition discriminate.
    - (* put *)
      assert (Hx : cl x) by (apply (c_held _ _ _ _ C); right; right; right; left; exists (x :: l); split; [rewrite Ht; inapp; auto|left; auto]).
      assert (Pp := put_printed s x). constructor; prj.
      + intros y Hy. destruct (Ts y Hy) as [H|(l0 & H1 & H2)]; [left; apply Pp; auto|]. eauto.
      + intros y Hy. destruct (Tk y Hy); auto. left. apply Pp; auto.
      + intros r y Hr Hy. rewrite put_queue. apply put_printed_inv in Hr. destruct Hr as [Hr|(-> & Hr)]; [|left; rewrite <- put_queue; auto].
        rewrite Ht in Tn. destruct (Tn r y Hr Hy) as [H|[H|[H|(l0 & H1 & H2)]]].
        * left. inapp. auto.
        * right. left. apply (notified_keep _ _ _ _ Hnot); [|discriminate]. inapp. intuition discriminate.
        * right. right. left. apply Pp; auto.
        * inapp. destruct H1 as [H1|[H1|H1]].
          -- right. right. right. exists l0. split; auto. apply (notified_keep _ _ _ _ Hnot); [|discriminate]. inapp. auto.
          -- inversion H1; subst. destruct H2 as [<-|H2]; [right; right; left; apply Pp; auto|].
             right. right. right. exists l. split; auto. apply (notified_keep _ _ _ _ Hnot); [|discriminate]. inapp. auto.
          -- right. right. right. exists l0. split; auto. apply (notified_keep _ _ _ _ Hnot); [|discriminate]. inapp. auto.
    - constructor; prj; auto. rewrite Ht in Tn.
      intros r y Hr Hy. destruct (Tn r y Hr Hy) as [H|[H|[H|(l0 & H1 & H2)]]]; auto; inapp.
      + right; left. intuition discriminate.
      + destruct H1 as [H1|[H1|H1]]; [|inversion H1; subst; destruct H2|]; right; right; right; exists l0; inapp; auto.
    - constructor; prj; auto. rewrite Ht in Tn.
      intros r y Hr Hy. destruct (Tn r y Hr Hy) as [H|[H|[H|(l0 & H1 & H2)]]]; auto; inapp.
      + right; left. intuition discriminate.
      + right; right; right. exists l0. inapp. intuition discriminate.
  Qed.
  Lemma todo_run s ls s' : contents nb start kn s -> todo s -> run nb s ls s' -> todo s'.
  Proof.
    intros C P H. induction H as [|s l s1 ls s2 H0 IH H]; auto. apply (todo_step l s1); auto.
    apply (contents_run nb start kn Hne s ls); auto.
  Qed.

  (** Once nothing is left to the asynchronous task, the list is found empty only when there is nothing left to do. *)
  Lemma not_closing_put s x b ths ths' : x <> [] -> b = snd (l_put_row (sh s) x) -> notified b ths ths' ->
    ((exists p, In p ths' /\ (p = Abort1 \/ p = Abort2 \/ p = Stopped)) \/ In [] (queue (fst (l_put_row (sh s) x)))) ->
    (exists p, In p ths /\ (p = Abort1 \/ p = Abort2 \/ p = Stopped)) \/ In [] (queue (sh s)).
  Proof.
    intros Hx Hb Hnot [(p & Hp & Hpp)|H].
    - left. exists p. split; auto. apply (notified_in _ _ _ _ Hnot) in Hp. destruct Hp as [|]; auto. subst p. intuition discriminate.
    - right. rewrite put_queue in H. inapp. destruct H as [|H]; auto. destruct (snd (l_put_row (sh s) x)); [destruct H as [H|[]]; congruence|destruct H].
  Qed.
  Lemma quiet_step l s s' : contents nb start kn s -> proto s -> known s = [] -> (closing s -> quiet s) -> step nb l s s' -> known s' = [] /\ (closing s' -> quiet s').
  Proof.
    intros C [Pw Ps Pst Pn Pi Pk] Hk0 Hc Hs. steps Hs; prj; (split; [try assumption; try congruence|]); unfold closing, quiet in *; prj.
    - assert (Hx : x <> []) by (apply Hne; apply (c_held _ _ _ _ C); left; exists (x :: l); split; [auto|left; auto]).
      intros H. exfalso. apply (not_closing_put s x _ _ _ Hx eq_refl Hnot) in H. destruct (Hc H) as (H1 & _). congruence.
    - intros H. destruct (Hc H) as (H1 & _). congruence.
    - congruence.
    - rewrite Ht in *. intros H. rewrite !tot_app, !tot_cons in *. cbn [busy] in *. destruct Hc as (H1 & H2 & H3 & H4); [|auto].
      destruct H as [(p & Hp & Hpp)|H]; auto. left. exists p. split; auto. inapp. destruct Hp as [|[<-|]]; auto. intuition discriminate.
    - rewrite Ht in *. intros H. rewrite !tot_app, !tot_cons in *. cbn [busy stop] in *.
      destruct (l_empty (sh s)) eqn:E.
      + unfold l_empty in E. apply andb_true_iff in E. destruct E as (E1 & E2). apply Nat.eqb_eq in E1. destruct (queue (sh s)); [|discriminate].
        cbn [busy filter]. destruct (main s); cbn [mainn] in Pw; [lia|]. repeat split; auto. lia.
      + cbn [busy]. apply Hc. destruct H as [(p & Hp & Hpp)|H]; auto. left. exists p. split; auto. inapp. destruct Hp as [|[<-|]]; auto. intuition discriminate.
    - rewrite Ht in *. intros H. rewrite !tot_app, !tot_cons in *. cbn [busy] in *. apply Hc. left. exists Abort1. inapp. auto.
    - rewrite Ht in *. intros H. rewrite !tot_app, !tot_cons, !tot_wake in * by auto. cbn [busy] in *.
      destruct Hc as (H1 & H2 & H3 & H4); [left; exists Abort2; inapp; auto|]. repeat split; auto. rewrite filter_app, H4. reflexivity.
    - rewrite Ht in *. intros H. rewrite !tot_app, !tot_cons in *. assert (Bp : busy p = 0) by (destruct Hp; subst; auto). rewrite Bp in *. cbn [busy].
      apply Hc. destruct H as [(p' & Hp' & Hpp)|H]; auto. left. exists p'. split; auto. inapp. destruct Hp' as [|[<-|]]; auto. intuition discriminate.
    - rewrite Ht in *. intros H. rewrite !tot_app, !tot_cons in *. assert (Bp : busy p = 0) by (destruct Hp; subst; auto). rewrite Bp in *.
      destruct r as [|z r].
      + prj. cbn [busy]. apply Hc. right. rewrite Hq. left; auto.
      + exfalso. destruct Hc as (_ & _ & _ & H4).
        * destruct H as [(p' & Hp' & Hpp)|H]; [|right; rewrite Hq; right; auto]. left. exists p'. split; auto. inapp. destruct Hp' as [|[<-|]]; auto. intuition discriminate.
        * rewrite Hq in H4. discriminate.
    - rewrite Ht in *. intros H. exfalso. rewrite !tot_app, !tot_cons in *. cbn [busy] in *. destruct Hc as (_ & _ & H3 & _); [|lia].
      destruct H as [(p' & Hp' & Hpp)|H]; auto. left. exists p'. split; auto. inapp. destruct Hp' as [|[<-|]]; auto. intuition discriminate.
    - assert (Hx : x <> []).
      { apply Hne; apply (c_held _ _ _ _ C). right; right; right; left. exists (x :: l). split; [rewrite Ht; inapp; auto|left; auto]. }
      intros H. exfalso. apply (not_closing_put s x _ _ _ Hx eq_refl Hnot) in H. rewrite Ht, !tot_app, !tot_cons in Hc. cbn [busy] in Hc. destruct Hc as (_ & _ & H3 & _); [|lia].
      destruct H as [(p' & Hp' & Hpp)|H]; auto. left. exists p'. split; auto. inapp. destruct Hp' as [|[<-|]]; auto. intuition discriminate.
    - rewrite Ht in *. intros H. exfalso. rewrite !tot_app, !tot_cons in *. cbn [busy] in *. destruct Hc as (_ & _ & H3 & _); [|lia].
      destruct H as [(p' & Hp' & Hpp)|H]; auto. left. exists p'. split; auto. inapp. destruct Hp' as [|[<-|]]; auto. intuition discriminate.
    - rewrite Ht in *. intros H. rewrite !tot_app, !tot_cons in *. cbn [busy] in *.
      apply Hc. destruct H as [(p' & Hp' & Hpp)|H]; auto. left. exists p'. split; auto. inapp. destruct Hp' as [|[<-|]]; auto. intuition discriminate.
  Qed.

  Lemma quiet_run s ls s' : contents nb start kn s -> proto s -> known s = [] -> (closing s -> quiet s) -> run nb s ls s' -> known s' = [] /\ (closing s' -> quiet s').
  Proof.
    intros C P Hk Hq H. induction H as [|s l s1 ls s2 H0 IH H]; auto. destruct IH as (I1 & I2); auto. apply (quiet_step l s1); auto.
    - apply (contents_run nb start kn Hne s ls); auto.
    - apply (proto_run s ls); auto.
  Qed.

  Lemma complete s : contents nb start kn s -> todo s -> main s = None -> known s = [] -> tot busy (threads s) = 0 -> filter real (queue (sh s)) = [] ->
    forall r, In r (printed (sh s)) <-> cl r.
  Proof.
    intros C T Hm Hk Hb Hq r. split; [intros H; apply (c_held _ _ _ _ C); right; right; right; right; auto|].
    induction 1 as [r Hr|r x Hr IH Hx].
    - inapp. destruct Hr as [Hr|Hr].
      + destruct (t_start _ T r Hr) as [|(l & H & _)]; auto. congruence.
      + destruct (t_known _ T r Hr) as [|H]; auto. rewrite Hk in H. destruct H.
    - destruct (t_nb _ T r x IH Hx) as [H|[H|[H|(l & H & _)]]]; auto; exfalso.
      + assert (Hr' := Hne r Hr). assert (Q : In r (filter real (queue (sh s)))) by (apply filter_In; split; auto; apply real_ne; auto). rewrite Hq in Q. destruct Q.
      + assert (Q := tot_zero busy _ Hb _ H). discriminate.
      + assert (Q := tot_zero busy _ Hb _ H). discriminate.
  Qed.

  (** All start and known rows are printed when the program ends, in any case. *)
  Lemma given_printed s r : todo s -> terminated s -> In r (start ++ kn) -> In r (printed (sh s)).
  Proof.
    intros T (Hm & Hk & _) Hr. inapp. destruct Hr as [Hr|Hr].
    - destruct (t_start _ T r Hr) as [|(l & H & _)]; auto. congruence.
    - destruct (t_known _ T r Hr) as [|H]; auto. rewrite Hk in H. destruct H.
  Qed.

  (** ** Termination *)
  Section Measure.
    Variable C : list vec.
    Variable N : nat.
    Hypothesis HC : forall r, cl r -> In r C.

    Definition weight (r : vec) : nat := match r with [] => 0 | _ => N + 7 + length (nb r) end.
    Definition pw (p : phase) : nat :=
      match p with
      | Stopped => 0 | Waiting => 1 | Woken | Lock => 2 | Abort2 => N + 3 | Abort1 => N + 4 | Entry => N + 5 | New => N + 6
      | Put l => N + 6 + length l | Work r => N + 7 + length (nb r)
      end.
    Definition sumw (f : vec -> nat) (l : list vec) : nat := fold_right (fun r n => f r + n) 0 l.
    Definition fresh (rs : list vec) : nat := sumw (fun r => if in_dec row_eq_dec r rs then 0 else weight r + 2) C.
    Definition mainw (m : option (list vec)) : nat := match m with None => 0 | Some l => length l + 1 end.
    Definition measure (s : state) : nat :=
      tot pw (threads s) + sumw weight (queue (sh s)) + fresh (rows (sh s)) + mainw (main s) + length (known s).

    Lemma sumw_cons f x l : sumw f (x :: l) = f x + sumw f l. Proof. reflexivity. Qed.
    Lemma sumw_app f a b : sumw f (a ++ b) = sumw f a + sumw f b.
    Proof. induction a as [|x a IH]; cbn [app sumw fold_right] in *; auto. fold (sumw f (a ++ b)) in *. fold (sumw f a) in *. lia. Qed.
    Lemma sumw_le f g l : (forall x, In x l -> f x <= g x) -> sumw f l <= sumw g l.
    Proof.
      induction l as [|x l IH]; intros H; cbn [sumw fold_right]; auto. fold (sumw f l). fold (sumw g l).
      assert (H1 := H x (or_introl eq_refl)). assert (H2 := IH (fun y Hy => H y (or_intror Hy))). lia.
    Qed.
    Lemma sumw_lt f g l x k : (forall x, In x l -> f x <= g x) -> In x l -> f x + k <= g x -> sumw f l + k <= sumw g l.
    Proof.
      induction l as [|y l IH]; intros H Hx Hk; destruct Hx; cbn [sumw fold_right]; fold (sumw f l); fold (sumw g l).
      - subst y. assert (Q := sumw_le f g l (fun y Hy => H y (or_intror Hy))). lia.
      - assert (Q := IH (fun y Hy => H y (or_intror Hy)) H0 Hk). assert (H1 := H y (or_introl eq_refl)). lia.
    Qed.
    Lemma fresh_add rs x : In x C -> ~ In x rs -> fresh (rs ++ [x]) + (weight x + 2) <= fresh rs.
    Proof.
      intros Hx Hn. unfold fresh. apply (sumw_lt _ _ _ x); auto.
      - intros y _. destruct (in_dec row_eq_dec y (rs ++ [x])) as [|H1], (in_dec row_eq_dec y rs) as [H2|]; try lia. exfalso. apply H1. inapp. auto.
      - destruct (in_dec row_eq_dec x (rs ++ [x])) as [|H1]; [|exfalso; apply H1; inapp; auto]. destruct (in_dec row_eq_dec x rs); [contradiction|]. lia.
    Qed.
    Lemma fresh_le rs r : fresh (rs ++ [r]) <= fresh rs.
    Proof.
      apply sumw_le. intros y _. destruct (in_dec row_eq_dec y (rs ++ [r])) as [|H1], (in_dec row_eq_dec y rs) as [H2|]; try lia.
      exfalso. apply H1. inapp. auto.
    Qed.
    Lemma tot_notified_pw b ths ths' : notified b ths ths' -> tot pw ths' <= tot pw ths + (if b then 1 else 0).
    Proof.
      intros H. destruct b; cbn [notified] in H; [|subst; lia]. destruct H as [(_ & ->)|(l1 & l2 & -> & ->)]; [lia|].
      rewrite !tot_app, !tot_cons. cbn [pw]. lia.
    Qed.
    Lemma tot_wake_pw ths : tot pw (map wake ths) <= tot pw ths + length ths.
    Proof. induction ths as [|p ths IH]; cbn [map length]; auto. rewrite !tot_cons. destruct p; cbn [wake pw]; lia. Qed.

    Lemma put_measure s x : cl x -> sumw weight (queue (fst (l_put_row (sh s) x))) + fresh (rows (fst (l_put_row (sh s) x))) + (if snd (l_put_row (sh s) x) then 2 else 0) <=
      sumw weight (queue (sh s)) + fresh (rows (sh s)).
    Proof.
      intros Hx. destruct (put_spec (sh s) x) as [(-> & Hn & ->)|(-> & _ & ->)]; prj; [|lia].
      assert (Q := fresh_add (rows (sh s)) x (HC x Hx) Hn). rewrite sumw_app. cbn [sumw fold_right]. lia.
    Qed.

    Lemma measure_step l s s' : contents nb start kn s -> length (threads s) <= N -> step nb l s s' ->
      length (threads s') <= N /\ match l with Normal => measure s' < measure s | Spurious => measure s' <= measure s + 1 end.
    Proof.
      intros Cs HN Hs. unfold measure. 
      assert (Hlen : forall b ths ths', notified b ths ths' -> length ths' = length ths).
      { intros b ths ths' H. destruct b; cbn [notified] in H; [|subst; auto]. destruct H as [(_ & ->)|(l1 & l2 & -> & ->)]; auto. rewrite !app_length. reflexivity. }
      steps Hs; prj.
      - assert (Hx : cl x) by (apply (c_held _ _ _ _ Cs); left; exists (x :: l); split; [auto|left; auto]).
        assert (Q := put_measure s x Hx). assert (W := tot_notified_pw _ _ _ Hnot). rewrite (Hlen _ _ _ Hnot), Hm. cbn [mainw length].
        split; auto. destruct (snd _); lia.
      - rewrite Hm. cbn [mainw length]. split; auto. lia.
      - assert (Hx : cl x) by (apply (c_held _ _ _ _ Cs); right; left; rewrite Hk; left; auto).
        assert (Q := put_measure s x Hx). assert (W := tot_notified_pw _ _ _ Hnot). rewrite (Hlen _ _ _ Hnot), Hm, Hk. cbn [mainw length].
        split; auto. destruct (snd _); lia.
      - rewrite Ht in *. rewrite Hm. rewrite !app_length, !tot_app, !tot_cons in *. cbn [length pw] in *. split; lia.
      - rewrite Ht in *. rewrite !app_length, !tot_app, !tot_cons in *. cbn [length] in *. destruct (l_empty (sh s)); cbn [pw]; split; lia.
      - rewrite Ht in *. rewrite !app_length, !tot_app, !tot_cons in *. cbn [length pw] in *.
        destruct (l_insert (rows (sh s)) []) as [rs b] eqn:E. apply insert_spec in E. cbn [fst].
        assert (Q := fresh_le (rows (sh s)) []). split; auto. destruct E as [(_ & _ & ->)|(_ & _ & ->)]; lia.
      - rewrite Ht in *. rewrite !app_length, !tot_app, !tot_cons in *. cbn [length pw] in *. rewrite !map_length. split; auto.
        assert (W1 := tot_wake_pw l1). assert (W2 := tot_wake_pw l2). rewrite sumw_app. cbn [sumw fold_right weight]. lia.
      - rewrite Ht in *. rewrite !app_length, !tot_app, !tot_cons in *. cbn [length] in *. destruct Hp; subst; cbn [pw]; split; auto; lia.
      - rewrite Ht in *. rewrite !app_length, !tot_app, !tot_cons in *. cbn [length] in *. rewrite Hq. split; auto.
        assert (Pp : pw p = 2) by (destruct Hp; subst; auto). rewrite Pp. destruct r as [|z r]; prj; rewrite ?Hq, ?sumw_cons; cbn [pw weight]; lia.
      - rewrite Ht in *. rewrite !app_length, !tot_app, !tot_cons in *. cbn [length pw] in *. split; lia.
      - assert (Hx : cl x).
        { apply (c_held _ _ _ _ Cs). right; right; right; left. exists (x :: l). split; [rewrite Ht; inapp; auto|left; auto]. }
        assert (Q := put_measure s x Hx). assert (W := tot_notified_pw _ _ _ Hnot). rewrite (Hlen _ _ _ Hnot). rewrite Ht in *.
        rewrite !app_length, !tot_app, !tot_cons in *. cbn [length pw] in *. split; auto. destruct (snd _); lia.
      - rewrite Ht in *. rewrite !app_length, !tot_app, !tot_cons in *. cbn [length pw] in *. split; lia.
      - rewrite Ht in *. rewrite !app_length, !tot_app, !tot_cons in *. cbn [length pw] in *. split; lia.
    Qed.

    Definition is_normal (l : label) : bool := match l with Normal => true | Spurious => false end.
    Lemma measure_run s ls s' : contents nb start kn s -> length (threads s) <= N -> run nb s ls s' ->
      length (threads s') <= N /\
      length (filter is_normal ls) + measure s' <= measure s + length (filter (fun l => negb (is_normal l)) ls).
    Proof.
      intros Cs HN H. induction H as [s|s l s1 ls s2 H0 IH H]; [cbn [filter length]; split; [auto|lia]|]. destruct (IH Cs HN) as (I1 & I2).
      assert (C1 := contents_run nb start kn Hne s ls s1 Cs H0). destruct (measure_step l s1 s2 C1 I1 H) as (J1 & J2).
      split; auto. rewrite !filter_app, !app_length. destruct l; cbn [is_normal negb filter length]; lia.
    Qed.

    Lemma finishes s : contents nb start kn s -> proto s -> length (threads s) <= N ->
      exists ls s', run nb s ls s' /\ Forall (eq Normal) ls /\ terminated s'.
    Proof.
      remember (measure s) as k eqn:Ek. revert s Ek. induction k as [k IH] using lt_wf_ind. intros s -> Cs P HN.
      destruct (no_deadlock s P) as [Ht|(s1 & Hs)].
      - exists [], s. split; [constructor|]. split; auto.
      - destruct (measure_step Normal s s1 Cs HN Hs) as (H1 & H2).
        destruct (IH (measure s1) H2 s1 eq_refl) as (ls & s' & Hr & Hf & Ht); auto.
        + apply (contents_step nb start kn Hne Normal s); auto.
        + apply (proto_step Normal s); auto.
        + exists (Normal :: ls), s'. split; [|split; auto].
          clear - Hs Hr. induction Hr as [s1|s1 l s2 ls s3 _ IH H]; [apply (run_step nb _ Normal _ [] _ (run_nil nb _) Hs)|].
          change (Normal :: ls ++ [l]) with ((Normal :: ls) ++ [l]). eapply run_step; eauto.
    Qed.
  End Measure.
End Protocol.
