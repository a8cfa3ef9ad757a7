(** * ListTheorems: consequences of the invariants for runs from the start. *)
From Coq Require Import List ZArith Arith Bool Lia.
From Verif Require Import Spec ListModel ListProofs ListProtocol.
Import ListNotations.
Open Scope nat_scope.

Lemma run_cons nb l s s1 ls s2 : step nb l s s1 -> run nb s1 ls s2 -> run nb s (l :: ls) s2.
Proof.
  intros H R. induction R as [s0|s0 l' s2 ls s3 _ IH H']; [apply (run_step nb s l s [] s0 (run_nil nb s) H)|].
  change (l :: ls ++ [l']) with ((l :: ls) ++ [l']). eapply run_step; eauto.
Qed.
Lemma run_app nb s ls s1 ls' s2 : run nb s ls s1 -> run nb s1 ls' s2 -> run nb s (ls ++ ls') s2.
Proof.
  intros H R. induction R as [s0|s0 l' s2 ls' s3 _ IH H']; [rewrite app_nil_r; auto|].
  rewrite app_assoc. eapply run_step; eauto.
Qed.

Lemma run_length nb s ls s' : run nb s ls s' -> length (threads s') = length (threads s).
Proof.
  assert (Hn : forall b ths ths', notified b ths ths' -> length ths' = length ths).
  { intros b ths ths' H. destruct b; cbn [notified] in H; [|subst; auto]. destruct H as [(_ & ->)|(l1 & l2 & -> & ->)]; auto. rewrite !app_length. reflexivity. }
  induction 1 as [|s0 l s1 ls s2 _ IH H]; auto. rewrite <- IH. clear IH. steps H; prj; auto; try (rewrite ?Ht; rewrite !app_length; cbn [length]; rewrite ?map_length; reflexivity).
  - eapply Hn; eauto.
  - eapply Hn; eauto.
  - rewrite (Hn _ _ _ Hnot), Ht, !app_length. reflexivity.
Qed.

Section Runs.
  Variables (nb : vec -> list vec) (start kn : list vec) (local remote : nat).
  Notation cl := (closure nb (start ++ kn)).
  Hypothesis Hne : forall r, cl r -> r <> [].
  Hypothesis Hl : 0 < local.

  Variables (ls : list label) (s : state).
  Hypothesis Hr : run nb (initial start kn local remote) ls s.

  Lemma r_contents : contents nb start kn s.
  Proof. apply (contents_run nb start kn Hne (initial start kn local remote) ls); auto. apply contents_initial; auto. Qed.
  Lemma r_proto : proto s.
  Proof. apply (proto_run nb start kn Hne (initial start kn local remote) ls); auto using contents_initial, proto_initial. Qed.
  Lemma r_todo : todo nb start kn s.
  Proof. apply (todo_run nb start kn Hne (initial start kn local remote) ls); auto using todo_initial. apply contents_initial; auto. Qed.

  Lemma nodup_handed : NoDup (handed (sh s)) /\ exists rest, printed (sh s) = handed (sh s) ++ rest.
  Proof.
    assert (C := r_contents). split; [|eexists; apply (c_fifo _ _ _ _ C)]. assert (N := c_nodup _ _ _ _ C). rewrite (c_fifo _ _ _ _ C) in N.
    clear - N. induction (handed (sh s)) as [|x l IH]; [constructor|]. cbn [app] in N. inversion N; subst. constructor; auto. rewrite in_app_iff in H1. tauto.
  Qed.

  (** [s1] is a state in which the asynchronous task has finished and no thread has found the list empty. *)
  Lemma complete_after ls' s' : known s = [] -> ~ closing s -> run nb s ls' s' -> terminated s' ->
    (forall r, In r (printed (sh s')) <-> cl r) /\ handed (sh s') = printed (sh s').
  Proof.
    intros Hk Hc Hr' Ht. assert (Q := quiet_run nb start kn Hne s ls' s' r_contents r_proto Hk ltac:(intros; contradiction) Hr').
    assert (C' := contents_run nb start kn Hne _ _ _ r_contents Hr'). assert (T' := todo_run nb start kn Hne _ _ _ r_contents r_todo Hr').
    destruct Ht as (H1 & H2 & H3). destruct Q as (_ & Q).
    assert (Hcl : closing s').
    { left. exists Stopped. split; auto.
      assert (L1 := run_length nb _ _ _ Hr). assert (L2 := run_length nb _ _ _ Hr'). unfold initial in L1. cbn [threads] in L1. rewrite app_length, !repeat_length in L1.
      destruct (threads s') as [|p ths]; [cbn [length] in L2; lia|]. rewrite (H3 p (or_introl eq_refl)). left; auto. }
    destruct (Q Hcl) as (_ & _ & Hb & Hq). split; [intros r; apply (complete nb start kn Hne s'); auto|].
    rewrite (c_fifo _ _ _ _ C'), Hq, app_nil_r. reflexivity.
  Qed.

  Lemma abort_quiet l1 l2 : kn = [] -> threads s = l1 ++ Abort1 :: l2 -> known s = [] /\ quiet s.
  Proof.
    intros Hk Ht. destruct (quiet_run nb start kn Hne (initial start kn local remote) ls s) as (Q1 & Q2); auto.
    - apply contents_initial; auto.
    - apply proto_initial; auto.
    - unfold closing, initial. cbn [threads sh queue l_new]. intros [(p & Hp & Hpp)|[]]. rewrite in_app_iff in Hp. 
      destruct Hp as [H|H]; apply repeat_spec in H; subst; intuition discriminate.
    - split; auto. apply Q2. left. exists Abort1. split; auto. rewrite Ht, in_app_iff. right. left. auto.
  Qed.
  (** Without known rows only two unprotected insertions can race with each other. *)
  Lemma race_abort : kn = [] -> race s -> exists l1 l2 l3, threads s = l1 ++ Abort1 :: l2 ++ Abort1 :: l3.
  Proof.
    intros Hk (l1 & l2 & Ht & Hcase). destruct (abort_quiet l1 l2 Hk Ht) as (K1 & Hm & _ & Hb & Hq).
    destruct Hcase as [(p & Hp & Ha)|[(x & l & H)|(_ & x & l & H)]]; [|congruence|congruence].
    assert (Hin : In p (threads s)) by (rewrite Ht, in_app_iff in *; cbn [In]; tauto).
    assert (p = Abort1) as ->.
    { destruct p; cbn [accesses_rows] in Ha; try tauto.
      - destruct Ha as (r & q & E & Hr'). rewrite E in Hq. cbn [filter] in Hq. rewrite real_ne in Hq by auto. discriminate.
      - destruct Ha as (r & q & E & Hr'). rewrite E in Hq. cbn [filter] in Hq. rewrite real_ne in Hq by auto. discriminate.
      - assert (Q := tot_zero busy _ Hb _ Hin). discriminate. }
    rewrite in_app_iff in Hp. destruct Hp as [Hp|Hp]; apply in_split in Hp; destruct Hp as (m1 & m2 & ->).
    - exists m1, m2, l2. rewrite Ht, <- app_assoc. reflexivity.
    - exists l1, m1, m2. exact Ht.
  Qed.
End Runs.
