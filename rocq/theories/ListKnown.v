(** * ListKnown: known rows that would be found anyway do no harm. *)
From Coq Require Import List ZArith Arith Bool Lia.
From Verif Require Import Spec ListModel ListProofs ListProtocol ListTheorems.
Import ListNotations.
Open Scope nat_scope.

Definition unknow (s : state) : state := State (sh s) (main s) (threads s) [].

Lemma step_unknow nb l s s' : step nb l s s' ->
  (exists x k ths', main s = None /\ known s = x :: k /\ notified (snd (l_put_row (sh s) x)) (threads s) ths' /\ s' = State (fst (l_put_row (sh s) x)) None ths' k) \/
  (known s' = known s /\ step nb l (unknow s) (unknow s')).
Proof.
  intros Hs. steps Hs; [..|]; try (right; split; [reflexivity|]; unfold unknow; prj).
  - exact (step_main_put nb (State (sh s) (main s) (threads s) []) x l ths' Hm Hnot).
  - exact (step_main_done nb (State (sh s) (main s) (threads s) []) Hm).
  - left. exists x, l, ths'. auto.
  - exact (step_start nb (State (sh s) (main s) (threads s) []) l1 l2 Hm Ht).
  - exact (step_test nb (State (sh s) (main s) (threads s) []) l1 l2 Ht).
  - exact (step_abort1 nb (State (sh s) (main s) (threads s) []) l1 l2 Ht).
  - exact (step_abort2 nb (State (sh s) (main s) (threads s) []) l1 l2 Ht).
  - exact (step_wait nb (State (sh s) (main s) (threads s) []) l1 l2 p Ht Hp Hq).
  - exact (step_take nb (State (sh s) (main s) (threads s) []) l1 l2 p r q Ht Hp Hq).
  - exact (step_work nb (State (sh s) (main s) (threads s) []) l1 l2 r Ht).
  - exact (step_put nb (State (sh s) (main s) (threads s) []) l1 l2 x l ths' Ht Hnot).
  - exact (step_done nb (State (sh s) (main s) (threads s) []) l1 l2 Ht).
  - exact (step_spurious nb (State (sh s) (main s) (threads s) []) l1 l2 Ht).
Qed.

Section Known.
  Variables (nb : vec -> list vec) (start kn : list vec).
  Notation cl := (closure nb (start ++ kn)).
  Hypothesis Hne : forall r, cl r -> r <> [].
  Hypothesis Hkn : forall x, In x kn -> closure nb start x.

  Lemma closure_known r : cl r <-> closure nb start r.
  Proof.
    split; induction 1 as [r Hr|r x _ IH Hx].
    - apply in_app_iff in Hr. destruct Hr as [Hr|Hr]; [apply closure_start; auto|auto].
    - apply (closure_step nb start r); auto.
    - apply closure_start. apply in_app_iff. auto.
    - apply (closure_step nb _ r); auto.
  Qed.

  Lemma contents_unknow s : contents nb start kn s -> contents nb start kn (unknow s).
  Proof.
    intros [C1 C2 C3 C4 C5]. constructor; auto. intros x Hx. apply C5. unfold held, unknow in *. prj. destruct Hx as [H|[[]|H]]; auto.
  Qed.

  (** All that is reachable from the start rows has been printed. *)
  Lemma complete_start s : contents nb start kn s -> todo nb start kn s -> quiet (unknow s) -> forall r, cl r -> In r (printed (sh s)).
  Proof.
    intros C T (Hm & _ & Hb & Hq) r Hr. unfold unknow in *. prj. apply closure_known in Hr. induction Hr as [r Hr|r x Hr IH Hx].
    - destruct (t_start _ _ _ _ T r Hr) as [|(l & H & _)]; auto. congruence.
    - destruct (t_nb _ _ _ _ T r x IH Hx) as [H|[H|[H|(l & H & _)]]]; auto; exfalso.
      + assert (Hr' : r <> []) by (apply Hne; apply closure_known; auto). assert (Q : In r (filter real (queue (sh s)))) by (apply filter_In; split; auto; apply real_ne; auto). rewrite Hq in Q. destruct Q.
      + assert (Q := tot_zero busy _ Hb _ H). discriminate.
      + assert (Q := tot_zero busy _ Hb _ H). discriminate.
  Qed.

  Lemma calm_step l s s' : contents nb start kn s -> todo nb start kn s -> proto s -> (closing s -> quiet (unknow s)) -> step nb l s s' -> closing s' -> quiet (unknow s').
  Proof.
    intros C T P Hc Hs. destruct (step_unknow nb l s s' Hs) as [(x & k & ths' & Hm & Hk & Hnot & ->)|(_ & Hs')].
    - intros H. assert (Hx : cl x) by (apply (c_held _ _ _ _ C); right; left; rewrite Hk; left; auto). unfold closing in H. prj.
      apply (not_closing_put s x _ _ _ (Hne x Hx) eq_refl Hnot) in H. specialize (Hc H). assert (Hin := complete_start s C T Hc x Hx).
      apply (c_printed _ _ _ _ C) in Hin. destruct (put_spec (sh s) x) as [(_ & Hn & _)|(E1 & _ & E2)]; [tauto|]. rewrite E1 in Hnot. cbn [notified] in Hnot. subst ths'. rewrite E2. unfold unknow, quiet in *. prj. tauto.
    - intros H. apply (quiet_step nb start kn Hne l (unknow s) (unknow s')); auto.
      + apply contents_unknow; auto.
      + destruct P as [P1 P2 P3 P4 P5 P6]. constructor; auto.
  Qed.
End Known.

(** A run to the end: exactly the reachable rows are printed, and all of them are processed. *)
Lemma known_complete nb start kn local remote ls s : (forall r, closure nb (start ++ kn) r -> r <> []) -> (forall x, In x kn -> closure nb start x) -> 0 < local ->
  run nb (initial start kn local remote) ls s -> terminated s ->
  (forall r, In r (printed (sh s)) <-> closure nb start r) /\ handed (sh s) = printed (sh s).
Proof.
  intros Hne Hkn Hl Hr Ht.
  assert (Q : closing s -> quiet (unknow s)).
  { clear Ht. remember (initial start kn local remote) as s0 eqn:E. induction Hr as [s|s0 l s1 ls s2 H0 IH H].
    - subst s. unfold closing, initial. prj. intros [(p & Hp & Hpp)|[]]. rewrite in_app_iff in Hp. destruct Hp as [H|H]; apply repeat_spec in H; subst; intuition discriminate.
    - specialize (IH E). subst s0. intros Hc. apply (calm_step nb start kn Hne Hkn l s1 s2); auto.
      + apply (r_contents nb start kn local remote Hne ls); auto.
      + apply (r_todo nb start kn local remote Hne ls); auto.
      + apply (r_proto nb start kn local remote Hne Hl ls); auto. }
  assert (C := r_contents nb start kn local remote Hne ls s Hr). assert (T := r_todo nb start kn local remote Hne ls s Hr).
  destruct Ht as (H1 & H2 & H3).
  assert (Hcl : closing s).
  { left. exists Stopped. split; auto. assert (L1 := run_length nb _ _ _ Hr). unfold initial in L1. cbn [threads] in L1. rewrite app_length, !repeat_length in L1.
    destruct (threads s) as [|p ths]; [cbn [length] in L1; lia|]. rewrite (H3 p (or_introl eq_refl)). left; auto. }
  specialize (Q Hcl). split.
  - intros r. rewrite <- (closure_known nb start kn Hkn). split; [|apply (complete_start nb start kn Hne Hkn s); auto].
    intros H. apply (c_held _ _ _ _ C). right; right; right; right. auto.
  - rewrite (c_fifo _ _ _ _ C). destruct Q as (_ & _ & _ & Q). unfold unknow in Q. prj. rewrite Q, app_nil_r. reflexivity.
Qed.

(** Whatever the known rows are, and whenever they are put: all rows reachable from the start rows are processed. *)
Lemma handed_grows nb l s s' : step nb l s s' -> incl (handed (sh s)) (handed (sh s')).
Proof.
  assert (P : forall j x, incl (handed j) (handed (fst (l_put_row j x)))) by (intros j x; unfold l_put_row; destruct (l_insert _ _) as [rs []]; cbn [fst handed]; apply incl_refl).
  intros Hs. steps Hs; prj; try apply incl_refl; try apply P. unfold l_take. destruct r; cbn [handed]; [apply incl_refl|apply incl_appl, incl_refl].
Qed.
Lemma closing_dec s : {closing s} + {~ closing s}.
Proof.
  unfold closing. destruct (in_dec (list_eq_dec Z.eq_dec) [] (queue (sh s))) as [H|H]; [left; right; exact H|].
  destruct (Exists_dec (fun p => p = Abort1 \/ p = Abort2 \/ p = Stopped) (threads s)) as [E|E].
  - intros p. destruct p; try (left; tauto); right; intuition discriminate.
  - left. left. apply Exists_exists in E. exact E.
  - right. intros [K|K]; [|tauto]. apply E. apply Exists_exists. exact K.
Qed.
Lemma start_complete nb start kn local remote ls s : (forall r, closure nb (start ++ kn) r -> r <> []) -> 0 < local ->
  run nb (initial start kn local remote) ls s -> terminated s -> forall r, closure nb start r -> In r (handed (sh s)).
Proof.
  intros Hne Hl Hr Ht.
  assert (Hsub : forall r, closure nb start r -> closure nb (start ++ kn) r).
  { induction 1 as [r Hin|r x _ IH Hx]; [apply closure_start, in_app_iff; auto|apply (closure_step nb _ r); auto]. }
  assert (J : closing s -> forall r, closure nb start r -> In r (handed (sh s))).
  { clear Ht. remember (initial start kn local remote) as s0 eqn:E. induction Hr as [s|s0 l s1 ls s2 H0 IH H].
    - subst s. unfold closing, initial. prj. intros [(p & Hp & Hpp)|[]]. rewrite in_app_iff in Hp. destruct Hp as [H|H]; apply repeat_spec in H; subst; intuition discriminate.
    - specialize (IH E). subst s0. intros Hc. destruct (closing_dec s1) as [H1|H1]; [intros r Hcl; apply (handed_grows nb l s1 s2 H); auto|].
      assert (C := r_contents nb start kn local remote Hne _ _ H0). assert (P := r_proto nb start kn local remote Hne Hl _ _ H0).
      assert (H02 : run nb (initial start kn local remote) (ls ++ [l]) s2) by (econstructor; eauto).
      assert (C2 := r_contents nb start kn local remote Hne _ _ H02). assert (T2 := r_todo nb start kn local remote Hne _ _ H02).
      assert (Q : quiet (unknow s2)).
      { destruct (step_unknow nb l s1 s2 H) as [(x & k & ths' & Hm & Hk & Hnot & ->)|(_ & Hs')].
        - exfalso. assert (Hx : closure nb (start ++ kn) x) by (apply (c_held _ _ _ _ C); right; left; rewrite Hk; left; auto). unfold closing in Hc. prj.
          apply (not_closing_put s1 x _ _ _ (Hne x Hx) eq_refl Hnot) in Hc. auto.
        - apply (quiet_step nb start kn Hne l (unknow s1) (unknow s2)); auto.
          + apply contents_unknow; auto.
          + destruct P as [P1 P2 P3 P4 P5 P6]. constructor; auto.
          + intros K. exfalso. auto. }
      assert (Hp : forall r, closure nb start r -> In r (printed (sh s2))).
      { destruct Q as (Hm & _ & Hb & Hq). unfold unknow in *. prj. intros r Hcl. induction Hcl as [r Hin|r x Hcl IHc Hx].
        - destruct (t_start _ _ _ _ T2 r Hin) as [|(l0 & K & _)]; auto. congruence.
        - destruct (t_nb _ _ _ _ T2 r x IHc Hx) as [K|[K|[K|(l0 & K & _)]]]; auto; exfalso.
          + assert (Hr' : r <> []) by (apply Hne; auto). assert (Q : In r (filter real (queue (sh s2)))) by (apply filter_In; split; auto; apply real_ne; auto). rewrite Hq in Q. destruct Q.
          + assert (Q := tot_zero busy _ Hb _ K). discriminate.
          + assert (Q := tot_zero busy _ Hb _ K). discriminate. }
      intros r Hcl. specialize (Hp r Hcl). rewrite (c_fifo _ _ _ _ C2) in Hp. destruct Q as (_ & _ & _ & Q). unfold unknow in Q. prj. rewrite Q, app_nil_r in Hp. exact Hp. }
  apply J. destruct Ht as (H1 & H2 & H3). left. exists Stopped. split; auto. assert (L1 := run_length nb _ _ _ Hr). unfold initial in L1. cbn [threads] in L1. rewrite app_length, !repeat_length in L1.
  destruct (threads s) as [|p ths]; [cbn [length] in L1; lia|]. rewrite (H3 p (or_introl eq_refl)). left; auto.
Qed.
