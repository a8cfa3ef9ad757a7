(** * ListRuns: runs of the job list with two neighbour functions that agree on the rows handed out. *)
From Coq Require Import List ZArith Arith Lia.
From Verif Require Import Base Spec ListUtil ListModel ListProofs.
Import ListNotations.
Open Scope nat_scope.
Open Scope list_scope.

(** Every row a thread works on has been handed out. *)
Definition working (s : state) : Prop := forall r, In (Work r) (threads s) -> In r (handed (sh s)).
Lemma put_handed s x : handed (fst (l_put_row s x)) = handed s.
Proof. unfold l_put_row. destruct (l_insert (rows s) x) as [rs []]; reflexivity. Qed.
Lemma take_handed s r q x : In x (handed s) -> In x (handed (l_take s r q)).
Proof. destruct r; cbn [l_take handed]; [auto|]. intros H. apply in_app_iff. auto. Qed.
Lemma step_handed nb l s s' x : step nb l s s' -> In x (handed (sh s)) -> In x (handed (sh s')).
Proof. intros H Hx. destruct H; cbn [sh]; rewrite ?put_handed; auto. apply take_handed; auto. Qed.
Lemma in_other {X} (x y : X) l1 l2 : In x (l1 ++ y :: l2) -> x = y \/ In x (l1 ++ l2).
Proof. rewrite !in_app_iff. cbn [In]. intros [H|[H|H]]; auto. Qed.
Lemma other_in {X} (x y : X) l1 l2 : In x (l1 ++ l2) -> In x (l1 ++ y :: l2).
Proof. rewrite !in_app_iff. cbn [In]. tauto. Qed.
Lemma step_working nb l s s' : working s -> step nb l s s' -> working s'.
Proof.
  intros W H r Hr. assert (K : In (Work r) (threads s) -> In r (handed (sh s'))) by (intros I; apply (step_handed nb l s s' r H), W, I).
  assert (O : forall p q l1 l2, threads s = l1 ++ p :: l2 -> q <> Work r -> In (Work r) (l1 ++ q :: l2) -> In (Work r) (threads s)).
  { intros p q l1 l2 E N I. apply in_other in I as [I|I]; [congruence|]. rewrite E. apply other_in; exact I. }
  destruct H; cbn [threads] in Hr.
  - apply (notified_in _ _ _ _ H0) in Hr as [Hr|Hr]; [auto|discriminate].
  - auto.
  - apply (notified_in _ _ _ _ H1) in Hr as [Hr|Hr]; [auto|discriminate].
  - apply K. eapply O; [exact H0| |exact Hr]. discriminate.
  - apply K. eapply O; [exact H| |exact Hr]. destruct (l_empty _); discriminate.
  - apply K. eapply O; [exact H| |exact Hr]. discriminate.
  - apply K. apply in_other in Hr as [Hr|Hr]; [discriminate Hr|]. rewrite H. apply in_app_iff in Hr. rewrite in_app_iff. cbn [In]. destruct Hr as [Hr|Hr]; apply wake_in in Hr as (_ & [Hr|Hr]); try discriminate; auto.
  - apply K. eapply O; [exact H| |exact Hr]. discriminate.
  - apply in_other in Hr as [Hr|Hr].
    + destruct r0; [discriminate Hr|]. injection Hr as ->. cbn [sh l_take handed]. apply in_app_iff. right. left. reflexivity.
    + apply K. rewrite H. apply other_in; exact Hr.
  - apply K. eapply O; [exact H| |exact Hr]. discriminate.
  - apply (notified_in _ _ _ _ H0) in Hr as [Hr|Hr]; [|discriminate]. apply K. eapply O; [exact H| |exact Hr]. discriminate.
  - apply K. eapply O; [exact H| |exact Hr]. discriminate.
  - apply K. eapply O; [exact H| |exact Hr]. discriminate.
Qed.
Lemma working_initial start kn local remote : working (initial start kn local remote).
Proof. intros r H. cbn [initial threads] in H. apply in_app_iff in H as [H|H]; apply repeat_spec in H; discriminate. Qed.
Lemma run_working nb s ls s' : working s -> run nb s ls s' -> working s'.
Proof. intros W H. induction H as [s|s l s1 ls s2 H IH K]; auto. eapply step_working; [|exact K]. auto. Qed.

Lemma step_transfer nb nb' l s s' : working s -> (forall r, In r (handed (sh s)) -> nb r = nb' r) -> step nb l s s' -> step nb' l s s'.
Proof. intros W E H. destruct H; try (econstructor; eassumption). rewrite (E r). - constructor; auto. - apply W. rewrite H. apply in_app_iff. right. left. reflexivity. Qed.
(** The neighbours of the rows handed out decide the run. *)
Lemma run_transfer nb nb' s0 ls s : working s0 -> run nb s0 ls s -> (forall r, In r (handed (sh s)) -> nb r = nb' r) -> run nb' s0 ls s.
Proof.
  intros W. induction 1 as [s|s l s1 ls s2 H IH K]; intros E; [constructor|]. assert (E1 : forall r, In r (handed (sh s1)) -> nb r = nb' r) by (intros r Hr; apply E; eapply step_handed; eauto).
  econstructor; [apply IH; auto|]. eapply step_transfer; eauto. eapply run_working; eauto.
Qed.
Lemma run_back nb nb' s0 ls s : working s0 -> (forall ls s r, run nb' s0 ls s -> In r (handed (sh s)) -> nb r = nb' r) -> run nb s0 ls s -> run nb' s0 ls s.
Proof.
  intros W E. induction 1 as [s|s l s1 ls s2 H IH K]; [constructor|]. specialize (IH W E).
  econstructor; [exact IH|]. eapply step_transfer; [eapply run_working; [exact W|exact H]| |exact K]. intros r Hr. apply (E ls s1 r IH Hr).
Qed.

(** A property of rows that the neighbours inherit. *)
Section Inherit.
  Variables (nb : vec -> list vec) (P : vec -> Prop).
  Hypothesis Pnb : forall r, P r -> Forall P (nb r).
  Definition phase_has (p : phase) : Prop := match p with Work r => P r | Put l => Forall P l | _ => True end.
  Definition all_have (s : state) : Prop :=
    match main s with Some l => Forall P l | None => True end /\ Forall P (known s) /\ (forall p, In p (threads s) -> phase_has p) /\ Forall (fun r => r = [] \/ P r) (queue (sh s)) /\ Forall P (printed (sh s)) /\ Forall P (handed (sh s)).
  Lemma put_have s x : P x -> Forall (fun r => r = [] \/ P r) (queue s) -> Forall P (printed s) -> Forall (fun r => r = [] \/ P r) (queue (fst (l_put_row s x))) /\ Forall P (printed (fst (l_put_row s x))).
  Proof. intros H Q R. unfold l_put_row. destruct (l_insert (rows s) x) as [rs []]; cbn [fst queue printed]; split; auto; apply Forall_app; split; auto. Qed.
  Lemma notified_have b ths ths' : notified b ths ths' -> (forall p, In p ths -> phase_has p) -> forall p, In p ths' -> phase_has p.
  Proof. intros N H p Hp. apply (notified_in _ _ _ _ N) in Hp as [Hp| ->]; [auto|exact I]. Qed.
  Lemma other_have p l1 l2 q : (forall x, In x (l1 ++ p :: l2) -> phase_has x) -> phase_has q -> forall x, In x (l1 ++ q :: l2) -> phase_has x.
  Proof. intros H Hq x Hx. apply in_other in Hx as [->|Hx]; [auto|]. apply H. apply other_in. auto. Qed.
  Lemma step_have l s s' : all_have s -> step nb l s s' -> all_have s'.
  Proof.
    intros (HM & HK & HT & HQ & HP & HH) H. unfold all_have. destruct H; cbn [main known threads sh queue printed handed] in *.
    - rewrite H in HM. inversion HM; subst. destruct (put_have (sh s) x ltac:(auto) HQ HP). rewrite put_handed. repeat (split; auto). eapply notified_have; eauto.
    - cbn [l_done queue printed handed]. repeat (split; auto).
    - rewrite H0 in HK. inversion HK; subst. destruct (put_have (sh s) x ltac:(auto) HQ HP). rewrite put_handed. repeat (split; auto). eapply notified_have; eauto.
    - repeat (split; auto). rewrite H0 in HT. eapply other_have; [exact HT|exact I].
    - repeat (split; auto). rewrite H in HT. eapply other_have; [exact HT|]. destruct (l_empty _); exact I.
    - cbn [l_abort_insert queue printed handed]. repeat (split; auto). rewrite H in HT. eapply other_have; [exact HT|exact I].
    - cbn [l_abort_push queue printed handed]. repeat (split; auto); [|apply Forall_app; split; auto]. rewrite H in HT. intros p Hp. apply in_other in Hp as [->|Hp]; [exact I|].
      apply in_app_iff in Hp. assert (K : forall p, In p l1 \/ In p l2 -> phase_has p) by (intros p0 Hp0; apply HT; apply other_in; apply in_app_iff; auto).
      destruct Hp as [Hp|Hp]; apply wake_in in Hp as (_ & [Hp| ->]); try exact I; apply K; auto.
    - repeat (split; auto). rewrite H in HT. eapply other_have; [exact HT|exact I].
    - rewrite H1 in HQ. inversion HQ as [|? ? HR HQ2]; subst. rewrite H in HT. destruct r as [|z r]; cbn [l_take queue printed handed].
      + rewrite H1. repeat (split; auto). eapply other_have; [exact HT|cbn; auto].
      + assert (Pr : P (z :: r)) by (destruct HR as [HR|HR]; [discriminate|exact HR]).
        split; [exact HM|]. split; [exact HK|]. split; [eapply other_have; [exact HT|exact Pr]|]. split; [exact HQ2|]. split; [exact HP|]. apply Forall_app. split; auto.
    - repeat (split; auto). rewrite H in HT. eapply other_have; [exact HT|]. cbn. apply Pnb. apply (HT (Work r)). apply in_app_iff. right. left. reflexivity.
    - rewrite H in HT. assert (Hx : Forall P (x :: l)) by (apply (HT (Put (x :: l))); apply in_app_iff; right; left; reflexivity). inversion Hx; subst.
      destruct (put_have (sh s) x ltac:(auto) HQ HP). rewrite put_handed. repeat (split; auto). eapply notified_have; [exact H0|]. eapply other_have; [exact HT|cbn; auto].
    - cbn [l_done queue printed handed]. repeat (split; auto). rewrite H in HT. eapply other_have; [exact HT|exact I].
    - repeat (split; auto). rewrite H in HT. eapply other_have; [exact HT|exact I].
  Qed.
  Lemma run_have start kn local remote ls s : Forall P start -> Forall P kn -> run nb (initial start kn local remote) ls s -> Forall P (printed (sh s)) /\ Forall P (handed (sh s)).
  Proof.
    intros Hs Hk H. assert (K : all_have s).
    { remember (initial start kn local remote) as s0 eqn:E0. induction H as [s|s l s1 ls s2 H IH K]; [|eapply step_have; eauto]. subst. unfold all_have. cbn [initial main known threads sh l_new queue printed handed].
      repeat (split; auto). intros p Hp. apply in_app_iff in Hp as [Hp|Hp]; apply repeat_spec in Hp as ->; exact I. }
    destruct K as (_ & _ & _ & _ & K1 & K2). auto.
  Qed.
End Inherit.
