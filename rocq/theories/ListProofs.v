(** * ListProofs: invariants of the job list. *)
From Coq Require Import List ZArith Arith Bool Lia.
From Verif Require Import Spec ListModel.
Import ListNotations.
Open Scope nat_scope.

Definition tot (f : phase -> nat) (ths : list phase) : nat := fold_right (fun p n => f p + n) 0 ths.
Lemma tot_app f a b : tot f (a ++ b) = tot f a + tot f b.
Proof. induction a as [|p a IH]; cbn [app tot fold_right] in *; auto. fold (tot f (a ++ b)) in *. fold (tot f a) in *. lia. Qed.
Lemma tot_cons f p a : tot f (p :: a) = f p + tot f a. Proof. reflexivity. Qed.
Lemma tot_notified f b ths ths' : f Woken = f Waiting -> notified b ths ths' -> tot f ths' = tot f ths.
Proof.
  intros Hf H. destruct b; cbn [notified] in H; [|subst; auto]. destruct H as [(_ & ->)|(l1 & l2 & -> & ->)]; auto.
  rewrite !tot_app, !tot_cons. lia.
Qed.
Lemma tot_wake f ths : f Woken = f Waiting -> tot f (map wake ths) = tot f ths.
Proof. intros Hf. induction ths as [|p ths IH]; cbn [map]; auto. rewrite !tot_cons, IH. destruct p; cbn [wake]; lia. Qed.
Lemma tot_pos f p ths : In p ths -> f p <= tot f ths.
Proof. induction ths as [|q ths IH]; intros []; rewrite tot_cons; [subst; lia|]. specialize (IH H). lia. Qed.
Lemma tot_zero f ths : tot f ths = 0 -> forall p, In p ths -> f p = 0.
Proof. intros H p Hp. assert (Q := tot_pos f p ths Hp). lia. Qed.
Lemma tot_ex f ths : 0 < tot f ths -> exists p, In p ths /\ 0 < f p.
Proof.
  induction ths as [|q ths IH]; [cbn; lia|]. rewrite tot_cons. intros H. destruct (f q) as [|k] eqn:E.
  - destruct IH as (p & Hp & H'); [lia|]. exists p. split; [right|]; auto.
  - exists q. split; [left|rewrite E]; auto; lia.
Qed.

Lemma notified_in b ths ths' p : notified b ths ths' -> In p ths' -> In p ths \/ p = Woken.
Proof.
  intros H Hp. destruct b; cbn [notified] in H; [|subst; auto]. destruct H as [(_ & ->)|(l1 & l2 & -> & ->)]; auto.
  rewrite in_app_iff in *. cbn [In] in *. intuition.
Qed.
Lemma notified_keep b ths ths' p : notified b ths ths' -> In p ths -> p <> Waiting -> In p ths'.
Proof.
  intros H Hp Hn. destruct b; cbn [notified] in H; [|subst; auto]. destruct H as [(_ & ->)|(l1 & l2 & -> & ->)]; auto.
  rewrite in_app_iff in *. cbn [In] in *. intuition congruence.
Qed.
Lemma notified_wait ths ths' : notified true ths ths' -> In Waiting ths' -> In Woken ths'.
Proof.
  intros [(H & ->)|(l1 & l2 & -> & ->)] Hp; [contradiction|]. rewrite in_app_iff. right. left. auto.
Qed.
Lemma wake_in p ths : In p (map wake ths) -> p <> Waiting /\ (In p ths \/ p = Woken).
Proof. intros H. apply in_map_iff in H. destruct H as (q & <- & Hq). destruct q; cbn [wake]; split; try discriminate; auto. Qed.
Lemma wake_keep p ths : In p ths -> p <> Waiting -> In p (map wake ths).
Proof. intros H Hn. apply in_map_iff. exists p. split; auto. destruct p; auto. congruence. Qed.

Definition real (r : vec) : bool := match r with [] => false | _ => true end.
Definition busy (p : phase) : nat := match p with Work _ | Put _ => 1 | _ => 0 end.
Definition stop (p : phase) : nat := match p with Stopped => 1 | _ => 0 end.
Definition active (p : phase) : bool := match p with Waiting | Stopped => false | _ => true end.
Definition entering (p : phase) : bool := match p with New | Entry | Abort1 | Abort2 => true | _ => false end.

Lemma insert_spec rs r rs' b : l_insert rs r = (rs', b) -> (b = true /\ ~ In r rs /\ rs' = rs ++ [r]) \/ (b = false /\ In r rs /\ rs' = rs).
Proof. unfold l_insert. destruct (in_dec row_eq_dec r rs); intros E; inversion E; subst; auto. Qed.
Lemma put_spec s r : (snd (l_put_row s r) = true /\ ~ In r (rows s) /\
    fst (l_put_row s r) = Jobs (workers s) (rows s ++ [r]) (queue s ++ [r]) (printed s ++ [r]) (handed s)) \/
  (snd (l_put_row s r) = false /\ In r (rows s) /\ fst (l_put_row s r) = s).
Proof.
  unfold l_put_row. destruct (l_insert (rows s) r) as [rs b] eqn:E. apply insert_spec in E.
  destruct E as [(-> & H1 & ->)|(-> & H1 & ->)]; [left|right]; auto.
Qed.
Lemma nodup_snoc {A} (l : list A) x : NoDup l -> ~ In x l -> NoDup (l ++ [x]).
Proof.
  intros H Hx. induction H as [|y l Hy H IH]; cbn [app]; [constructor; [auto|constructor]|]. constructor.
  - rewrite in_app_iff. cbn [In]. intros [?|[->|[]]]; [auto|]. apply Hx. left. auto.
  - apply IH. intros H1. apply Hx. right. auto.
Qed.
Lemma real_ne r : r <> [] -> real r = true. Proof. destruct r; cbn; congruence. Qed.

(** ** The contents of the list *)
Section Contents.
  Variables (nb : vec -> list vec) (start kn : list vec).
  Notation cl := (closure nb (start ++ kn)).
  Hypothesis Hne : forall r, cl r -> r <> [].

  Definition held (s : state) (x : vec) : Prop :=
    (exists l, main s = Some l /\ In x l) \/ In x (known s) \/ (exists r, In (Work r) (threads s) /\ x = r) \/ (exists l, In (Put l) (threads s) /\ In x l) \/ In x (printed (sh s)).

  Record contents (s : state) : Prop := {
    c_rows : NoDup (rows (sh s));
    c_printed : forall r, In r (printed (sh s)) <-> In r (rows (sh s)) /\ r <> [];
    c_nodup : NoDup (printed (sh s));
    c_fifo : printed (sh s) = handed (sh s) ++ filter real (queue (sh s));
    c_held : forall x, held s x -> cl x
  }.

  Lemma contents_initial l m : contents (initial start kn l m).
  Proof.
    constructor; [apply NoDup_nil|cbn; tauto|apply NoDup_nil|reflexivity|].
    intros x [(l0 & H & Hx)|[H|[(r & H & _)|[(l0 & H & _)|H]]]].
    - inversion H; subst. apply closure_start. apply in_app_iff; auto.
    - apply closure_start. apply in_app_iff; auto.
    - apply in_app_iff in H. destruct H as [H|H]; apply repeat_spec in H; discriminate.
    - apply in_app_iff in H. destruct H as [H|H]; apply repeat_spec in H; discriminate.
    - destruct H.
  Qed.

  (** Putting a row. *)
  Lemma contents_put s x m' ths' k' : contents s -> cl x ->
    (forall y, held (State (sh s) m' ths' k') y -> cl y) ->
    contents (State (fst (l_put_row (sh s) x)) m' ths' k').
  Proof.
    intros C Hx Hh. destruct (put_spec (sh s) x) as [(_ & Hn & ->)|(_ & _ & ->)].
    - constructor; cbn [sh rows printed queue handed].
      + apply nodup_snoc; auto. apply C.
      + intros r. rewrite !in_app_iff. rewrite (c_printed _ C r). cbn [In]. assert (Hx0 := Hne x Hx). split; [|tauto]. intros [(? & ?)|[<-|[]]]; auto.
      + apply nodup_snoc; [apply C|]. rewrite (c_printed _ C x). tauto.
      + rewrite (c_fifo _ C). rewrite filter_app, app_assoc. cbn [filter]. rewrite real_ne by auto. reflexivity.
      + intros y Hy. unfold held in Hy, Hh. cbn [main known threads sh printed] in *. rewrite in_app_iff in Hy. cbn [In] in Hy.
        destruct Hy as [H|[H|[H|[H|[H|[<-|[]]]]]]]; auto 10.
    - constructor; cbn [sh]; try apply C. exact Hh.
  Qed.
  Lemma contents_same s s' : contents s -> rows (sh s') = rows (sh s) -> printed (sh s') = printed (sh s) -> handed (sh s') = handed (sh s) ->
    filter real (queue (sh s')) = filter real (queue (sh s)) -> (forall x, held s' x -> cl x) -> contents s'.
  Proof. intros C E1 E2 E3 E4 H. constructor; rewrite ?E1, ?E2, ?E3, ?E4; try apply C. exact H. Qed.

  Ltac hold := unfold held in *; cbn [main known threads sh printed l_done l_abort_insert l_abort_push] in *.

  Lemma held_threads s sh' m' ths' k' : (forall x, held s x -> cl x) -> printed sh' = printed (sh s) ->
    (forall l, m' = Some l -> exists l0, main s = Some l0 /\ incl l l0) -> incl k' (known s) ->
    (forall r, In (Work r) ths' -> In (Work r) (threads s) \/ cl r) ->
    (forall l x, In (Put l) ths' -> In x l -> (exists l0, In (Put l0) (threads s) /\ In x l0) \/ cl x) ->
    forall x, held (State sh' m' ths' k') x -> cl x.
  Proof.
    intros H E Hm Hk Hw Hp x Hx. hold. rewrite E in Hx. destruct Hx as [(l & H1 & H2)|[H1|[(r & H1 & ->)|[(l & H1 & H2)|H1]]]].
    - destruct (Hm l H1) as (l0 & ? & Hi). apply H. left. exists l0. auto.
    - apply H. auto.
    - destruct (Hw r H1); auto. apply H. right. right. left. eauto.
    - destruct (Hp l x H1 H2) as [(l0 & ? & ?)|]; auto. apply H. right. right. right. left. eauto.
    - apply H. auto 10.
  Qed.

  Lemma contents_step l s s' : contents s -> step nb l s s' -> contents s'.
  Proof.
    intros C Hs. assert (Hh := c_held _ C).
    destruct Hs as [s x l ths' Hm Hnot|s Hm|s x l ths' Hm Hk Hnot|s l1 l2 Hm Ht|s l1 l2 Ht|s l1 l2 Ht|s l1 l2 Ht|s l1 l2 p Ht Hp Hq|s l1 l2 p r q Ht Hp Hq|s l1 l2 r Ht|s l1 l2 x l ths' Ht Hnot|s l1 l2 Ht|s l1 l2 Ht].
    - apply contents_put; auto.
      + apply Hh. left. exists (x :: l). split; [auto|left; auto].
      + apply (held_threads s); auto; try apply incl_refl.
        * intros l0 E. inversion E; subst. exists (x :: l0). split; auto. apply incl_tl, incl_refl.
        * intros r Hr. apply (notified_in _ _ _ _ Hnot) in Hr. destruct Hr; [auto|discriminate].
        * intros l0 y Hr Hy. apply (notified_in _ _ _ _ Hnot) in Hr. destruct Hr; [eauto|discriminate].
    - apply (contents_same s); auto. apply (held_threads s); auto using incl_refl; try discriminate. eauto.
    - apply contents_put; auto.
      + apply Hh. right. left. rewrite Hk. left; auto.
      + apply (held_threads s); auto; try discriminate.
        * rewrite Hk. apply incl_tl, incl_refl.
        * intros r Hr. apply (notified_in _ _ _ _ Hnot) in Hr. destruct Hr; [auto|discriminate].
        * intros l0 y Hr Hy. apply (notified_in _ _ _ _ Hnot) in Hr. destruct Hr; [eauto|discriminate].
    - apply (contents_same s); auto. apply (held_threads s); auto using incl_refl; try discriminate; rewrite Ht.
      + intros r. rewrite !in_app_iff. cbn [In]. intuition discriminate.
      + intros l0 y. rewrite !in_app_iff. cbn [In]. intros [H|[H|H]] Hy; [|discriminate|]; left; exists l0; rewrite in_app_iff; cbn [In]; auto.
    - apply (contents_same s); auto. apply (held_threads s); auto using incl_refl; try rewrite Ht.
      + intros l0 ->. eexists; split; eauto using incl_refl.
      + intros r. rewrite !in_app_iff. cbn [In]. destruct (l_empty (sh s)); intuition discriminate.
      + intros l0 y. rewrite !in_app_iff. cbn [In]. intros [H|[H|H]] Hy; [|destruct (l_empty (sh s)); discriminate|]; left; exists l0; rewrite in_app_iff; cbn [In]; auto.
    - cbn [l_abort_insert sh rows]. destruct (l_insert (rows (sh s)) []) as [rs b] eqn:E. apply insert_spec in E.
      assert (H : forall x, held (State (l_abort_insert (sh s)) (main s) (l1 ++ Abort2 :: l2) (known s)) x -> cl x).
      { apply (held_threads s); auto using incl_refl; try rewrite Ht.
        - intros l0 ->. eexists; split; eauto using incl_refl.
        - intros r. rewrite !in_app_iff. cbn [In]. intuition discriminate.
        - intros l0 y. rewrite !in_app_iff. cbn [In]. intros [H|[H|H]] Hy; [|discriminate|]; left; exists l0; rewrite in_app_iff; cbn [In]; auto. }
      constructor; auto; cbn [l_abort_insert sh rows printed queue handed]; try apply C.
      + destruct (l_insert (rows (sh s)) []) as [rs' b'] eqn:E'. apply insert_spec in E'. cbn [fst].
        destruct E' as [(_ & H1 & ->)|(_ & H1 & ->)]; [apply nodup_snoc; auto|]; apply C.
      + intros r. rewrite (c_printed _ C r). destruct (l_insert (rows (sh s)) []) as [rs' b'] eqn:E'. apply insert_spec in E'. cbn [fst].
        destruct E' as [(_ & H1 & ->)|(_ & H1 & ->)]; [rewrite in_app_iff; cbn [In]|]; intuition congruence.
    - apply (contents_same s); auto.
      + cbn [l_abort_push sh queue]. rewrite filter_app. cbn [filter real]. apply app_nil_r.
      + apply (held_threads s); auto using incl_refl; try rewrite Ht.
        * intros l0 ->. eexists; split; eauto using incl_refl.
        * intros r. rewrite !in_app_iff. cbn [In]. intros [H|[H|H]]; try discriminate; apply wake_in in H; intuition discriminate.
        * intros l0 y. rewrite !in_app_iff. cbn [In]. intros [H|[H|H]] Hy; try discriminate; apply wake_in in H; destruct H as (_ & [H|H]); try discriminate;
          left; exists l0; rewrite in_app_iff; cbn [In]; auto.
    - apply (contents_same s); auto. apply (held_threads s); auto using incl_refl; try rewrite Ht.
      + intros l0 ->. eexists; split; eauto using incl_refl.
      + intros r. rewrite !in_app_iff. cbn [In]. intuition discriminate.
      + intros l0 y. rewrite !in_app_iff. cbn [In]. intros [H|[H|H]] Hy; [|discriminate|]; left; exists l0; rewrite in_app_iff; cbn [In]; auto.
    - assert (Hf := c_fifo _ C). rewrite Hq in Hf. 
      assert (Hr : r <> [] -> cl r).
      { intros Hr. apply Hh. right. right. right. right. rewrite Hf. rewrite in_app_iff. right. cbn [filter]. rewrite real_ne by auto. left; auto. }
      assert (H : forall x, held (State (l_take (sh s) r q) (main s) (l1 ++ match r with [] => Stopped | _ => Work r end :: l2) (known s)) x -> cl x).
      { apply (held_threads s); auto using incl_refl; try rewrite Ht.
        - destruct r; reflexivity.
        - intros l0 ->. eexists; split; eauto using incl_refl.
        - intros r'. rewrite !in_app_iff. cbn [In]. intros [H|[H|H]]; auto. destruct r; [discriminate|]. inversion H; subst. right. apply Hr. discriminate.
        - intros l0 y. rewrite !in_app_iff. cbn [In]. intros [H|[H|H]] Hy; [|destruct r; discriminate|]; left; exists l0; rewrite in_app_iff; cbn [In]; auto. }
      destruct r as [|z r]; [apply (contents_same s); auto|].
      constructor; auto; cbn [l_take sh rows printed queue handed]; try apply C.
      cbn [filter real] in Hf. rewrite Hf. rewrite <- app_assoc. reflexivity.
    - apply (contents_same s); auto. apply (held_threads s); auto using incl_refl; try rewrite Ht.
      + intros l0 ->. eexists; split; eauto using incl_refl.
      + intros r'. rewrite !in_app_iff. cbn [In]. intuition discriminate.
      + intros l0 y. rewrite !in_app_iff. cbn [In]. intros [H|[H|H]] Hy; [| |].
        * left. exists l0. rewrite in_app_iff; cbn [In]; auto.
        * inversion H; subst. right. apply (closure_step nb _ r); auto. apply Hh. right. right. left. exists r. split; auto. rewrite Ht, in_app_iff; cbn [In]; auto.
        * left. exists l0. rewrite in_app_iff; cbn [In]; auto.
    - apply contents_put; auto.
      + apply Hh. right. right. right. left. exists (x :: l). split; [rewrite Ht, in_app_iff; cbn [In]; auto|left; auto].
      + apply (held_threads s); auto using incl_refl.
        * intros l0 ->. eexists; split; eauto using incl_refl.
        * intros r Hr. apply (notified_in _ _ _ _ Hnot) in Hr. destruct Hr as [Hr|]; [|discriminate]. rewrite Ht. rewrite !in_app_iff in *. cbn [In] in *. intuition discriminate.
        * intros l0 y Hr Hy. apply (notified_in _ _ _ _ Hnot) in Hr. destruct Hr as [Hr|]; [|discriminate]. rewrite Ht. left.
          rewrite in_app_iff in Hr. cbn [In] in Hr. destruct Hr as [Hr|[Hr|Hr]].
          -- exists l0. rewrite in_app_iff; cbn [In]; auto.
          -- inversion Hr; subst. exists (x :: l0). split; [rewrite in_app_iff; cbn [In]; auto|right; auto].
          -- exists l0. rewrite in_app_iff; cbn [In]; auto.
    - apply (contents_same s); auto. apply (held_threads s); auto using incl_refl; try rewrite Ht.
      + intros l0 ->. eexists; split; eauto using incl_refl.
      + intros r. rewrite !in_app_iff. cbn [In]. intuition discriminate.
      + intros l0 y. rewrite !in_app_iff. cbn [In]. intros [H|[H|H]] Hy; [|discriminate|]; left; exists l0; rewrite in_app_iff; cbn [In]; auto.
    - apply (contents_same s); auto. apply (held_threads s); auto using incl_refl; try rewrite Ht.
      + intros l0 ->. eexists; split; eauto using incl_refl.
      + intros r. rewrite !in_app_iff. cbn [In]. intuition discriminate.
      + intros l0 y. rewrite !in_app_iff. cbn [In]. intros [H|[H|H]] Hy; [|discriminate|]; left; exists l0; rewrite in_app_iff; cbn [In]; auto.
  Qed.

  Lemma contents_run s ls s' : contents s -> run nb s ls s' -> contents s'.
  Proof. intros C H. induction H as [|s l s1 ls s2 _ IH H]; auto. apply (contents_step l s1); auto. Qed.
End Contents.
