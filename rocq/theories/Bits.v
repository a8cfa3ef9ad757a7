(** * Bits: finite index sets as binary numbers. *)
From Coq Require Import List ZArith NArith Lia Bool Arith Permutation.
Import ListNotations.

Fixpoint pos_popcount (p : positive) : nat :=
  match p with
  | xH => 1
  | xO q => pos_popcount q
  | xI q => S (pos_popcount q)
  end.
Definition popcountN (n : N) : nat := match n with N0 => 0 | Npos p => pos_popcount p end.

(** [b] is a subset of [a]. *)
Definition containsN (a b : N) : bool := N.eqb (N.land a b) b.
Definition bsub (a b : N) : Prop := forall j, N.testbit a j = true -> N.testbit b j = true.

Lemma containsN_spec a b : containsN a b = true <-> bsub b a.
Proof.
  unfold containsN, bsub. rewrite N.eqb_eq. split.
  - intros E j H. rewrite <- E, N.land_spec, andb_true_iff in H. tauto.
  - intros H. apply N.bits_inj. intros j. rewrite N.land_spec.
    destruct (N.testbit b j) eqn:B; [rewrite (H j B); reflexivity|apply andb_false_r].
Qed.

Lemma bsub_refl a : bsub a a.
Proof. intros j; auto. Qed.
Lemma bsub_trans a b c : bsub a b -> bsub b c -> bsub a c.
Proof. unfold bsub; auto. Qed.

Definition bits (b : N) (m : nat) : nat := length (filter (fun j => N.testbit b (N.of_nat j)) (seq 0 m)).

Lemma filter_map_comm {A B} (f : A -> B) (p : B -> bool) l :
  filter p (map f l) = map f (filter (fun x => p (f x)) l).
Proof. induction l as [|x l IH]; cbn [map filter]; auto. destruct (p (f x)); cbn [map]; rewrite IH; auto. Qed.

Lemma bits_S b m : bits b (S m) = (if N.testbit b 0 then 1 else 0) + bits (N.div2 b) m.
Proof.
  unfold bits. cbn [seq filter]. change (N.of_nat 0) with 0%N.
  rewrite <- seq_shift, filter_map_comm, (filter_ext _ (fun x => N.testbit (N.div2 b) (N.of_nat x))).
  - destruct (N.testbit b 0); cbn [length]; rewrite map_length; lia.
  - intros j. rewrite N.div2_spec, N.shiftr_spec by apply N.le_0_l. f_equal. lia.
Qed.

Lemma popcountN_step b : popcountN b = (if N.testbit b 0 then 1 else 0) + popcountN (N.div2 b).
Proof. destruct b as [|[p|p|]]; reflexivity. Qed.

Lemma popcountN_bits b m : (forall j, (N.of_nat m <= j)%N -> N.testbit b j = false) -> popcountN b = bits b m.
Proof.
  revert b; induction m as [|m IH]; intros b H.
  - assert (b = 0)%N as ->. { apply N.bits_inj. intros j. rewrite N.bits_0. apply H. lia. } reflexivity.
  - rewrite popcountN_step, bits_S, (IH (N.div2 b)); auto.
    intros j Hj. rewrite N.div2_spec, N.shiftr_spec by apply N.le_0_l. apply H. lia.
Qed.

Lemma filter_nth_error {A} (f : A -> bool) (l : list A) :
  length (filter f l) =
  length (filter (fun j => match nth_error l j with Some v => f v | None => false end) (seq 0 (length l))).
Proof.
  induction l as [|x l IH]; auto. cbn [length seq filter nth_error].
  rewrite <- seq_shift, filter_map_comm. cbn [nth_error].
  destruct (f x); cbn [length]; rewrite map_length, IH; reflexivity.
Qed.

(** [b] lists exactly the positions of [l] satisfying [P]. *)
Definition marks {A} (P : A -> Prop) (l : list A) (b : N) : Prop :=
  forall j, N.testbit b (N.of_nat j) = true <-> exists v, nth_error l j = Some v /\ P v.

Lemma marks_high {A} (P : A -> Prop) l b : marks P l b ->
  forall j, (N.of_nat (length l) <= j)%N -> N.testbit b j = false.
Proof.
  intros H j Hj. destruct (N.testbit b j) eqn:T; auto.
  rewrite <- (N2Nat.id j) in T. apply H in T. destruct T as (v & E & _).
  assert (nth_error l (N.to_nat j) <> None) as Hn by congruence.
  apply nth_error_Some in Hn. lia.
Qed.

Lemma marks_count {A} (P : A -> Prop) (f : A -> bool) l b :
  (forall v, In v l -> f v = true <-> P v) -> marks P l b -> popcountN b = length (filter f l).
Proof.
  intros Hf H. rewrite (popcountN_bits b (length l)).
  - rewrite filter_nth_error. unfold bits. f_equal. apply filter_ext_in.
    intros j Hj. apply eq_iff_eq_true. rewrite (H j). split.
    + intros (v & E & Hp). rewrite E. apply Hf; auto. eapply nth_error_In; eauto.
    + destruct (nth_error l j) as [v|] eqn:E; [|discriminate]. intros F. exists v; split; auto.
      apply Hf in F; auto. eapply nth_error_In; eauto.
  - apply (marks_high P); auto.
Qed.

Lemma marks_sub {A} (P Q : A -> Prop) l a b : marks P l a -> marks Q l b ->
  bsub a b <-> (forall v, In v l -> P v -> Q v).
Proof.
  intros Ha Hb. split.
  - intros Hs v Hv Hp. apply In_nth_error in Hv. destruct Hv as (j & E).
    assert (T : N.testbit a (N.of_nat j) = true) by (apply Ha; eauto).
    apply Hs, Hb in T. destruct T as (v' & E' & Hq). congruence.
  - intros H j T. rewrite <- (N2Nat.id j) in *. apply Ha in T. destruct T as (v & E & Hp).
    apply Hb. exists v; split; auto. apply H; auto. eapply nth_error_In; eauto.
Qed.

Lemma marks_union {A} (P Q T : A -> Prop) l a b :
  (forall v, In v l -> T v <-> P v \/ Q v) -> marks P l a -> marks Q l b -> marks T l (N.lor a b).
Proof.
  intros HT Ha Hb j. rewrite N.lor_spec, orb_true_iff, (Ha j), (Hb j). split.
  - intros [(v & E & Hv)|(v & E & Hv)]; exists v; split; auto; apply HT; eauto using nth_error_In.
  - intros (v & E & Hv). apply HT in Hv; eauto using nth_error_In. destruct Hv; [left|right]; eauto.
Qed.

Lemma marks_snoc_no {A} (P : A -> Prop) l w b : ~ P w -> marks P l b -> marks P (l ++ [w]) b.
Proof.
  intros Hw H j. rewrite (H j). split.
  - intros (v & E & Hp). exists v; split; auto. rewrite nth_error_app1; auto.
    apply nth_error_Some; congruence.
  - intros (v & E & Hp). destruct (lt_dec j (length l)) as [Hlt|Hge].
    + rewrite nth_error_app1 in E by auto. eauto.
    + rewrite nth_error_app2 in E by lia. destruct (j - length l)%nat as [|[|k]]; cbn in E; try discriminate.
      congruence.
Qed.

Lemma marks_snoc_yes {A} (P : A -> Prop) l w b : P w -> marks P l b ->
  marks P (l ++ [w]) (N.setbit b (N.of_nat (length l))).
Proof.
  intros Hw H j. rewrite N.setbit_eqb, orb_true_iff, N.eqb_eq, (H j). split.
  - intros [E|(v & E & Hp)].
    + apply Nat2N.inj in E. subst j. exists w; split; auto.
      rewrite nth_error_app2 by lia. rewrite Nat.sub_diag. reflexivity.
    + exists v; split; auto. rewrite nth_error_app1; auto. apply nth_error_Some; congruence.
  - intros (v & E & Hp). destruct (lt_dec j (length l)) as [Hlt|Hge].
    + rewrite nth_error_app1 in E by auto. eauto.
    + rewrite nth_error_app2 in E by lia.
      destruct (j - length l)%nat as [|[|k]] eqn:Ej; cbn in E; try discriminate. left. f_equal. lia.
Qed.

Lemma marks_ext {A} (P Q : A -> Prop) l b : (forall v, In v l -> P v <-> Q v) -> marks P l b -> marks Q l b.
Proof.
  intros HPQ H j. rewrite (H j). split; intros (v & E & Hp); exists v; split; auto; apply HPQ; eauto using nth_error_In.
Qed.

(** ** Pairwise relations on lists *)
Section Pairwise.
  Context {A : Type} (R : A -> A -> Prop).
  Fixpoint pairwise (l : list A) : Prop :=
    match l with
    | [] => True
    | x :: l' => Forall (R x) l' /\ pairwise l'
    end.

  Lemma pairwise_app l1 l2 :
    pairwise (l1 ++ l2) <-> pairwise l1 /\ pairwise l2 /\ (forall x y, In x l1 -> In y l2 -> R x y).
  Proof.
    induction l1 as [|x l1 IH]; cbn [app pairwise].
    - split; [intros H; repeat split; auto; intros x y []|tauto].
    - rewrite IH, Forall_app, !Forall_forall. cbn [In]. split.
      + intros ((H1 & H2) & H3 & H4 & H5). repeat split; auto. intros y z [<-|Hy]; auto.
      + intros ((H1 & H2) & H3 & H4). repeat split; auto.
  Qed.

  Lemma pairwise_filter f l : pairwise l -> pairwise (filter f l).
  Proof.
    induction l as [|x l IH]; cbn [filter pairwise]; auto. intros (H1 & H2).
    destruct (f x); auto. cbn [pairwise]. split; auto. rewrite Forall_forall in *.
    intros y Hy. apply filter_In in Hy. apply H1; tauto.
  Qed.

  Lemma pairwise_in l x y : (forall a b, R a b -> R b a) -> pairwise l -> In x l -> In y l -> x <> y -> R x y.
  Proof.
    intros Hsym; induction l as [|z l IH]; cbn [pairwise In]; [tauto|]. rewrite Forall_forall.
    intros (H1 & H2) [->|Hx] [->|Hy] Hne; auto; congruence.
  Qed.

  Lemma pairwise_perm l l' : (forall a b, R a b -> R b a) -> Permutation l l' ->
    pairwise l -> pairwise l'.
  Proof.
    intros Hsym H; induction H as [|x l l' H IH|x y l|l l' l'' H1 IH1 H2 IH2]; cbn [pairwise]; auto.
    - intros (Hx & Hl); split; auto. eapply Permutation_Forall; eauto.
    - intros (Hy & Hx & Hl). inversion Hy; subst. repeat split; auto.
  Qed.

End Pairwise.

Lemma pairwise_map {A B} (R : A -> A -> Prop) (g : B -> A) l :
  pairwise R (map g l) <-> pairwise (fun x y => R (g x) (g y)) l.
Proof.
  induction l as [|x l IH]; cbn [map pairwise]; [tauto|]. rewrite IH, !Forall_forall.
  split; intros (H1 & H2); split; auto.
  - intros y Hy. apply H1, in_map; auto.
  - intros y Hy. apply in_map_iff in Hy. destruct Hy as (z & <- & Hz). auto.
Qed.

Lemma pairwise_impl {A} (R Q : A -> A -> Prop) l :
  (forall x y, In x l -> In y l -> R x y -> Q x y) -> pairwise R l -> pairwise Q l.
Proof.
  induction l as [|x l IH]; cbn [pairwise]; auto. rewrite !Forall_forall. intros H (H1 & H2).
  split.
  - intros y Hy. apply H; cbn [In]; auto.
  - apply IH; auto. intros y z Hy Hz. apply H; cbn [In]; auto.
Qed.
