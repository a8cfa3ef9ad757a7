(** * SortProofs: sorting of rows. *)
From Coq Require Import List ZArith Arith Lia Bool Permutation.
From Verif Require Import Base Spec ListUtil SortModel.
Import ListNotations.
Open Scope Z_scope.

(** ** Sorting by any strict total order *)
Section Sort.
  Variable lt : vec -> vec -> bool.
  Hypothesis lt_irrefl : forall a, lt a a = false.
  Hypothesis lt_trans : forall a b c, lt a b = true -> lt b c = true -> lt a c = true.
  Hypothesis lt_total : forall a b, lt a b = false -> lt b a = false -> a = b.

  Lemma insert_perm x M : Permutation (x :: M) (insert_row lt x M).
  Proof.
    induction M as [|y M IH]; cbn [insert_row]; auto. destruct (lt y x); auto. apply perm_trans with (y :: x :: M); [constructor|]. constructor. auto.
  Qed.
  Lemma sort_perm M : Permutation M (std_sort lt M).
  Proof. induction M as [|x M IH]; cbn [std_sort fold_right]; auto. apply perm_trans with (x :: std_sort lt M); [constructor; auto|apply insert_perm]. Qed.

  (** No later row is smaller. *)
  Inductive in_order : list vec -> Prop :=
  | io_nil : in_order []
  | io_cons x M : (forall y, In y M -> lt y x = false) -> in_order M -> in_order (x :: M).

  Lemma insert_in_order x M : in_order M -> in_order (insert_row lt x M).
  Proof.
    induction 1 as [|y M Hy HM IH]; cbn [insert_row]; [repeat constructor; intros ? []|]. destruct (lt y x) eqn:E.
    - constructor; auto. intros z Hz. apply (Permutation_in _ (Permutation_sym (insert_perm x M))) in Hz. destruct Hz as [<-|Hz]; auto.
      destruct (lt x y) eqn:E'; auto. exfalso. assert (H := lt_trans _ _ _ E E'). rewrite lt_irrefl in H. discriminate.
    - constructor; [|constructor; auto]. intros z [<-|Hz]; auto.
      destruct (lt z x) eqn:E'; auto. specialize (Hy z Hz). destruct (lt y z) eqn:E2; [rewrite (lt_trans _ _ _ E2 E') in E; discriminate|].
      assert (y = z) by (apply lt_total; auto). subst. congruence.
  Qed.
  Lemma sort_in_order M : in_order (std_sort lt M).
  Proof. induction M as [|x M IH]; cbn [std_sort fold_right]; [constructor|]. apply insert_in_order; auto. Qed.

  Lemma in_order_unique M N : in_order M -> in_order N -> Permutation M N -> M = N.
  Proof.
    intros H. revert N. induction H as [|x M Hx HM IH]; intros N HN P; [apply Permutation_nil in P; auto|].
    destruct HN as [|y N Hy HN]; [apply Permutation_sym, Permutation_nil in P; discriminate|].
    assert (x = y).
    { assert (In x (y :: N)) as [|H1] by (apply (Permutation_in _ P); left; auto); auto.
      assert (In y (x :: M)) as [|H2] by (apply (Permutation_in _ (Permutation_sym P)); left; auto); auto. }
    subst y. f_equal. apply IH; auto. apply Permutation_cons_inv in P. auto.
  Qed.
  Lemma in_order_nth M : in_order M <-> forall i j, (i < j < length M)%nat -> lt (nth j M []) (nth i M []) = false.
  Proof.
    split.
    - intros H. induction H as [|x M Hx HM IH]; intros i j Hij; [cbn in Hij; lia|]. destruct j as [|j]; [lia|]. cbn [nth]. cbn [length] in Hij.
      destruct i as [|i]; [apply Hx, nth_In; lia|apply IH; lia].
    - induction M as [|x M IH]; intros H; constructor.
      + intros y Hy. apply (In_nth _ _ []) in Hy. destruct Hy as (k & Hk & <-). apply (H 0%nat (S k)). cbn [length] in *. clear - Hk. split; [apply Nat.lt_0_succ|apply -> Nat.succ_lt_mono; exact Hk].
      + apply IH. intros i j Hij. apply (H (S i) (S j)). cbn [length]. clear - Hij. lia.
  Qed.
End Sort.

(** ** The comparisons *)
Lemma row_lt_irrefl a : row_lt a a = false.
Proof. induction a as [|x a IH]; cbn [row_lt]; auto. rewrite Z.ltb_irrefl. auto. Qed.
Lemma row_lt_trans a b c : row_lt a b = true -> row_lt b c = true -> row_lt a c = true.
Proof.
  revert b c. induction a as [|x a IH]; intros [|y b] [|z c]; cbn [row_lt]; intros H1 H2; try discriminate; auto.
  destruct (Z.ltb_spec x y), (Z.ltb_spec y z), (Z.ltb_spec x z); auto; try lia; destruct (Z.ltb_spec y x), (Z.ltb_spec z y), (Z.ltb_spec z x); try discriminate; try lia.
  eapply IH; eauto.
Qed.
Lemma row_lt_total a b : row_lt a b = false -> row_lt b a = false -> a = b.
Proof.
  revert b. induction a as [|x a IH]; intros [|y b]; cbn [row_lt]; intros H1 H2; try discriminate; auto.
  destruct (Z.ltb_spec x y), (Z.ltb_spec y x); try discriminate; try lia. f_equal; [lia|auto].
Qed.
Lemma nz_asc_irrefl a : nz_ascending_lt a a = false.
Proof. unfold nz_ascending_lt. rewrite Nat.eqb_refl. apply row_lt_irrefl. Qed.
Lemma nz_asc_trans a b c : nz_ascending_lt a b = true -> nz_ascending_lt b c = true -> nz_ascending_lt a c = true.
Proof.
  unfold nz_ascending_lt. destruct (Nat.eqb_spec (zero_entries a) (zero_entries b)), (Nat.eqb_spec (zero_entries b) (zero_entries c)),
    (Nat.eqb_spec (zero_entries a) (zero_entries c)); cbn [negb]; rewrite ?Nat.ltb_lt; try lia. apply row_lt_trans.
Qed.
Lemma nz_asc_total a b : nz_ascending_lt a b = false -> nz_ascending_lt b a = false -> a = b.
Proof.
  unfold nz_ascending_lt. destruct (Nat.eqb_spec (zero_entries a) (zero_entries b)), (Nat.eqb_spec (zero_entries b) (zero_entries a)); cbn [negb]; try lia;
    rewrite ?Nat.ltb_ge; try lia. apply row_lt_total.
Qed.
Lemma nz_desc_irrefl a : nz_descending_lt a a = false.
Proof. unfold nz_descending_lt. rewrite Nat.eqb_refl. apply row_lt_irrefl. Qed.
Lemma nz_desc_trans a b c : nz_descending_lt a b = true -> nz_descending_lt b c = true -> nz_descending_lt a c = true.
Proof.
  unfold nz_descending_lt. destruct (Nat.eqb_spec (zero_entries a) (zero_entries b)), (Nat.eqb_spec (zero_entries b) (zero_entries c)),
    (Nat.eqb_spec (zero_entries a) (zero_entries c)); cbn [negb]; rewrite ?Nat.ltb_lt; try lia. apply row_lt_trans.
Qed.
Lemma nz_desc_total a b : nz_descending_lt a b = false -> nz_descending_lt b a = false -> a = b.
Proof.
  unfold nz_descending_lt. destruct (Nat.eqb_spec (zero_entries a) (zero_entries b)), (Nat.eqb_spec (zero_entries b) (zero_entries a)); cbn [negb]; try lia;
    rewrite ?Nat.ltb_ge; try lia. apply row_lt_total.
Qed.

(** ** The orders *)
Lemma m_sort_perm order M : Permutation M (m_sort order M).
Proof.
  destruct order; cbn [m_sort]; auto using sort_perm, Permutation_rev.
  eapply perm_trans; [apply Permutation_rev|]. eapply perm_trans; [apply (sort_perm row_lt)|]. apply Permutation_rev.
Qed.
Lemma zeros_nonzeros a : (zero_entries a + length (filter (fun x => negb (x =? 0)%Z) a) = length a)%nat.
Proof.
  unfold zero_entries. induction a as [|x a IH]; auto. cbn [filter length]. rewrite (Z.eqb_sym 0 x). destruct (Z.eqb_spec x 0); cbn [negb length]; lia.
Qed.
