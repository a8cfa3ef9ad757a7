(** * PropertiesSort: the order of the input rows (C34). *)
From Coq Require Import List ZArith Arith Lia Bool Permutation.
From Verif Require Import Base Spec LinAlg ListUtil Cone SortModel SortProofs.
Import ListNotations.
Open Scope Z_scope.

(** Dictionary order: at the first difference the entry is smaller, or the row is a proper prefix. *)
Definition dictionary_before (a b : vec) : Prop :=
  (exists p x y a' b', a = p ++ x :: a' /\ b = p ++ y :: b' /\ x < y) \/ (exists y b', b = a ++ y :: b').
Definition dictionary (a b : vec) : Prop := dictionary_before a b \/ a = b.
Definition nonzero_entries (a : vec) : nat := length (filter (fun x => negb (x =? 0)) a).

(** What row [a] before row [b] means for the documented orders. *)
Definition documented (order : input_order) (a b : vec) : Prop :=
  match order with
  | LexicographicAscending => dictionary a b
  | LexicographicDescending => dictionary b a
  | NonZeroEntriesAscending => (nonzero_entries a < nonzero_entries b)%nat \/ nonzero_entries a = nonzero_entries b /\ dictionary a b
  | NonZeroEntriesDescending => (nonzero_entries b < nonzero_entries a)%nat \/ nonzero_entries a = nonzero_entries b /\ dictionary a b
  | Reverse | NoSorting => True
  end.
Definition ordered (order : input_order) (M : list vec) : Prop :=
  forall i j, (i < j < length M)%nat -> documented order (nth i M []) (nth j M []).

(** No row is lost, duplicated or altered. *)
Theorem C34_permutation : forall order M, Permutation M (m_sort order M).
Proof. exact m_sort_perm. Qed.
Print Assumptions C34_permutation.

(** The described cone (or system) is the same. *)
Theorem C34_same_object : forall order n (M : list vec) (x : vec), dims n M ->
  (in_cone n (m_sort order M) x <-> in_cone n M x) /\ (solution n (m_sort order M) x <-> solution n M x).
Proof.
  intros order n M x HM. assert (P := m_sort_perm order M). assert (HS : dims n (m_sort order M)) by (apply (Permutation_Forall P); auto).
  assert (K : forall M N, (forall v, In v M -> In v N) -> gen n M x -> gen n N x).
  { intros A B Hi Hg. induction Hg as [|g t y Hg Ht Hy IH|k y Hk Hl Hy IH]; [constructor|constructor; auto|eapply gen_div; eauto]. }
  split.
  - assert (H1 := gen_in_cone n M x HM). assert (H2 := gen_in_cone n (m_sort order M) x HS).
    assert (HL : forall N, dims n N -> in_cone n N x -> length x = n).
    { intros N HN (k & cs & _ & _ & _ & E). apply (f_equal (@length Z)) in E. rewrite vscale_length, lincomb_length in E; auto. }
    split; intros Hc.
    + apply H1. apply (K (m_sort order M)); [intros v Hv; apply (Permutation_in _ (Permutation_sym P)); auto|]. apply H2. eauto.
    + apply H2. apply (K M); [intros v Hv; apply (Permutation_in _ P); auto|]. apply H1. eauto.
  - split; intros (Hx & Hs); split; auto; intros a Ha; apply Hs; eauto using Permutation_in, Permutation_sym.
Qed.
Print Assumptions C34_same_object.

Lemma row_lt_dictionary a b : row_lt a b = true <-> dictionary_before a b.
Proof.
  revert b. induction a as [|x a IH]; intros [|y b]; cbn [row_lt].
  - split; [discriminate|]. intros [(p & u & v & a' & b' & E & _)|(u & b' & E)]; [destruct p; discriminate|discriminate].
  - split; auto. intros _. right. exists y, b. reflexivity.
  - split; [discriminate|]. intros [(p & u & v & a' & b' & _ & E & _)|(u & b' & E)]; [destruct p; discriminate|discriminate].
  - assert (Hcons : dictionary_before (x :: a) (y :: b) <-> x < y \/ x = y /\ dictionary_before a b).
    { split.
      - intros [(p & u & v & a' & b' & E1 & E2 & H)|(u & b' & E)].
        + destruct p as [|w p]; cbn [app] in *; injection E1 as -> E1; injection E2 as -> E2; auto. right. split; auto. left. exists p, u, v, a', b'. auto.
        + cbn [app] in E. injection E as -> ->. right. split; auto. right. eauto.
      - intros [H|(-> & [(p & u & v & a' & b' & -> & -> & H)|(u & b' & ->)])].
        + left. exists [], x, y, a, b. auto.
        + left. exists (y :: p), u, v, a', b'. auto.
        + right. exists u, b'. auto. }
    rewrite Hcons, <- IH. destruct (Z.ltb_spec x y), (Z.ltb_spec y x); split; intros H1; try lia; auto; try discriminate; try (right; split; [lia|auto]).
    destruct H1 as [|(_ & H1)]; [lia|auto].
Qed.
Lemma dictionary_iff a b : dictionary a b <-> row_lt b a = false.
Proof.
  unfold dictionary. rewrite <- row_lt_dictionary. split.
  - intros [H| ->]; [|apply row_lt_irrefl]. destruct (row_lt b a) eqn:E; auto. assert (Q := row_lt_trans _ _ _ H E). rewrite row_lt_irrefl in Q. discriminate.
  - intros H. destruct (row_lt a b) eqn:E; auto. right. apply row_lt_total; auto.
Qed.
Lemma nz_asc_iff n a b : length a = n -> length b = n -> (documented NonZeroEntriesAscending a b <-> nz_ascending_lt b a = false).
Proof.
  intros Ha Hb. assert (H1 := zeros_nonzeros a). assert (H2 := zeros_nonzeros b). fold (nonzero_entries a) in H1. fold (nonzero_entries b) in H2.
  cbn [documented]. rewrite dictionary_iff. unfold nz_ascending_lt. destruct (Nat.eqb_spec (zero_entries b) (zero_entries a)); cbn [negb].
  - split; [intros [|(_ & H)]; [lia|auto]|]. intros H. right. split; [lia|auto].
  - rewrite Nat.ltb_ge. split; lia.
Qed.
Lemma nz_desc_iff n a b : length a = n -> length b = n -> (documented NonZeroEntriesDescending a b <-> nz_descending_lt b a = false).
Proof.
  intros Ha Hb. assert (H1 := zeros_nonzeros a). assert (H2 := zeros_nonzeros b). fold (nonzero_entries a) in H1. fold (nonzero_entries b) in H2.
  cbn [documented]. rewrite dictionary_iff. unfold nz_descending_lt. destruct (Nat.eqb_spec (zero_entries b) (zero_entries a)); cbn [negb].
  - split; [intros [|(_ & H)]; [lia|auto]|]. intros H. right. split; [lia|auto].
  - rewrite Nat.ltb_ge. split; lia.
Qed.

Lemma nth_dims n (M : list vec) i : dims n M -> (i < length M)%nat -> length (nth i M []) = n.
Proof. intros HM Hi. apply (dims_in n M); auto. apply nth_In; auto. Qed.
Lemma ordered_iff order (lt : vec -> vec -> bool) n M : dims n M ->
  (forall a b, length a = n -> length b = n -> (documented order a b <-> lt b a = false)) -> (in_order lt M <-> ordered order M).
Proof.
  intros HM H. rewrite in_order_nth. unfold ordered. split; intros Ho i j Hij; apply H; auto using nth_dims; apply nth_dims; auto; lia.
Qed.
Lemma ordered_rev M : in_order row_lt (rev M) <-> ordered LexicographicDescending M.
Proof.
  rewrite in_order_nth, rev_length. unfold ordered. cbn [documented]. split; intros H i j Hij.
  - apply dictionary_iff. specialize (H (length M - 1 - j)%nat (length M - 1 - i)%nat ltac:(lia)).
    rewrite !rev_nth in H by lia. replace (length M - S (length M - 1 - i))%nat with i in H by lia. replace (length M - S (length M - 1 - j))%nat with j in H by lia. exact H.
  - specialize (H (length M - S j)%nat (length M - S i)%nat ltac:(lia)). apply dictionary_iff in H. rewrite !rev_nth by lia. exact H.
Qed.

(** The result has the documented order (rows of equal length). *)
Theorem C34_ordered : forall order n M, dims n M -> ordered order (m_sort order M).
Proof.
  intros order n M HM. assert (HS : dims n (m_sort order M)) by (apply (Permutation_Forall (m_sort_perm order M)); auto).
  destruct order; cbn [m_sort] in *.
  - apply (ordered_iff LexicographicAscending row_lt n); auto; [intros; apply dictionary_iff|].
    apply sort_in_order; [apply row_lt_irrefl|apply row_lt_trans|apply row_lt_total].
  - apply ordered_rev. rewrite rev_involutive. apply sort_in_order; [apply row_lt_irrefl|apply row_lt_trans|apply row_lt_total].
  - apply (ordered_iff NonZeroEntriesAscending nz_ascending_lt n); auto; [apply nz_asc_iff|].
    apply sort_in_order; [apply nz_asc_irrefl|apply nz_asc_trans|apply nz_asc_total].
  - apply (ordered_iff NonZeroEntriesDescending nz_descending_lt n); auto; [apply nz_desc_iff|].
    apply sort_in_order; [apply nz_desc_irrefl|apply nz_desc_trans|apply nz_desc_total].
  - intros i j _. exact I.
  - intros i j _. exact I.
Qed.
Print Assumptions C34_ordered.

Definition sorts (order : input_order) : Prop := match order with Reverse | NoSorting => False | _ => True end.
(** It is the only arrangement of the rows with that order: the result does not depend on the sorting algorithm of the library. *)
Theorem C34_unique : forall order n M N, dims n M -> sorts order -> Permutation M N -> ordered order N -> N = m_sort order M.
Proof.
  intros order n M N HM Hs P HO. assert (HN : dims n N) by (apply (Permutation_Forall P); auto).
  assert (Q : Permutation N (m_sort order M)) by (eapply perm_trans; [apply Permutation_sym; exact P|apply m_sort_perm]).
  destruct order; try contradiction; cbn [m_sort] in *.
  - apply (in_order_unique row_lt row_lt_irrefl row_lt_total); auto; [|apply sort_in_order; [apply row_lt_irrefl|apply row_lt_trans|apply row_lt_total]].
    apply (ordered_iff LexicographicAscending row_lt n); auto. intros; apply dictionary_iff.
  - apply ordered_rev in HO. assert (E : rev N = std_sort row_lt (rev M)).
    { apply (in_order_unique row_lt row_lt_irrefl row_lt_total); auto; [apply sort_in_order; [apply row_lt_irrefl|apply row_lt_trans|apply row_lt_total]|].
      eapply perm_trans; [apply Permutation_sym, Permutation_rev|]. eapply perm_trans; [exact Q|]. apply Permutation_sym, Permutation_rev. }
    rewrite <- E, rev_involutive. reflexivity.
  - apply (in_order_unique nz_ascending_lt nz_asc_irrefl nz_asc_total); auto; [|apply sort_in_order; [apply nz_asc_irrefl|apply nz_asc_trans|apply nz_asc_total]].
    apply (ordered_iff NonZeroEntriesAscending nz_ascending_lt n); auto. apply nz_asc_iff.
  - apply (in_order_unique nz_descending_lt nz_desc_irrefl nz_desc_total); auto; [|apply sort_in_order; [apply nz_desc_irrefl|apply nz_desc_trans|apply nz_desc_total]].
    apply (ordered_iff NonZeroEntriesDescending nz_descending_lt n); auto. apply nz_desc_iff.
Qed.
Print Assumptions C34_unique.

Theorem C34_reverse : forall M, m_sort Reverse M = rev M.
Proof. reflexivity. Qed.
Print Assumptions C34_reverse.
Theorem C34_default : forall M, m_sort NoSorting M = M.
Proof. reflexivity. Qed.
Print Assumptions C34_default.

Example C34_instance : let M := [[1; 0; 2]; [0; 0; 3]; [1; 1; 1]; [0; 0; 3]; [-1; 5; 0]] in
  m_sort LexicographicDescending M = [[1; 1; 1]; [1; 0; 2]; [0; 0; 3]; [0; 0; 3]; [-1; 5; 0]] /\
  m_sort NonZeroEntriesAscending M = [[0; 0; 3]; [0; 0; 3]; [-1; 5; 0]; [1; 0; 2]; [1; 1; 1]] /\ dims 3 M.
Proof. cbn zeta. split; [reflexivity|]. split; [reflexivity|repeat constructor]. Qed.
