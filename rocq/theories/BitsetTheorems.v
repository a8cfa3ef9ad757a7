(** * BitsetTheorems: bitsets built with [set] behave like finite sets of indices. *)
From Coq Require Import List NArith Arith Lia Bool.
From Verif Require Import Base Bits ListUtil BitsetModel BitsetProofs.
Import ListNotations.
Open Scope nat_scope.

(** A bitset obtained by setting the indices [is] one after the other. *)
Definition build (empty : words) (is : list nat) : res words := foldM bs_set empty is.

(** Number of different elements. *)
Definition cardinal (l : list nat) : nat := length (nodup Nat.eq_dec l).

Definition repr (K : nat) (ws : words) (is : list nat) : Prop :=
  words_ok ws /\ length ws = K /\ forall j, member ws j = existsb (Nat.eqb j) is.

Lemma existsb_in j l : existsb (Nat.eqb j) l = true <-> In j l.
Proof.
  rewrite existsb_exists. split.
  - intros (x & Hx & E). apply Nat.eqb_eq in E. congruence.
  - intros H. exists j. split; auto. apply Nat.eqb_refl.
Qed.

Lemma build_repr K is : (forall i, In i is -> i < 32 * K) -> exists ws, build (bs_fixed K) is = Ok ws /\ repr K ws is.
Proof.
  intros H. unfold build.
  assert (G : forall is ws0 is0, (forall i, In i is -> i < 32 * K) -> repr K ws0 is0 ->
    exists ws, foldM bs_set ws0 is = Ok ws /\ repr K ws (rev is ++ is0)).
  { clear. induction is as [|i is IH]; intros ws0 is0 H (R1 & R2 & R3); cbn [foldM].
    - exists ws0. split; auto. split; auto.
    - destruct (bs_set_spec K ws0 i R1 R2 (H i (or_introl eq_refl))) as (r & -> & Hl & Hok & Hm & _). cbn [bind].
      destruct (IH r (i :: is0)) as (ws & E & R).
      + intros; apply H; right; auto.
      + split; auto. split; auto. intros j. rewrite Hm, R3. reflexivity.
      + exists ws. split; auto. cbn [rev]. rewrite <- app_assoc. exact R. }
  destruct (bs_fixed_spec K) as (F1 & F2 & _ & F4).
  destruct (G is (bs_fixed K) [] H) as (ws & E & (R1 & R2 & R3)).
  { split; auto. }
  exists ws. split; auto. split; auto. split; auto. intros j. rewrite R3, app_nil_r.
  apply eq_iff_eq_true. rewrite !existsb_in, <- in_rev. tauto.
Qed.

Lemma repr_below K ws is max : repr K ws is -> (forall i, In i is -> i < max) -> below ws max.
Proof. intros (_ & _ & R) H j Hj. rewrite R in Hj. apply existsb_in in Hj. auto. Qed.

Lemma popcount_set K ws is : repr K ws is -> (forall i, In i is -> i < 32 * K) -> popcountN (wval ws) = cardinal is.
Proof.
  intros (R1 & R2 & R3) Hb.
  assert (Hlt : forall j, (N.of_nat (32 * K) <= j)%N -> N.testbit (wval ws) j = false).
  { intros j Hj. rewrite <- (N2Nat.id j), testbit_wval by auto. apply member_high. rewrite R2. lia. }
  rewrite (popcountN_bits _ (32 * K)) by exact Hlt. unfold bits, cardinal.
  apply Permutation.Permutation_length. apply Permutation.NoDup_Permutation.
  - apply NoDup_filter, seq_NoDup.
  - apply NoDup_nodup.
  - intros j. rewrite filter_In, nodup_In, testbit_wval, R3, existsb_in, in_seq by auto.
    split; [tauto|]. intros H. split; auto. specialize (Hb j H). lia.
Qed.

Section Ops.
  Variables (K max : nat).
  Hypothesis Hmax : 0 < max.
  Hypothesis HK : max <= 32 * K.

  Lemma wval_contains a b I J : repr K a I -> repr K b J -> containsN (wval a) (wval b) = true <-> incl J I.
  Proof.
    intros (A1 & A2 & A3) (B1 & B2 & B3). rewrite containsN_spec. unfold bsub, incl. split.
    - intros H j Hj. apply existsb_in. rewrite <- A3, <- testbit_wval by auto. apply H.
      rewrite testbit_wval, B3 by auto. apply existsb_in; auto.
    - intros H j. rewrite <- (N2Nat.id j), !testbit_wval, A3, B3, !existsb_in by auto. apply H.
  Qed.

  Lemma count_set a I : repr K a I -> (forall i, In i I -> i < max) -> bs_count a max = Ok (cardinal I).
  Proof.
    intros R H. destruct R as (R1 & R2 & R3). rewrite (bs_count_spec K max Hmax HK) by (auto; apply (repr_below K a I); repeat split; auto).
    f_equal. apply (popcount_set K); [repeat split; auto|]. intros i Hi. specialize (H i Hi). lia.
  Qed.

  Lemma contains_set a b I J : repr K a I -> repr K b J -> (forall i, In i J -> i < max) ->
    exists r, bs_contains a b max = Ok r /\ (r = true <-> incl J I).
  Proof.
    intros RA RB H. exists (containsN (wval a) (wval b)). split; [|apply wval_contains; auto].
    apply (bs_contains_spec K max Hmax HK); try apply RA; try apply RB. apply (repr_below K b J); auto.
  Qed.

  Lemma merge_set a b I J : repr K a I -> repr K b J -> (forall i, In i J -> i < max) ->
    exists r, bs_merge a b max = Ok r /\ repr K r (I ++ J).
  Proof.
    intros RA RB H. destruct (bs_merge_spec K max Hmax HK a b) as (r & E & L & O & M & _); try apply RA; try apply RB.
    { apply (repr_below K b J); auto. }
    exists r. split; auto. split; auto. split; auto. intros j. rewrite M, existsb_app.
    destruct RA as (_ & _ & ->), RB as (_ & _ & ->). auto.
  Qed.

  Lemma equals_set a b I J : repr K a I -> repr K b J -> (forall i, In i I -> i < max) -> (forall i, In i J -> i < max) ->
    exists r, bs_equals a b max = Ok r /\ (r = true <-> incl I J /\ incl J I).
  Proof.
    intros RA RB HI HJ. destruct (bs_equals_spec K max Hmax HK a b) as (r & E & Hr); try apply RA; try apply RB.
    { apply (repr_below K a I); auto. } { apply (repr_below K b J); auto. }
    exists r. split; auto. rewrite Hr. destruct RA as (A1 & A2 & A3), RB as (B1 & B2 & B3). split.
    - intros ->. split; intros j Hj; apply existsb_in; apply existsb_in in Hj; rewrite <- ?A3, <- ?B3 in *; auto.
    - intros (H1 & H2). apply (nth_ext a b 0%N 0%N); [congruence|]. intros i Hi.
      apply N.bits_inj. intros j. destruct (N.lt_ge_cases j 32) as [Hj|Hj].
      + rewrite <- !member_at by auto. rewrite A3, B3. apply eq_iff_eq_true. rewrite !existsb_in. split; auto.
      + rewrite !word_high; auto.
        * apply (Forall_forall word_ok b); auto. apply nth_In. lia.
        * apply (Forall_forall word_ok a); auto. apply nth_In. lia.
  Qed.

  Lemma lor_repr a b I J : repr K a I -> repr K b J -> (forall i, In i J -> i < max) ->
    exists r, repr K r (I ++ J) /\ wval r = N.lor (wval a) (wval b).
  Proof.
    intros RA RB H. destruct (bs_merge_spec K max Hmax HK a b) as (r & E & L & O & M & W); try apply RA; try apply RB.
    { apply (repr_below K b J); auto. }
    exists r. split; auto. split; auto. split; auto. intros j. rewrite M, existsb_app.
    destruct RA as (_ & _ & ->), RB as (_ & _ & ->). auto.
  Qed.

  Lemma unionCount_set a b I J : repr K a I -> repr K b J -> (forall i, In i (I ++ J) -> i < max) ->
    bs_unionCount a b max = Ok (cardinal (I ++ J)).
  Proof.
    intros RA RB H. assert (HI : forall i, In i I -> i < max) by (intros; apply H; apply in_app_iff; auto).
    assert (HJ : forall i, In i J -> i < max) by (intros; apply H; apply in_app_iff; auto).
    rewrite (bs_unionCount_spec K max Hmax HK); try apply RA; try apply RB.
    - destruct (lor_repr a b I J RA RB HJ) as (r & R & <-). f_equal. apply (popcount_set K); auto.
      intros i Hi. specialize (H i Hi). lia.
    - apply (repr_below K a I); auto.
    - apply (repr_below K b J); auto.
  Qed.

  Lemma unionContains_set a b c I J L : repr K a I -> repr K b J -> repr K c L -> 
    (forall i, In i J -> i < max) -> (forall i, In i L -> i < max) ->
    exists r, bs_unionContains a b c max = Ok r /\ (r = true <-> incl L (I ++ J)).
  Proof.
    intros RA RB RC HJ HL. destruct (lor_repr a b I J RA RB HJ) as (u & R & W).
    exists (containsN (wval u) (wval c)). split; [|apply wval_contains; auto]. rewrite W.
    apply (bs_unionContains_spec K max Hmax HK); try apply RA; try apply RB; try apply RC.
    - apply (repr_below K b J); auto.
    - apply (repr_below K c L); auto.
  Qed.
End Ops.

Lemma repr_unique K a b I : repr K a I -> repr K b I -> a = b.
Proof.
  intros (A1 & A2 & A3) (B1 & B2 & B3). apply (nth_ext a b 0%N 0%N); [congruence|]. intros i Hi.
  apply N.bits_inj. intros j. destruct (N.lt_ge_cases j 32) as [Hj|Hj].
  - rewrite <- !member_at by auto. rewrite A3, B3. auto.
  - rewrite !word_high; auto.
    + apply (Forall_forall word_ok b); auto. apply nth_In. lia.
    + apply (Forall_forall word_ok a); auto. apply nth_In. lia.
Qed.

Lemma popcount_filter n : (n < 2 ^ 32)%N ->
  popcount n = length (filter (fun i => N.testbit n (N.of_nat i)) (seq 0 32)).
Proof.
  intros H. unfold popcount. rewrite (popcountN_bits n 32); [reflexivity|].
  intros j Hj. apply N.bits_above_log2. destruct (N.eq_dec n 0) as [->|]; [cbn; lia|].
  apply N.log2_lt_pow2 in H; [|lia]. change (N.of_nat 32) with 32%N in Hj. lia.
Qed.
