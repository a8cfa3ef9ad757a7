(** * BitsetProofs: the word arrays behave like finite sets of indices. *)
From Coq Require Import List NArith Arith Lia Bool.
From Verif Require Import Base Bits ListUtil BitsetModel.
Import ListNotations.
Open Scope nat_scope.

(** Membership of an index, read off the words. *)
Definition member (ws : words) (j : nat) : bool := N.testbit (nth (j / 32) ws 0%N) (N.of_nat (j mod 32)).
Definition word_ok (w : N) : Prop := (w < 4294967296)%N.
Definition words_ok (ws : words) : Prop := Forall word_ok ws.
Definition below (ws : words) (max : nat) : Prop := forall j, member ws j = true -> j < max.

(** The set as one number. *)
Fixpoint wval (ws : words) : N :=
  match ws with [] => 0%N | w :: ws' => N.lor w (N.shiftl (wval ws') 32) end.

Lemma word_high w j : word_ok w -> (32 <= j)%N -> N.testbit w j = false.
Proof.
  intros H Hj. destruct (N.eq_dec w 0) as [->|Hn]; [apply N.bits_0|].
  apply N.bits_above_log2. apply N.lt_le_trans with 32%N; auto.
  apply N.log2_lt_pow2; [lia|]. exact H.
Qed.

Lemma div32_S j : 32 <= j -> j / 32 = S ((j - 32) / 32) /\ j mod 32 = (j - 32) mod 32.
Proof.
  intros H. split.
  - replace j with (1 * 32 + (j - 32)) at 1 by lia. rewrite Nat.div_add_l by lia. reflexivity.
  - replace j with ((j - 32) + 1 * 32) at 1 by lia. apply Nat.mod_add. lia.
Qed.

Lemma testbit_wval ws j : words_ok ws -> N.testbit (wval ws) (N.of_nat j) = member ws j.
Proof.
  revert j; induction ws as [|w ws IH]; intros j H; cbn [wval]; unfold member.
  - destruct (j / 32); cbn [nth]; rewrite !N.bits_0; reflexivity.
  - inversion H as [|? ? Hw Hws]; subst. rewrite N.lor_spec.
    destruct (le_lt_dec 32 j) as [Hj|Hj].
    + rewrite (word_high w) by (auto; lia). rewrite N.shiftl_spec_high' by lia.
      replace (N.of_nat j - 32)%N with (N.of_nat (j - 32)) by lia. rewrite IH by auto. unfold member.
      destruct (div32_S j Hj) as (-> & ->). cbn [nth]. reflexivity.
    + rewrite N.shiftl_spec_low by lia. rewrite Nat.div_small, Nat.mod_small by lia. cbn [nth]. apply orb_false_r.
Qed.

Lemma member_at ws i j : (j < 32)%N -> member ws (i * 32 + N.to_nat j) = N.testbit (nth i ws 0%N) j.
Proof.
  intros Hj. unfold member. rewrite Nat.div_add_l, Nat.div_small, Nat.add_0_r by lia.
  replace (i * 32 + N.to_nat j) with (N.to_nat j + i * 32) by lia.
  rewrite Nat.mod_add, Nat.mod_small, N2Nat.id by lia. reflexivity.
Qed.

Lemma member_high ws j : 32 * length ws <= j -> member ws j = false.
Proof.
  intros H. unfold member. rewrite nth_overflow; [apply N.bits_0|].
  apply Nat.div_le_lower_bound; lia.
Qed.

Lemma wval_inj_bits a b : words_ok a -> words_ok b -> (forall j, member a j = member b j) -> wval a = wval b.
Proof.
  intros Ha Hb H. apply N.bits_inj. intros j. rewrite <- (N2Nat.id j), !testbit_wval by auto. auto.
Qed.

(** ** Population count *)
Lemma popcount_cat k w q : (w < 2 ^ N.of_nat k)%N ->
  popcountN (N.lor w (N.shiftl q (N.of_nat k))) = popcountN w + popcountN q.
Proof.
  revert w; induction k as [|k IH]; intros w H.
  - assert (w = 0%N) as -> by (cbn in H; lia). rewrite N.shiftl_0_r, N.lor_0_l. reflexivity.
  - rewrite (popcountN_step (N.lor w _)), (popcountN_step w).
    assert (E : N.div2 (N.lor w (N.shiftl q (N.of_nat (S k)))) = N.lor (N.div2 w) (N.shiftl q (N.of_nat k))).
    { rewrite !N.div2_spec, N.shiftr_lor. f_equal. rewrite N.shiftr_shiftl_l by lia. f_equal. lia. }
    assert (E0 : N.testbit (N.lor w (N.shiftl q (N.of_nat (S k)))) 0 = N.testbit w 0).
    { rewrite N.lor_spec, N.shiftl_spec_low by lia. apply orb_false_r. }
    rewrite E, E0, IH; [lia|].
    rewrite N.div2_div. apply N.div_lt_upper_bound; [lia|].
    replace (2 * 2 ^ N.of_nat k)%N with (2 ^ N.of_nat (S k))%N; auto.
    rewrite Nat2N.inj_succ, N.pow_succ_r'. reflexivity.
Qed.

Lemma popcount_lor_land x y : popcountN (N.lor x y) + popcountN (N.land x y) = popcountN x + popcountN y.
Proof.
  assert (H : forall k x y, (x < 2 ^ N.of_nat k)%N -> (y < 2 ^ N.of_nat k)%N ->
             popcountN (N.lor x y) + popcountN (N.land x y) = popcountN x + popcountN y).
  { clear. induction k as [|k IH]; intros x y Hx Hy.
    - assert (x = 0%N) as -> by (cbn in Hx; lia). assert (y = 0%N) as -> by (cbn in Hy; lia). reflexivity.
    - rewrite (popcountN_step (N.lor x y)), (popcountN_step (N.land x y)), (popcountN_step x), (popcountN_step y).
      rewrite N.lor_spec, N.land_spec.
      assert (E1 : N.div2 (N.lor x y) = N.lor (N.div2 x) (N.div2 y)) by (rewrite !N.div2_spec; apply N.shiftr_lor).
      assert (E2 : N.div2 (N.land x y) = N.land (N.div2 x) (N.div2 y)) by (rewrite !N.div2_spec; apply N.shiftr_land).
      rewrite E1, E2.
      assert (Hd : forall z, (z < 2 ^ N.of_nat (S k))%N -> (N.div2 z < 2 ^ N.of_nat k)%N).
      { intros z Hz. rewrite N.div2_div. apply N.div_lt_upper_bound; [lia|].
        replace (2 * 2 ^ N.of_nat k)%N with (2 ^ N.of_nat (S k))%N; auto.
        rewrite Nat2N.inj_succ, N.pow_succ_r'. reflexivity. }
      specialize (IH _ _ (Hd x Hx) (Hd y Hy)).
      destruct (N.testbit x 0), (N.testbit y 0); cbn [orb andb]; lia. }
  assert (B : forall z, (z < 2 ^ N.of_nat (N.to_nat (N.size z)))%N).
  { intros z. rewrite N2Nat.id. apply N.size_gt. }
  apply (H (Nat.max (N.to_nat (N.size x)) (N.to_nat (N.size y)))).
  - eapply N.lt_le_trans; [apply B|]. apply N.pow_le_mono_r; lia.
  - eapply N.lt_le_trans; [apply B|]. apply N.pow_le_mono_r; lia.
Qed.

Definition psum (ws : words) : nat := fold_right (fun w s => popcountN w + s) 0 ws.

Lemma popcount_wval ws : words_ok ws -> popcountN (wval ws) = psum ws.
Proof.
  induction ws as [|w ws IH]; intros H; cbn [wval psum fold_right]; auto.
  inversion H as [|? ? Hw Hws]; subst. rewrite (popcount_cat 32) by exact Hw. rewrite IH; auto.
Qed.

Lemma psum_app a b : psum (a ++ b) = psum a + psum b.
Proof. induction a as [|w a IH]; cbn [app psum fold_right]; auto. unfold psum in *. rewrite IH. lia. Qed.

Lemma psum_zeros ws : Forall (fun w => w = 0%N) ws -> psum ws = 0.
Proof. induction 1 as [|w ws -> _ IH]; cbn [psum fold_right]; auto. Qed.

(** ** Words above the hint are empty *)
Lemma word_end_pos max : 0 < max -> word_end max = Ok (1 + (max - 1) / 32).
Proof. destruct max as [|m]; [lia|]. intros _. cbn [word_end]. replace (S m - 1) with m by lia. reflexivity. Qed.

Lemma word_end_bound max K : 0 < max -> max <= 32 * K -> 1 + (max - 1) / 32 <= K.
Proof. intros H1 H2. assert ((max - 1) / 32 < K); [|lia]. apply Nat.div_lt_upper_bound; lia. Qed.

Lemma word_end_cover max j : 0 < max -> j < max -> j / 32 < 1 + (max - 1) / 32.
Proof. intros H1 H2. assert (j / 32 <= (max - 1) / 32); [|lia]. apply Nat.div_le_mono; lia. Qed.

Lemma below_zero ws max i : words_ok ws -> 0 < max -> below ws max -> 1 + (max - 1) / 32 <= i -> nth i ws 0%N = 0%N.
Proof.
  intros Hok Hm Hb Hi. apply N.bits_inj. intros j. rewrite N.bits_0.
  destruct (N.lt_ge_cases j 32) as [Hj|Hj].
  - destruct (N.testbit (nth i ws 0%N) j) eqn:T; auto. exfalso.
    set (k := i * 32 + N.to_nat j).
    assert (Hk : member ws k = true).
    { unfold k. rewrite member_at; auto. }
    apply Hb in Hk. assert (Hc := word_end_cover max k Hm Hk).
    assert (k / 32 = i) by (unfold k; rewrite Nat.div_add_l, Nat.div_small by lia; lia). lia.
  - apply word_high; auto. destruct (nth_in_or_default i ws 0%N) as [Hin| ->].
    + unfold words_ok in Hok. rewrite Forall_forall in Hok. auto.
    + unfold word_ok; lia.
Qed.

Lemma nth_error_nth_lt {A} (l : list A) i d : i < length l -> nth_error l i = Some (nth i l d).
Proof. intros H. apply nth_error_nth'; auto. Qed.

Lemma getw_ok ws i : i < length ws -> getw ws i = Ok (nth i ws 0%N).
Proof. intros H. unfold getw. rewrite (nth_error_nth_lt ws i 0%N); auto. Qed.

(** ** The operations *)
Definition word_contains (a b : words) (i : nat) : bool := containsN (nth i a 0%N) (nth i b 0%N).

Lemma contains_loop_spec a b n i : i + n <= length a -> i + n <= length b ->
  contains_loop a b i n = Ok (forallb (word_contains a b) (seq i n)).
Proof.
  revert i; induction n as [|n IH]; intros i Ha Hb; cbn [contains_loop seq forallb]; auto.
  rewrite !getw_ok by lia. cbn [bind]. unfold word_contains at 1, containsN.
  destruct (N.eqb _ _); cbn [andb]; auto. apply IH; lia.
Qed.

Lemma contains_all_words a b K : words_ok a -> words_ok b -> length a = K -> length b = K ->
  containsN (wval a) (wval b) = forallb (word_contains a b) (seq 0 K).
Proof.
  intros Ha Hb La Lb. apply eq_iff_eq_true. rewrite containsN_spec, forallb_forall. split.
  - intros H i Hi. apply in_seq in Hi. apply containsN_spec. intros j Hj.
    destruct (N.lt_ge_cases j 32) as [Hlt|Hge].
    + specialize (H (N.of_nat (i * 32 + N.to_nat j))). rewrite !testbit_wval, !member_at in H by auto. auto.
    + rewrite word_high in Hj; [discriminate| |auto]. unfold words_ok in Hb. rewrite Forall_forall in Hb.
      apply Hb, nth_In. lia.
  - intros H j Hj. rewrite <- (N2Nat.id j) in *. set (k := N.to_nat j) in *.
    rewrite testbit_wval in * by auto. unfold member in *.
    destruct (le_lt_dec K (k / 32)) as [Hk|Hk].
    + rewrite nth_overflow, N.bits_0 in Hj by lia. discriminate.
    + specialize (H (k / 32)). assert (Hin : In (k / 32) (seq 0 K)) by (apply in_seq; lia).
      apply H, containsN_spec in Hin. apply Hin; auto.
Qed.

Lemma forallb_seq_split (f : nat -> bool) e K : e <= K ->
  (forall i, e <= i < K -> f i = true) -> forallb f (seq 0 K) = forallb f (seq 0 e).
Proof.
  intros He H. replace K with (e + (K - e)) by lia. rewrite seq_app, forallb_app.
  assert (E : forallb f (seq (0 + e) (K - e)) = true).
  { apply forallb_forall. intros i Hi. apply in_seq in Hi. apply H. lia. }
  rewrite E. apply andb_true_r.
Qed.

Section Ops.
  Variables (K max : nat).
  Hypothesis Hpos : 0 < max.
  Hypothesis Hmax : max <= 32 * K.
  Notation e := (1 + (max - 1) / 32).

  Lemma He : e <= K.
  Proof. apply word_end_bound; auto. Qed.

  Lemma bs_contains_spec a b : words_ok a -> words_ok b -> length a = K -> length b = K -> below b max ->
    bs_contains a b max = Ok (containsN (wval a) (wval b)).
  Proof.
    intros Ha Hb La Lb Hbel. assert (Hle := He). unfold bs_contains. rewrite word_end_pos by auto. cbn [bind].
    rewrite contains_loop_spec by lia. f_equal. rewrite (contains_all_words a b K) by auto.
    symmetry. apply forallb_seq_split; auto. intros i Hi. unfold word_contains.
    rewrite (below_zero b max) by (auto; lia). unfold containsN. rewrite N.land_0_r. reflexivity.
  Qed.

  Lemma equals_loop_spec a b n i : i + n <= length a -> i + n <= length b ->
    equals_loop a b i n = Ok (forallb (fun i => N.eqb (nth i a 0%N) (nth i b 0%N)) (seq i n)).
  Proof.
    revert i; induction n as [|n IH]; intros i Ha Hb; cbn [equals_loop seq forallb]; auto.
    rewrite !getw_ok by lia. cbn [bind].
    destruct (N.eqb _ _); cbn [andb]; auto. apply IH; lia.
  Qed.

  Lemma bs_equals_spec a b : words_ok a -> words_ok b -> length a = K -> length b = K -> below a max -> below b max ->
    exists r, bs_equals a b max = Ok r /\ (r = true <-> a = b).
  Proof.
    intros Ha Hb La Lb Hba Hbb. assert (Hle := He). unfold bs_equals. rewrite word_end_pos by auto. cbn [bind].
    rewrite equals_loop_spec by lia. eexists; split; [reflexivity|]. rewrite forallb_forall. split.
    - intros H. apply (nth_ext a b 0%N 0%N); [lia|]. intros i Hi. destruct (le_lt_dec e i).
      + rewrite !(below_zero _ max) by auto. reflexivity.
      + apply N.eqb_eq. apply H. apply in_seq. lia.
    - intros -> i _. apply N.eqb_refl.
  Qed.

  Lemma firstn_S_nth {A} (l : list A) i d : i < length l -> firstn (S i) l = firstn i l ++ [nth i l d].
  Proof.
    revert i; induction l as [|x l IH]; intros [|i] H; cbn [length firstn nth app] in *; try lia; auto.
    f_equal. apply IH. lia.
  Qed.

  Lemma count_fold a n : n <= length a ->
    foldM (fun total i => do x <- getw a i; Ok (total + popcount x)) 0 (seq 0 n) = Ok (psum (firstn n a)).
  Proof.
    induction n as [|n IH]; intros H; [reflexivity|].
    rewrite seq_S, foldM_snoc, IH by lia. cbn [bind]. rewrite Nat.add_0_l, getw_ok by lia. cbn [bind].
    rewrite (firstn_S_nth a n 0%N) by lia. rewrite psum_app. cbn [psum fold_right]. unfold popcount. f_equal. lia.
  Qed.

  Lemma psum_below a : words_ok a -> length a = K -> below a max -> psum (firstn e a) = psum a.
  Proof.
    intros Ha La Hb. rewrite <- (firstn_skipn e a) at 2. rewrite psum_app.
    rewrite (psum_zeros (skipn e a)); [lia|]. apply Forall_forall. intros w Hw.
    destruct (In_nth _ _ 0%N Hw) as (i & Hi & <-). rewrite nth_skipn. apply (below_zero a max); auto. lia.
  Qed.

  Lemma bs_count_spec a : words_ok a -> length a = K -> below a max ->
    bs_count a max = Ok (popcountN (wval a)).
  Proof.
    intros Ha La Hb. assert (Hle := He). unfold bs_count. rewrite word_end_pos by auto. cbn [bind].
    rewrite count_fold by lia. rewrite psum_below, popcount_wval by auto. reflexivity.
  Qed.

  Definition word_or (a b : words) (n i : nat) : N :=
    if i <? n then N.lor (nth i a 0%N) (nth i b 0%N) else nth i a 0%N.

  Lemma merge_fold a b n : n <= length a -> n <= length b ->
    exists r, foldM (fun r i => do x <- getw r i; do y <- getw b i; setw r i (N.lor x y)) a (seq 0 n) = Ok r /\
      length r = length a /\ forall i, nth i r 0%N = word_or a b n i.
  Proof.
    induction n as [|n IH]; intros Ha Hb.
    - exists a. split; [reflexivity|]. split; auto.
    - destruct IH as (r & E & Lr & Hr); try lia.
      rewrite seq_S, foldM_snoc, E. cbn [bind]. rewrite Nat.add_0_l, !getw_ok by lia. cbn [bind].
      unfold setw. destruct (Nat.ltb_spec n (length r)); [|lia].
      eexists; split; [reflexivity|]. rewrite upd_length. split; auto. intros i.
      rewrite Hr. rewrite nth_upd, Hr. unfold word_or.
      destruct (Nat.eqb_spec i n) as [->|Hne].
      + destruct (Nat.ltb_spec n (length r)); [|lia]. cbn [andb].
        destruct (Nat.ltb_spec n n); [lia|]. destruct (Nat.ltb_spec n (S n)); [|lia]. reflexivity.
      + cbn [andb]. destruct (Nat.ltb_spec i n), (Nat.ltb_spec i (S n)); try lia; reflexivity.
  Qed.

  Lemma bs_merge_spec a b : words_ok a -> words_ok b -> length a = K -> length b = K -> below b max ->
    exists r, bs_merge a b max = Ok r /\ length r = K /\ words_ok r /\
      (forall j, member r j = member a j || member b j) /\ wval r = N.lor (wval a) (wval b).
  Proof.
    intros Ha Hb La Lb Hbel. assert (Hle := He). unfold bs_merge. rewrite word_end_pos by auto. cbn [bind].
    destruct (merge_fold a b e) as (r & E & Lr & Hr); try lia.
    assert (Hw : forall i, nth i r 0%N = N.lor (nth i a 0%N) (nth i b 0%N)).
    { intros i. rewrite Hr. unfold word_or. destruct (Nat.ltb_spec i e); auto.
      rewrite (below_zero b max) by auto. rewrite N.lor_0_r. reflexivity. }
    assert (Hok : words_ok r).
    { apply Forall_forall. intros w Hin. destruct (In_nth _ _ 0%N Hin) as (i & Hi & <-). rewrite Hw.
      assert (H1 : word_ok (nth i a 0%N)) by (unfold words_ok in Ha; rewrite Forall_forall in Ha; apply Ha, nth_In; lia).
      assert (H2 : word_ok (nth i b 0%N)) by (unfold words_ok in Hb; rewrite Forall_forall in Hb; apply Hb, nth_In; lia).
      unfold word_ok in *. destruct (N.eq_dec (N.lor (nth i a 0%N) (nth i b 0%N)) 0) as [->|Hn]; [lia|].
      change 4294967296%N with (2 ^ 32)%N in *. apply N.log2_lt_pow2; [lia|]. rewrite N.log2_lor.
      destruct (N.eq_dec (nth i a 0%N) 0) as [->|]; destruct (N.eq_dec (nth i b 0%N) 0) as [->|];
        try (apply N.max_lub_lt); try (cbn; lia); apply N.log2_lt_pow2; lia. }
    assert (Hm : forall j, member r j = member a j || member b j).
    { intros j. unfold member. rewrite Hw, N.lor_spec. reflexivity. }
    exists r. split; auto. split; [lia|]. split; auto. split; auto.
    apply N.bits_inj. intros j. rewrite <- (N2Nat.id j), N.lor_spec, !testbit_wval by auto. auto.
  Qed.

  Lemma unionContains_loop_spec a b c n i : i + n <= length a -> i + n <= length b -> i + n <= length c ->
    unionContains_loop a b c i n =
    Ok (forallb (fun i => containsN (N.lor (nth i a 0%N) (nth i b 0%N)) (nth i c 0%N)) (seq i n)).
  Proof.
    revert i; induction n as [|n IH]; intros i Ha Hb Hc; cbn [unionContains_loop seq forallb]; auto.
    rewrite !getw_ok by lia. cbn [bind]. unfold containsN at 1.
    destruct (N.eqb _ _); cbn [andb]; auto. apply IH; lia.
  Qed.

  Lemma bs_unionContains_spec a b c : words_ok a -> words_ok b -> words_ok c ->
    length a = K -> length b = K -> length c = K -> below b max -> below c max ->
    bs_unionContains a b c max = Ok (containsN (N.lor (wval a) (wval b)) (wval c)).
  Proof.
    intros Ha Hb Hc La Lb Lc Hbb Hbc. assert (Hle := He).
    destruct (bs_merge_spec a b) as (r & _ & Lr & Hokr & Hm & <-); auto.
    unfold bs_unionContains. rewrite word_end_pos by auto. cbn [bind].
    rewrite unionContains_loop_spec by lia. f_equal. rewrite (contains_all_words r c K) by auto.
    rewrite (forallb_seq_split _ e K); auto.
    - apply eq_iff_eq_true. rewrite !forallb_forall. 
      assert (Hw : forall i, i < K -> nth i r 0%N = N.lor (nth i a 0%N) (nth i b 0%N)).
      { intros i Hi. apply N.bits_inj. intros j. rewrite N.lor_spec. destruct (N.lt_ge_cases j 32) as [Hj|Hj].
        - specialize (Hm (i * 32 + N.to_nat j)). rewrite !member_at in Hm by auto. auto.
        - unfold words_ok in *. rewrite Forall_forall in *.
          rewrite !word_high; auto; [apply Hb|apply Ha|apply Hokr]; apply nth_In; lia. }
      split; intros H i Hi; specialize (H i Hi); apply in_seq in Hi; unfold word_contains in *; rewrite Hw in * by lia; auto.
    - intros i Hi. unfold word_contains. rewrite (below_zero c max) by (auto; lia). unfold containsN. rewrite N.land_0_r. reflexivity.
  Qed.

  Lemma unionCount_fold a b n : n <= length a -> n <= length b ->
    foldM (fun total i => do x <- getw a i; do y <- getw b i;
           Ok (total + popcount x + popcount y - popcount (N.land x y))) 0 (seq 0 n) =
    Ok (fold_right (fun i s => popcountN (N.lor (nth i a 0%N) (nth i b 0%N)) + s) 0 (seq 0 n)).
  Proof.
    intros Ha Hb.
    assert (H : forall l s, (forall i, In i l -> i < n) ->
      foldM (fun total i => do x <- getw a i; do y <- getw b i;
           Ok (total + popcount x + popcount y - popcount (N.land x y))) s l =
      Ok (s + fold_right (fun i s => popcountN (N.lor (nth i a 0%N) (nth i b 0%N)) + s) 0 l)).
    { induction l as [|i l IH]; intros s Hl; cbn [foldM fold_right]; [f_equal; lia|].
      assert (i < n) by (apply Hl; left; auto).
      rewrite !getw_ok by lia. cbn [bind]. rewrite IH by (intros; apply Hl; right; auto). f_equal.
      assert (P := popcount_lor_land (nth i a 0%N) (nth i b 0%N)). unfold popcount. lia. }
    rewrite H; [reflexivity|]. intros i Hi. apply in_seq in Hi. lia.
  Qed.

  Lemma bs_unionCount_spec a b : words_ok a -> words_ok b -> length a = K -> length b = K -> below a max -> below b max ->
    bs_unionCount a b max = Ok (popcountN (N.lor (wval a) (wval b))).
  Proof.
    intros Ha Hb La Lb Hba Hbb. assert (Hle := He). unfold bs_unionCount. rewrite word_end_pos by auto. cbn [bind].
    rewrite unionCount_fold by lia. f_equal.
    destruct (bs_merge_spec a b) as (r & E & Lr & Hokr & Hm & <-); auto.
    rewrite popcount_wval by auto. rewrite <- (psum_below r); auto.
    - unfold bs_merge in E. rewrite word_end_pos in E by auto. cbn [bind] in E.
      destruct (merge_fold a b e) as (r' & E' & Lr' & Hr'); try lia. rewrite E in E'. injection E' as <-.
      assert (Hgen : forall n, n <= e -> fold_right (fun i s => popcountN (N.lor (nth i a 0%N) (nth i b 0%N)) + s) 0 (seq 0 n) = psum (firstn n r)).
      { induction n as [|n IH]; intros Hn; [reflexivity|].
        rewrite seq_S, (firstn_S_nth r n 0%N), psum_app by lia. rewrite <- IH by lia.
        rewrite fold_right_app. cbn [fold_right psum]. rewrite Hr'. unfold word_or.
        destruct (Nat.ltb_spec n e); [|lia]. rewrite Nat.add_0_l.
        generalize (popcountN (N.lor (nth n a 0%N) (nth n b 0%N)) + 0). intros q.
        assert (Hs : forall l q, fold_right (fun i s => popcountN (N.lor (nth i a 0%N) (nth i b 0%N)) + s) q l =
                            fold_right (fun i s => popcountN (N.lor (nth i a 0%N) (nth i b 0%N)) + s) 0 l + q).
        { clear. induction l as [|x l IH]; intros q; cbn [fold_right]; auto. rewrite IH. lia. }
        apply Hs. }
      apply Hgen; auto.
    - intros j Hj. rewrite Hm in Hj. apply orb_true_iff in Hj. destruct Hj; auto.
  Qed.
End Ops.

Lemma bs_set_spec K a i : words_ok a -> length a = K -> i < 32 * K ->
  exists r, bs_set a i = Ok r /\ length r = K /\ words_ok r /\
    (forall j, member r j = (j =? i) || member a j) /\ wval r = N.setbit (wval a) (N.of_nat i).
Proof.
  intros Ha La Hi. assert (Hd : i / 32 < K) by (apply Nat.div_lt_upper_bound; lia).
  assert (Hmod : i mod 32 < 32) by (apply Nat.mod_upper_bound; lia).
  unfold bs_set. rewrite getw_ok by lia. cbn [bind]. unfold setw.
  destruct (Nat.ltb_spec (i / 32) (length a)); [|lia].
  eexists; split; [reflexivity|]. split; [rewrite upd_length; auto|].
  set (w := N.lor (nth (i / 32) a 0%N) (N.shiftl 1 (N.of_nat (i mod 32)))).
  assert (Hold : word_ok (nth (i / 32) a 0%N)) by (unfold words_ok in Ha; rewrite Forall_forall in Ha; apply Ha, nth_In; lia).
  assert (Hw : word_ok w).
  { unfold word_ok, w. destruct (N.eq_dec (N.lor (nth (i / 32) a 0%N) (N.shiftl 1 (N.of_nat (i mod 32)))) 0) as [->|Hn]; [lia|].
    change 4294967296%N with (2 ^ 32)%N in *. apply N.log2_lt_pow2; [lia|]. rewrite N.log2_lor.
    apply N.max_lub_lt.
    - destruct (N.eq_dec (nth (i / 32) a 0%N) 0) as [->|]; [cbn; lia|]. apply N.log2_lt_pow2; [lia|exact Hold].
    - rewrite N.log2_shiftl by lia. cbn [N.log2]. lia. }
  assert (Hok : words_ok (upd a (i / 32) w)).
  { apply Forall_forall. intros x Hx. destruct (In_nth _ _ 0%N Hx) as (k & Hk & <-). rewrite upd_length in Hk.
    rewrite nth_upd. destruct (_ && _); auto. unfold words_ok in Ha; rewrite Forall_forall in Ha. apply Ha, nth_In. lia. }
  assert (Hm : forall j, member (upd a (i / 32) w) j = (j =? i) || member a j).
  { intros j. unfold member. rewrite nth_upd.
    destruct (Nat.eqb_spec (j / 32) (i / 32)) as [E|E].
    - rewrite E. destruct (Nat.ltb_spec (i / 32) (length a)); [|lia]. cbn [andb]. unfold w. rewrite N.lor_spec.
      rewrite N.shiftl_1_l, N.pow2_bits_eqb.
      assert (Ej := Nat.div_mod j 32 ltac:(lia)). assert (Ei := Nat.div_mod i 32 ltac:(lia)).
      destruct (Nat.eqb_spec j i) as [->|Hne].
      + rewrite N.eqb_refl. apply orb_true_r.
      + destruct (N.eqb_spec (N.of_nat (i mod 32)) (N.of_nat (j mod 32))); [exfalso; apply Hne; lia|]. cbn [orb]. apply orb_false_r.
    - cbn [andb]. destruct (Nat.eqb_spec j i) as [->|Hne]; [congruence|reflexivity]. }
  split; auto. split; auto.
  apply N.bits_inj. intros j. rewrite <- (N2Nat.id j), testbit_wval by auto. rewrite Hm, N.setbit_eqb, testbit_wval by auto.
  f_equal. destruct (Nat.eqb_spec (N.to_nat j) i), (N.eqb_spec (N.of_nat i) (N.of_nat (N.to_nat j))); try reflexivity; lia.
Qed.

Lemma bs_fixed_spec K : words_ok (bs_fixed K) /\ length (bs_fixed K) = K /\ wval (bs_fixed K) = 0%N /\
  forall j, member (bs_fixed K) j = false.
Proof.
  unfold bs_fixed. split; [|split; [apply repeat_length|split]].
  - apply Forall_forall. intros w Hw. apply repeat_spec in Hw. subst. unfold word_ok; lia.
  - induction K as [|K IH]; cbn [repeat wval]; auto. rewrite IH. reflexivity.
  - intros j. unfold member. rewrite nth_repeat. apply N.bits_0.
Qed.
