(** * PopcountProofs: the portable bit count equals the number of set bits for every 32-bit word. *)
From Coq Require Import List NArith Arith Lia Bool ZifyN ZifyNat.
From Verif Require Import Base Bits ListUtil BitsetModel BitsetProofs.
Import ListNotations.
Open Scope N_scope.
Ltac Zify.zify_post_hook ::= Z.div_mod_to_equations.

Lemma testbit_split a r j : r < 256 -> N.testbit (256 * a + r) j = if j <? 8 then N.testbit r j else N.testbit a (j - 8).
Proof.
  intros Hr. destruct (N.ltb_spec j 8) as [Hj|Hj].
  - rewrite <- (N.mod_pow2_bits_low (256 * a + r) 8 j) by auto. f_equal. change (2 ^ 8) with 256. lia.
  - replace j with ((j - 8) + 8) at 1 by lia. rewrite <- N.div_pow2_bits. f_equal. change (2 ^ 8) with 256. lia.
Qed.

Lemma land_split a r m s : r < 256 -> s < 256 -> N.land (256 * a + r) (256 * m + s) = 256 * N.land a m + N.land r s.
Proof.
  intros Hr Hs. assert (Hl : N.land r s < 256).
  { apply N.le_lt_trans with r; auto. apply N.ldiff_le. apply N.bits_inj. intros j.
    rewrite N.ldiff_spec, N.land_spec, N.bits_0. destruct (N.testbit r j), (N.testbit s j); reflexivity. }
  apply N.bits_inj. intros j. rewrite N.land_spec, !testbit_split by auto.
  destruct (j <? 8); rewrite N.land_spec; reflexivity.
Qed.

Lemma lor_split a r : r < 256 -> N.lor r (N.shiftl a 8) = 256 * a + r.
Proof.
  intros Hr. apply N.bits_inj. intros j. rewrite N.lor_spec, testbit_split by auto.
  destruct (N.ltb_spec j 8) as [Hj|Hj].
  - rewrite N.shiftl_spec_low by auto. apply orb_false_r.
  - rewrite N.shiftl_spec_high' by auto.
    assert (N.testbit r j = false) as ->; auto.
    replace j with ((j - 8) + 8) by lia. rewrite <- N.div_pow2_bits.
    assert (r / 2 ^ 8 = 0) as -> by (apply N.div_small; auto). apply N.bits_0.
Qed.

Definition below_n (b : nat) : list N := map N.of_nat (seq 0 b).
Lemma below_n_in b x : x < N.of_nat b -> In x (below_n b).
Proof. intros H. apply in_map_iff. exists (N.to_nat x). split; [lia|]. apply in_seq. lia. Qed.

Definition f1 (b : N) : N := b - N.land (b / 2) 85.
Definition f2 (b : N) : N := N.land (f1 b) 51 + N.land (f1 b / 4) 51.
Definition f3 (b : N) : N := N.of_nat (popcountN b).

Lemma shift1_byte c b : c < 2 -> b < 256 -> N.land (128 * c + b / 2) 85 = N.land (b / 2) 85.
Proof.
  intros Hc Hb.
  assert (H : forallb (fun c => forallb (fun b => N.land (128 * c + b / 2) 85 =? N.land (b / 2) 85) (below_n 256)) (below_n 2) = true)
    by (vm_compute; reflexivity).
  rewrite forallb_forall in H. specialize (H c (below_n_in 2 c Hc)). rewrite forallb_forall in H.
  apply N.eqb_eq. apply H. apply (below_n_in 256); auto.
Qed.
Lemma shift2_byte c b : c < 4 -> b < 256 -> N.land (64 * c + f1 b / 4) 51 = N.land (f1 b / 4) 51.
Proof.
  intros Hc Hb.
  assert (H : forallb (fun c => forallb (fun b => N.land (64 * c + f1 b / 4) 51 =? N.land (f1 b / 4) 51) (below_n 256)) (below_n 4) = true)
    by (vm_compute; reflexivity).
  rewrite forallb_forall in H. specialize (H c (below_n_in 4 c Hc)). rewrite forallb_forall in H.
  apply N.eqb_eq. apply H. apply (below_n_in 256); auto.
Qed.
Lemma shift3_byte c b : c < 5 -> b < 256 ->
  f2 b + (16 * c + f2 b / 16) < 256 /\ N.land (f2 b + (16 * c + f2 b / 16)) 15 = f3 b.
Proof.
  intros Hc Hb.
  assert (H : forallb (fun c => forallb (fun b => (f2 b + (16 * c + f2 b / 16) <? 256) && (N.land (f2 b + (16 * c + f2 b / 16)) 15 =? f3 b)) (below_n 256)) (below_n 5) = true)
    by (vm_compute; reflexivity).
  rewrite forallb_forall in H. specialize (H c (below_n_in 5 c Hc)). rewrite forallb_forall in H.
  specialize (H b (below_n_in 256 b Hb)). apply andb_true_iff in H. rewrite N.ltb_lt, N.eqb_eq in H. exact H.
Qed.
Lemma byte_bounds b : b < 256 -> N.land (b / 2) 85 <= b /\ f1 b < 256 /\ f2 b < 69 /\ f2 b mod 16 < 5 /\ f3 b <= 8.
Proof.
  intros Hb.
  assert (H : forallb (fun b => (N.land (b / 2) 85 <=? b) && (f1 b <? 256) && (f2 b <? 69) && (f2 b mod 16 <? 5) && (f3 b <=? 8)) (below_n 256) = true)
    by (vm_compute; reflexivity).
  rewrite forallb_forall in H. specialize (H b (below_n_in 256 b Hb)).
  rewrite !andb_true_iff, !N.ltb_lt, !N.leb_le in H. tauto.
Qed.

Lemma popcount_byte a r : r < 256 -> N.of_nat (popcountN (256 * a + r)) = f3 r + N.of_nat (popcountN a).
Proof. intros Hr. rewrite <- lor_split by auto. rewrite (popcount_cat 8) by exact Hr. unfold f3. lia. Qed.

Definition cat4 (b3 b2 b1 b0 : N) : N := 256 * (256 * (256 * b3 + b2) + b1) + b0.

Lemma land_cat4 a3 a2 a1 a0 m : m < 256 -> a2 < 256 -> a1 < 256 -> a0 < 256 ->
  N.land (cat4 a3 a2 a1 a0) (cat4 m m m m) = cat4 (N.land a3 m) (N.land a2 m) (N.land a1 m) (N.land a0 m).
Proof. intros. unfold cat4. rewrite !land_split by auto. reflexivity. Qed.

Section Steps.
  Variables b3 b2 b1 b0 : N.
  Hypotheses (H3 : b3 < 256) (H2 : b2 < 256) (H1 : b1 < 256) (H0 : b0 < 256).

  Lemma step1 : w32 (cat4 b3 b2 b1 b0 + (4294967296 - N.land (N.shiftr (cat4 b3 b2 b1 b0) 1) 1431655765)) =
    cat4 (f1 b3) (f1 b2) (f1 b1) (f1 b0).
  Proof.
    destruct (byte_bounds b0 H0) as (L0 & _). destruct (byte_bounds b1 H1) as (L1 & _).
    destruct (byte_bounds b2 H2) as (L2 & _). destruct (byte_bounds b3 H3) as (L3 & _).
    rewrite N.shiftr_div_pow2. change (2 ^ 1) with 2.
    replace (cat4 b3 b2 b1 b0 / 2) with
      (cat4 (b3 / 2) (128 * (b3 mod 2) + b2 / 2) (128 * (b2 mod 2) + b1 / 2) (128 * (b1 mod 2) + b0 / 2)) by (unfold cat4; lia).
    change 1431655765 with (cat4 85 85 85 85). rewrite land_cat4 by lia. rewrite !shift1_byte by lia.
    unfold w32, f1, cat4.
    generalize dependent (N.land (b0 / 2) 85). generalize dependent (N.land (b1 / 2) 85).
    generalize dependent (N.land (b2 / 2) 85). generalize dependent (N.land (b3 / 2) 85). intros. lia.
  Qed.

  Lemma step2 : w32 (N.land (cat4 (f1 b3) (f1 b2) (f1 b1) (f1 b0)) 858993459 +
                     N.land (N.shiftr (cat4 (f1 b3) (f1 b2) (f1 b1) (f1 b0)) 2) 858993459) =
    cat4 (f2 b3) (f2 b2) (f2 b1) (f2 b0).
  Proof.
    destruct (byte_bounds b0 H0) as (_ & B0 & C0 & _). destruct (byte_bounds b1 H1) as (_ & B1 & C1 & _).
    destruct (byte_bounds b2 H2) as (_ & B2 & C2 & _). destruct (byte_bounds b3 H3) as (_ & B3 & C3 & _).
    rewrite N.shiftr_div_pow2. change (2 ^ 2) with 4.
    replace (cat4 (f1 b3) (f1 b2) (f1 b1) (f1 b0) / 4) with
      (cat4 (f1 b3 / 4) (64 * (f1 b3 mod 4) + f1 b2 / 4) (64 * (f1 b2 mod 4) + f1 b1 / 4) (64 * (f1 b1 mod 4) + f1 b0 / 4))
      by (unfold cat4; lia).
    change 858993459 with (cat4 51 51 51 51). rewrite !land_cat4 by lia. rewrite !shift2_byte by lia.
    unfold w32, f2, cat4 in *.
    generalize dependent (N.land (f1 b0 / 4) 51). generalize dependent (N.land (f1 b1 / 4) 51).
    generalize dependent (N.land (f1 b2 / 4) 51). generalize dependent (N.land (f1 b3 / 4) 51).
    generalize dependent (N.land (f1 b0) 51). generalize dependent (N.land (f1 b1) 51).
    generalize dependent (N.land (f1 b2) 51). generalize dependent (N.land (f1 b3) 51). intros. lia.
  Qed.

  Lemma step3 : N.land (w32 (cat4 (f2 b3) (f2 b2) (f2 b1) (f2 b0) + N.shiftr (cat4 (f2 b3) (f2 b2) (f2 b1) (f2 b0)) 4)) 252645135 =
    cat4 (f3 b3) (f3 b2) (f3 b1) (f3 b0).
  Proof.
    destruct (byte_bounds b0 H0) as (_ & _ & C0 & D0 & _). destruct (byte_bounds b1 H1) as (_ & _ & C1 & D1 & _).
    destruct (byte_bounds b2 H2) as (_ & _ & C2 & D2 & _). destruct (byte_bounds b3 H3) as (_ & _ & C3 & D3 & _).
    rewrite N.shiftr_div_pow2. change (2 ^ 4) with 16.
    destruct (shift3_byte 0 b3) as (F3 & G3); [lia|auto|].
    destruct (shift3_byte (f2 b3 mod 16) b2) as (F2 & G2); auto.
    destruct (shift3_byte (f2 b2 mod 16) b1) as (F1 & G1); auto.
    destruct (shift3_byte (f2 b1 mod 16) b0) as (F0 & G0); auto.
    replace (w32 _) with (cat4 (f2 b3 + (16 * 0 + f2 b3 / 16)) (f2 b2 + (16 * (f2 b3 mod 16) + f2 b2 / 16))
                (f2 b1 + (16 * (f2 b2 mod 16) + f2 b1 / 16)) (f2 b0 + (16 * (f2 b1 mod 16) + f2 b0 / 16))).
    - change 252645135 with (cat4 15 15 15 15). rewrite land_cat4 by (auto; lia). rewrite G0, G1, G2, G3. reflexivity.
    - clear G0 G1 G2 G3. unfold w32, cat4. lia.
  Qed.

  Lemma step4 : N.shiftr (w32 (cat4 (f3 b3) (f3 b2) (f3 b1) (f3 b0) * 16843009)) 24 = f3 b3 + f3 b2 + f3 b1 + f3 b0.
  Proof.
    destruct (byte_bounds b0 H0) as (_ & _ & _ & _ & E0). destruct (byte_bounds b1 H1) as (_ & _ & _ & _ & E1).
    destruct (byte_bounds b2 H2) as (_ & _ & _ & _ & E2). destruct (byte_bounds b3 H3) as (_ & _ & _ & _ & E3).
    rewrite N.shiftr_div_pow2. change (2 ^ 24) with 16777216. unfold w32, cat4. lia.
  Qed.
End Steps.

Theorem popcount_portable_correct n : n < 4294967296 -> popcount_portable n = N.of_nat (popcount n).
Proof.
  intros Hn.
  set (b0 := n mod 256). set (a1 := n / 256). set (b1 := a1 mod 256). set (a2 := a1 / 256).
  set (b2 := a2 mod 256). set (b3 := a2 / 256).
  assert (H0 : b0 < 256) by (unfold b0; lia). assert (H1 : b1 < 256) by (unfold b1; lia).
  assert (H2 : b2 < 256) by (unfold b2; lia). assert (H3 : b3 < 256) by (unfold b3, a2, a1; lia).
  assert (En : n = cat4 b3 b2 b1 b0) by (unfold cat4, b3, b2, a2, b1, a1, b0; lia).
  clearbody b0 b1 b2 b3. clear a1 a2. subst n.
  unfold popcount_portable. rewrite step1, step2, step3, step4 by auto.
  unfold popcount, cat4. rewrite !popcount_byte by auto. change (N.of_nat (popcountN b3)) with (f3 b3). lia.
Qed.
