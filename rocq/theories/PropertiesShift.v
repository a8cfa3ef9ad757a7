(** * PropertiesShift: the shift operators of BigInteger (C64). *)
From Coq Require Import List ZArith Arith Bool Lia.
From Verif Require Import Base ArithModel SafeIntModel BigIntModel BigIntLimbs BigIntProofs BigIntShift PropertiesBig.
Import ListNotations.
Open Scope Z_scope.

(** ** Specification *)
(** ([represents W a z]: [a] is the canonical object for the integer [z], digits of [W] bits; PropertiesBig.) *)
(** The left shift by [k] looks at one bit of each digit only: with [r = k mod W], bit [W - r], the lowest one that leaves the digit.  A digit is kept if no
    bit leaves it or if that bit is set. *)
Definition keeps_digit (W r : nat) (d : Z) : Prop := d < 2 ^ Z.of_nat (W - r) \/ Z.testbit d (Z.of_nat (W - r)) = true.

Lemma left_safe_iff W k a : (32 <= W)%nat -> canonical W a ->
  left_safe W k a <-> forall d, In d (limbs a) -> keeps_digit W (k mod W) d.
Proof.
  intros HW H. unfold left_safe. rewrite Forall_forall. split.
  - intros [E|E]; [|exact E]. intros d Hd. left. rewrite E, Nat.sub_0_r. assert (R := cmag_range W _ (proj1 H)). unfold in_range in R.
    rewrite Forall_forall in R. apply R. exact Hd.
  - intros E. right. exact E.
Qed.

(** ** C64 *)
(** The left shift is defined for every distance; the result is the canonical object for z * 2^k if and only if every digit is kept. *)
Theorem C64_left : forall W a z k, (32 <= W)%nat -> represents W a z ->
  exists b, b_shl W a k = Ok b /\
    ((forall d, In d (limbs a) -> keeps_digit W (k mod W) d) <-> represents W b (z * 2 ^ Z.of_nat k)).
Proof.
  intros W a z k HW H. apply represents_iff in H. destruct H as (H & ->). destruct (shl_ok W HW a k H) as (b & Hb & H1 & H2).
  exists b. split; [exact Hb|]. rewrite <- left_safe_iff by auto. rewrite represents_iff. split.
  - intros Hs. destruct (H1 Hs) as (H3 & H4). split; [exact H3|]. symmetry. exact H4.
  - intros (H3 & H4). destruct (Nat.eq_dec (k mod W) 0) as [E|E]; [left; exact E|].
    destruct (Forall_dec (safe_limb W (k mod W))) with (l := limbs a) as [F|F].
    + intros x. unfold safe_limb. destruct (Z_lt_dec x (2 ^ Z.of_nat (W - k mod W))); [left; auto|].
      destruct (Z.testbit x (Z.of_nat (W - k mod W))); [left; auto|right; intros [|]; [contradiction|discriminate]].
    + right. exact F.
    + exfalso. apply H2; [|symmetry; exact H4]. intros [|]; contradiction.
Qed.
Print Assumptions C64_left.

(** The distances for which the left shift is right whatever the number is: one, as in the program, and multiples of the digit width. *)
Theorem C64_left_one : forall W a z, (32 <= W)%nat -> represents W a z ->
  exists b, b_shl W a 1 = Ok b /\ b_shift1 W a = Ok b /\ represents W b (2 * z).
Proof.
  intros W a z HW H. destruct (C64_left W a z 1 HW H) as (b & Hb & Hr). exists b. split; [exact Hb|].
  assert (HR : in_range W (limbs a)). { apply represents_iff in H. apply cmag_range. apply H. }
  split; [rewrite <- (shl_one W HW); auto|]. replace (2 * z) with (z * 2 ^ Z.of_nat 1) by (change (2 ^ Z.of_nat 1) with 2; ring). apply Hr. intros d Hd.
  rewrite Nat.mod_small by lia. unfold keeps_digit. unfold in_range in HR. rewrite Forall_forall in HR. specialize (HR d Hd). cbn beta in HR.
  destruct (Z_lt_dec d (2 ^ Z.of_nat (W - 1))) as [|Hge]; [left; auto|right].
  destruct (base_even W HW) as (h & E1 & E2 & E3). replace (Z.of_nat (W - 1)) with (Z.of_nat W - 1) in * by lia. rewrite <- E3 in Hge.
  apply Z.testbit_true; [lia|]. rewrite <- E3. replace (d / h) with 1; [reflexivity|]. apply (Z.div_unique d h 1 (d - h)); lia.
Qed.
Print Assumptions C64_left_one.
Theorem C64_left_digits : forall W a z n, (32 <= W)%nat -> represents W a z ->
  exists b, b_shl W a (n * W) = Ok b /\ represents W b (z * 2 ^ Z.of_nat (n * W)).
Proof.
  intros W a z n HW H. destruct (C64_left W a z (n * W) HW H) as (b & Hb & Hr). exists b. split; [exact Hb|]. apply Hr. intros d Hd. left.
  rewrite Nat.mod_mul, Nat.sub_0_r by lia. apply represents_iff in H. destruct H as ((H & _) & _). apply cmag_range in H. unfold in_range in H.
  rewrite Forall_forall in H. apply H. exact Hd.
Qed.
Print Assumptions C64_left_digits.
(** For every other distance there is a number for which the left shift goes wrong. *)
Theorem C64_left_wrong : forall W k, (32 <= W)%nat -> (2 <= k mod W)%nat ->
  exists a z b, represents W a z /\ b_shl W a k = Ok b /\ ~ represents W b (z * 2 ^ Z.of_nat k).
Proof.
  intros W k HW Hk. assert (Hkw : (k mod W < W)%nat) by (apply Nat.mod_upper_bound; lia).
  set (d := 2 ^ Z.of_nat (W - 1)). assert (H : represents W (mk_big false [d]) d).
  { assert (Hp : 0 < d) by (apply Z.pow_pos_nonneg; lia). assert (Hl : d < 2 ^ Z.of_nat W) by (apply Z.pow_lt_mono_r; lia).
    split; [|unfold digits; cbn [negative limbs fold_right]; ring]. split; [discriminate|]. split; [|split; [left; reflexivity|reflexivity]].
    intros x [<-|[]]. lia. }
  destruct (C64_left W _ _ k HW H) as (b & Hb & Hr). exists (mk_big false [d]), d, b. split; [exact H|]. split; [exact Hb|].
  rewrite <- Hr. intros Hd. specialize (Hd d (or_introl eq_refl)). unfold keeps_digit in Hd. destruct Hd as [Hd|Hd].
  - apply Z.lt_nge in Hd. apply Hd. apply Z.pow_le_mono_r; lia.
  - unfold d in Hd. rewrite Z.pow2_bits_false in Hd; [discriminate|]. lia.
Qed.
Print Assumptions C64_left_wrong.

(** The right shift by [k] divides by 2^k and rounds towards zero, if [k] is less than the width of all digits together. *)
Theorem C64_right : forall W a z k, (32 <= W)%nat -> represents W a z -> (k < W * length (limbs a))%nat ->
  exists b, b_shr W a k = Ok b /\ represents W b (Z.quot z (2 ^ Z.of_nat k)).
Proof.
  intros W a z k HW H Hk. apply represents_iff in H. destruct H as (H & ->). destruct (shr_ok W HW a k H) as (b & Hb & H1 & H2).
  - apply Nat.div_lt_upper_bound; lia.
  - exists b. split; [exact Hb|]. apply represents_iff. auto.
Qed.
Print Assumptions C64_right.
(** Otherwise it is undefined or leaves an object without digits, which stands for no integer. *)
Theorem C64_right_beyond : forall W a k, (32 <= W)%nat -> (W * length (limbs a) <= k)%nat ->
  b_shr W a k = UB \/ (exists b, b_shr W a k = Ok b /\ limbs b = [] /\ forall z, ~ represents W b z).
Proof.
  intros W a k HW Hk. destruct (shr_bad W HW a k) as [H|(b & H1 & H2)]; [apply Nat.div_le_lower_bound; lia|left; exact H|].
  right. exists b. split; [exact H1|]. split; [exact H2|]. intros z ((H & _) & _). contradiction.
Qed.
Print Assumptions C64_right_beyond.
(** A left shift that is right is undone by the right shift. *)
Theorem C64_there_and_back : forall W a z k, (32 <= W)%nat -> represents W a z ->
  (forall d, In d (limbs a) -> keeps_digit W (k mod W) d) -> z <> 0 ->
  exists b, b_shl W a k = Ok b /\ b_shr W b k = Ok a.
Proof.
  intros W a z k HW H Hd Hz. destruct (C64_left W a z k HW H) as (b & Hb & Hr). exists b. split; [exact Hb|]. apply Hr in Hd.
  assert (Hp : 0 < 2 ^ Z.of_nat k) by (apply Z.pow_pos_nonneg; lia).
  assert (Hlen : (k < W * length (limbs b))%nat).
  { destruct Hd as ((D1 & D2 & D3 & _) & Ev). destruct (Nat.lt_ge_cases k (W * length (limbs b))) as [|Hge]; [assumption|exfalso].
    assert (HL := lval_bound W HW (limbs b)). rewrite <- digits_lval in HL. assert (D4 : in_range W (limbs b)) by (unfold in_range; rewrite Forall_forall; exact D2).
    specialize (HL D4). assert (HN := lval_nonneg W HW (limbs b) D4). rewrite <- digits_lval in HN.
    assert (E : base W ^ Z.of_nat (length (limbs b)) <= 2 ^ Z.of_nat k). { unfold base. rewrite <- Z.pow_mul_r by lia. apply Z.pow_le_mono_r; lia. }
    assert (A : Z.abs (z * 2 ^ Z.of_nat k) = digits W (limbs b)). { rewrite Ev. destruct (negative b); lia. }
    rewrite Z.abs_mul, (Z.abs_eq (2 ^ _)) in A by lia. nia. }
  destruct (C64_right W b _ k HW Hd Hlen) as (c & Hc & Hq). rewrite Hc. f_equal. rewrite Z.quot_mul in Hq by lia.
  apply represents_iff in H, Hq. apply (canonical_unique W HW); [apply Hq|apply H|]. rewrite <- (proj2 H), <- (proj2 Hq). reflexivity.
Qed.
Print Assumptions C64_there_and_back.

(** Digits of 64 bits: -(5 + 2^64) shifted left by 67 and right by 66, and 2^63, of which nothing is left after a shift by two. *)
Example C64_instance :
  represents 64 (mk_big true [5; 1]) (- (5 + 2 ^ 64)) /\
  (forall d, In d [5; 1] -> keeps_digit 64 (67 mod 64) d) /\
  b_shl 64 (mk_big true [5; 1]) 67 = Ok (mk_big true [0; 40; 8]) /\
  b_shr 64 (mk_big true [0; 40; 8]) 66 = Ok (mk_big true [10; 2]) /\
  b_shl 64 (mk_big true [2 ^ 63]) 2 = Ok (mk_big true [0]) /\
  b_shr 64 (mk_big false [5]) 64 = Ok (mk_big false []) /\ b_shr 64 (mk_big false [5]) 65 = UB.
Proof.
  split; [|split; [|repeat split; vm_compute; reflexivity]].
  - split; [|vm_compute; reflexivity]. split; [discriminate|]. split; [intros d [<-|[<-|[]]]; lia|]. split; [right; discriminate|discriminate].
  - intros d [<-|[<-|[]]]; left; vm_compute; reflexivity.
Qed.
