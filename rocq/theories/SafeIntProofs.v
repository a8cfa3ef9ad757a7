(** * SafeIntProofs: SafeInteger is exact or throws. *)
From Coq Require Import ZArith Bool Lia.
From Verif Require Import Base SafeIntModel.
Open Scope Z_scope.

(** Specification: the exact result if it is representable in 64 bits, an exception otherwise. *)
Definition exact_or_throw (z : Z) : res Z := if fits 64 z then Ok z else Throw.

Lemma data_min_eq : data_min = -9223372036854775808. Proof. reflexivity. Qed.
Lemma data_max_eq : data_max = 9223372036854775807. Proof. reflexivity. Qed.

Lemma fits64 z : fits 64 z = true <-> -9223372036854775808 <= z <= 9223372036854775807.
Proof.
  unfold fits. change (int_min 64) with (-9223372036854775808). change (int_max 64) with 9223372036854775807.
  rewrite andb_true_iff, !Z.leb_le. reflexivity.
Qed.
Lemma fits64_false z : fits 64 z = false <-> z < -9223372036854775808 \/ 9223372036854775807 < z.
Proof.
  destruct (fits 64 z) eqn:E.
  - apply fits64 in E. split; [discriminate|lia].
  - split; auto. intros _. destruct (Z.leb_spec (-9223372036854775808) z), (Z.leb_spec z 9223372036854775807); try lia.
    assert (fits 64 z = true) by (apply fits64; lia). congruence.
Qed.

Ltac fits_case z :=
  let E := fresh "E" in
  destruct (fits 64 z) eqn:E; [apply fits64 in E|apply fits64_false in E].
Ltac fits_yes z := replace (fits 64 z) with true by (symmetry; apply fits64; nia).
Ltac fits_no z := replace (fits 64 z) with false by (symmetry; apply fits64_false; nia).

Lemma ck_ok z : -9223372036854775808 <= z <= 9223372036854775807 -> ck 64 z = Ok z.
Proof. intros H. unfold ck. replace (fits 64 z) with true; auto. symmetry. apply fits64. auto. Qed.

Lemma eot_ok z : -9223372036854775808 <= z <= 9223372036854775807 -> exact_or_throw z = Ok z.
Proof. intros H. unfold exact_or_throw. replace (fits 64 z) with true; auto. symmetry. apply fits64. auto. Qed.
Lemma eot_throw z : z < -9223372036854775808 \/ 9223372036854775807 < z -> exact_or_throw z = Throw.
Proof. intros H. unfold exact_or_throw. replace (fits 64 z) with false; auto. symmetry. apply fits64_false. auto. Qed.

Lemma si_neg_spec a : fits 64 a = true -> si_neg a = exact_or_throw (- a).
Proof.
  intros Ha. apply fits64 in Ha. unfold si_neg, i_add, i_mul. rewrite data_min_eq, data_max_eq.
  rewrite ck_ok by lia. cbn [bind]. change (_ =? 0) with false. cbn [negb andb].
  destruct (Z.eqb_spec a (-9223372036854775808)); [rewrite eot_throw by lia; auto|].
  rewrite ck_ok by lia. rewrite eot_ok by lia. f_equal. lia.
Qed.

Lemma si_abs_spec a : fits 64 a = true -> si_abs a = exact_or_throw (Z.abs a).
Proof.
  intros Ha. unfold si_abs. destruct (Z.ltb_spec a 0).
  - rewrite si_neg_spec by auto. f_equal. lia.
  - apply fits64 in Ha. rewrite eot_ok by lia. f_equal. lia.
Qed.

Lemma quot_bound m b : b <> 0 -> Z.abs (Z.quot m b) <= Z.abs m.
Proof. intros H. rewrite <- Z.quot_abs by auto. rewrite Z.quot_div_nonneg by lia.
  apply Z.div_le_upper_bound; nia.
Qed.

Lemma mul_limit_max a b m : 0 < b -> 0 <= m -> 0 <= a -> (Z.quot m b <? a) = negb (a * b <=? m).
Proof.
  intros. rewrite Z.quot_div_nonneg by lia. pose proof (Z.div_mod m b). pose proof (Z.mod_pos_bound m b).
  destruct (Z.ltb_spec (m / b) a), (Z.leb_spec (a * b) m); cbn; auto; nia.
Qed.

Lemma si_mul_spec a b : fits 64 a = true -> fits 64 b = true -> si_mul a b = exact_or_throw (a * b).
Proof.
  intros Ha Hb. unfold si_mul.
  destruct (Z.eqb_spec a 0) as [->|Ha0]; [reflexivity|].
  destruct (Z.eqb_spec b 0) as [->|Hb0]; [cbn [orb]; rewrite Z.mul_0_r; reflexivity|]. cbn [orb].
  destruct (Z.eqb_spec b (-1)) as [->|Hb1]; [rewrite si_neg_spec by auto; f_equal; lia|].
  apply fits64 in Ha, Hb. unfold i_div, i_mul. rewrite data_min_eq, data_max_eq.
  destruct (Z.eqb_spec b 0); [lia|].
  set (M := 9223372036854775807) in *. 
  destruct (Z.gtb_spec a 0), (Z.gtb_spec b 0); cbn [Bool.eqb andb orb]; try lia.
  - pose proof (quot_bound M b). rewrite ck_ok by lia. cbn [bind].
    destruct (Z.ltb_spec a 0); [lia|]. cbn [andb]. rewrite orb_false_r, mul_limit_max by lia.
    destruct (Z.leb_spec (a * b) M); cbn [negb].
    + rewrite ck_ok, eot_ok by nia. auto.
    + rewrite eot_throw by lia. auto.
  - (* a > 0, b < -1 *)
    pose proof (quot_bound (-9223372036854775808) b ltac:(lia)).
    assert (Hq : Z.quot (-9223372036854775808) b = Z.quot 9223372036854775808 (- b)).
    { rewrite Z.quot_opp_r by lia. exact (Z.quot_opp_l 9223372036854775808 b ltac:(lia)). }
    assert (Z.quot 9223372036854775808 (- b) <= M).
    { rewrite Z.quot_div_nonneg by lia. apply Z.div_le_upper_bound; lia. }
    rewrite Hq in *. assert (0 <= Z.quot 9223372036854775808 (- b)) by (apply Z.quot_pos; lia).
    rewrite ck_ok by lia. cbn [bind]. destruct (Z.ltb_spec a 0); [lia|]. cbn [andb].
    rewrite orb_false_r, mul_limit_max by lia.
    destruct (Z.leb_spec (a * - b) 9223372036854775808); cbn [negb].
    + rewrite ck_ok, eot_ok by nia. auto.
    + rewrite eot_throw by lia. auto.
  - (* a < 0, b > 0 *)
    pose proof (quot_bound (-9223372036854775808) b ltac:(lia)).
    assert (Hq : Z.quot (-9223372036854775808) b = - Z.quot 9223372036854775808 b).
    { exact (Z.quot_opp_l 9223372036854775808 b ltac:(lia)). }
    assert (0 <= Z.quot 9223372036854775808 b) by (apply Z.quot_pos; lia).
    rewrite Hq in *. rewrite ck_ok by lia. cbn [bind]. destruct (Z.ltb_spec a 0); [|lia].
    replace (- Z.quot 9223372036854775808 b >? a) with (Z.quot 9223372036854775808 b <? - a)
      by (destruct (Z.gtb_spec (- Z.quot 9223372036854775808 b) a), (Z.ltb_spec (Z.quot 9223372036854775808 b) (- a)); auto; lia).
    rewrite mul_limit_max by lia.
    destruct (Z.leb_spec (- a * b) 9223372036854775808); cbn [negb].
    + rewrite ck_ok, eot_ok by nia. auto.
    + rewrite eot_throw by lia. auto.
  - (* both negative *)
    pose proof (quot_bound M b ltac:(lia)).
    assert (Hq : Z.quot M b = - Z.quot M (- b)).
    { rewrite Z.quot_opp_r by lia. lia. }
    assert (0 <= Z.quot M (- b)) by (apply Z.quot_pos; lia).
    rewrite Hq in *. rewrite ck_ok by lia. cbn [bind]. destruct (Z.ltb_spec a 0); [|lia].
    replace (- Z.quot M (- b) >? a) with (Z.quot M (- b) <? - a)
      by (destruct (Z.gtb_spec (- Z.quot M (- b)) a), (Z.ltb_spec (Z.quot M (- b)) (- a)); auto; lia).
    rewrite mul_limit_max by lia. 
    destruct (Z.leb_spec (- a * - b) M); cbn [negb].
    + rewrite ck_ok, eot_ok by nia. auto.
    + rewrite eot_throw by lia. auto.
Qed.

Lemma si_div_spec a b : fits 64 a = true ->
  si_div a b = if b =? 0 then Throw else exact_or_throw (Z.quot a b).
Proof.
  intros Ha. unfold si_div. destruct (Z.eqb_spec b 0); auto.
  destruct (Z.eqb_spec b (-1)) as [->|Hb1].
  - rewrite si_neg_spec by auto. f_equal. pose proof (Z.quot_opp_r a 1 ltac:(lia)) as Q. rewrite Z.quot_1_r in Q. symmetry. exact Q.
  - apply fits64 in Ha. unfold i_div. destruct (Z.eqb_spec b 0); [lia|].
    destruct (Z.eq_dec b 1) as [->|Hb2].
    + rewrite Z.quot_1_r, ck_ok, eot_ok by lia. auto.
    + assert (Z.abs (Z.quot a b) <= 4611686018427387904).
      { rewrite <- Z.quot_abs by auto. rewrite Z.quot_div_nonneg by lia. apply Z.div_le_upper_bound; nia. }
      rewrite ck_ok, eot_ok by lia. auto.
Qed.

Lemma si_add_spec a b : fits 64 a = true -> fits 64 b = true -> si_add a b = exact_or_throw (a + b).
Proof.
  intros Ha Hb. apply fits64 in Ha, Hb. unfold si_add, i_sub, i_add. rewrite data_min_eq, data_max_eq.
  destruct (Z.gtb_spec a 0), (Z.gtb_spec b 0); cbn [andb bind];
    try (rewrite (ck_ok (_ - a)) by lia; cbn [bind]);
    try (destruct (Z.gtb_spec b (9223372036854775807 - a)); cbn [bind]);
    destruct (Z.ltb_spec a 0), (Z.ltb_spec b 0); cbn [andb bind]; try lia;
    try (rewrite (ck_ok (-9223372036854775808 - a)) by lia; cbn [bind]);
    try (destruct (Z.ltb_spec b (-9223372036854775808 - a)));
    try (rewrite eot_throw by lia; reflexivity); rewrite ck_ok, eot_ok by lia; reflexivity.
Qed.

Lemma si_sub_spec a b : fits 64 a = true -> fits 64 b = true -> si_sub a b = exact_or_throw (a - b).
Proof.
  intros Ha Hb. apply fits64 in Ha, Hb. unfold si_sub, i_sub, i_add. rewrite data_min_eq, data_max_eq.
  destruct (Z.ltb_spec b 0); cbn [bind].
  - rewrite (ck_ok (9223372036854775807 + b)) by lia. cbn [bind].
    destruct (Z.gtb_spec a (9223372036854775807 + b)); [rewrite eot_throw by lia; auto|].
    destruct (Z.gtb_spec b 0); [lia|]. cbn [bind]. rewrite ck_ok, eot_ok by lia. auto.
  - destruct (Z.gtb_spec b 0); cbn [bind].
    + rewrite (ck_ok (-9223372036854775808 + b)) by lia. cbn [bind].
      destruct (Z.ltb_spec a (-9223372036854775808 + b)); [rewrite eot_throw by lia; auto|].
      rewrite ck_ok, eot_ok by lia. auto.
    + rewrite ck_ok, eot_ok by lia. auto.
Qed.

Lemma si_mod_spec a b : fits 64 a = true -> fits 64 b = true ->
  si_mod a b = if 0 <? b then Ok (a mod b) else Throw.
Proof.
  intros Ha Hb. unfold si_mod. destruct (Z.eqb_spec b 0) as [->|]; [reflexivity|].
  destruct (Z.ltb_spec b 0); [destruct (Z.ltb_spec 0 b); [lia|auto]|].
  destruct (Z.ltb_spec 0 b); [|lia]. apply fits64 in Ha, Hb.
  unfold i_mod, i_add. destruct (Z.eqb_spec b 0); [lia|].
  pose proof (quot_bound a b ltac:(lia)).
  assert (Hf : fits 64 (Z.quot a b) = true).
  { apply fits64. destruct (Z.eq_dec b 1) as [->|]; [rewrite Z.quot_1_r; lia|].
    assert (Z.abs (Z.quot a b) <= 4611686018427387904).
    { rewrite <- Z.quot_abs by auto. rewrite Z.quot_div_nonneg by lia. apply Z.div_le_upper_bound; nia. }
    lia. }
  rewrite Hf. cbn [bind]. pose proof (Z.quot_rem a b ltac:(lia)). pose proof (Z.rem_bound_abs a b ltac:(lia)).
  destruct (Z.ltb_spec (Z.rem a b) 0).
  - rewrite ck_ok by lia. f_equal. apply Z.mod_unique_pos with (Z.quot a b - 1); lia.
  - f_equal. apply Z.mod_unique_pos with (Z.quot a b); lia.
Qed.

Lemma si_compare_spec a b :
  si_eq a b = (a =? b) /\ si_ne a b = negb (a =? b) /\ si_lt a b = (a <? b) /\ si_gt a b = (a >? b) /\
  si_le a b = (a <=? b) /\ si_ge a b = (a >=? b) /\
  si_eqi a b = (a =? b) /\ si_nei a b = negb (a =? b) /\ si_lti a b = (a <? b) /\ si_gti a b = (a >? b) /\
  si_lei a b = (a <=? b) /\ si_gei a b = (a >=? b).
Proof.
  unfold si_ge, si_le, si_gt, si_lt, si_ne, si_eq, si_gei, si_lei, si_gti, si_lti, si_nei, si_eqi.
  rewrite !Z.geb_leb, !Z.gtb_ltb, !Z.ltb_antisym, !negb_involutive. repeat split; auto.
Qed.

Lemma si_of_signed_spec v : si_of_signed v = exact_or_throw v.
Proof.
  unfold si_of_signed. rewrite data_min_eq, data_max_eq.
  destruct (Z.gtb_spec v 9223372036854775807); cbn [orb]; [rewrite eot_throw by lia; auto|].
  destruct (Z.ltb_spec v (-9223372036854775808)); [rewrite eot_throw by lia; auto|rewrite eot_ok by lia; auto].
Qed.

Lemma si_of_unsigned_spec v : 0 <= v < 2 ^ 64 -> si_of_unsigned v = exact_or_throw v.
Proof.
  intros H. change (2 ^ 64) with 18446744073709551616 in H. unfold si_of_unsigned, to_u64, wrap_signed. rewrite data_max_eq.
  change (2 ^ (64 - 1)) with 9223372036854775808. change (2 ^ 64) with 18446744073709551616.
  rewrite (Z.mod_small v) by lia. change (9223372036854775807 mod _) with 9223372036854775807.
  destruct (Z.gtb_spec v 9223372036854775807); [rewrite eot_throw by lia; auto|].
  rewrite eot_ok, Z.mod_small by lia. f_equal. lia.
Qed.

Lemma si_to_int_spec a : si_to_int a = if fits 32 a then Ok a else Throw.
Proof.
  unfold si_to_int, fits, wrap_signed. change (int_max 32) with 2147483647. change (int_min 32) with (-2147483648).
  change (2 ^ (32 - 1)) with 2147483648. change (2 ^ 32) with 4294967296.
  destruct (Z.gtb_spec a 2147483647), (Z.ltb_spec a (-2147483648)), (Z.leb_spec (-2147483648) a), (Z.leb_spec a 2147483647);
    cbn [orb andb]; auto; try lia.
  rewrite Z.mod_small by lia. f_equal. lia.
Qed.
