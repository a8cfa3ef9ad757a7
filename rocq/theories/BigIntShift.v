(** * BigIntShift: the shift operators of BigInteger for every distance (big_integer.cpp 17-74), and what they compute.  They are private; the
    program only calls [<<=] with distance 1 ([b_shift1] of BigIntModel, [shl_one] below).  [operator>>] is declared and not defined. *)
From Coq Require Import List ZArith Arith Lia Bool.
From Verif Require Import Base ArithModel SafeIntModel BigIntModel BigIntLimbs BigIntProofs.
Import ListNotations.
Open Scope Z_scope.

Section Model.
  Variable W : nat.

  (** big_integer.cpp 25-41 for a residual distance [r > 0].  The loop runs from the last limb to the first; as it reads each limb before changing it and adds
      to a limb that was already shifted, the result is the same from the first to the last.  [carry]: what line 38 adds to the limb, if the test in line 36
      looked at a set bit; line 32 has appended a zero if this is so for the last limb. *)
  Fixpoint shl_limbs (r : nat) (carry : option Z) (l : list Z) : list Z :=
    match l with
    | [] => match carry with Some c => [limb_wrap W (0 + c)] | None => [] end
    | x :: l' =>
        limb_wrap W (limb_wrap W (x * 2 ^ Z.of_nat r) + match carry with Some c => c | None => 0 end) ::
        shl_limbs r (if Z.testbit x (Z.of_nat (W - r)) then Some (x / 2 ^ Z.of_nat (W - r)) else None) l'
    end.
  (** [operator<<=] (big_integer.cpp 17-48). *)
  Definition b_shl (a : big) (distance : nat) : res big :=
    if b_is_zero a then Ok a
    else
      let blocks := (distance / W)%nat in
      let r := (distance mod W)%nat in
      if (r =? 0)%nat then Ok (mk_big (negative a) (repeat 0 blocks ++ limbs a))
      else match limbs a with [] => UB | l => Ok (mk_big (negative a) (repeat 0 blocks ++ shl_limbs r None l)) end.
  (** [operator<<] (big_integer.cpp 69-74) works on a copy. *)
  Definition b_shl_copy (a : big) (distance : nat) : res big := b_shl a distance.

  (** big_integer.cpp 57-62 for a limb [x] and the limbs after it. *)
  Fixpoint shr_limbs (r : nat) (x : Z) (l : list Z) : list Z :=
    match l with
    | [] => [x / 2 ^ Z.of_nat r]
    | y :: l' => limb_wrap W (x / 2 ^ Z.of_nat r + limb_wrap W ((y mod 2 ^ Z.of_nat r) * 2 ^ Z.of_nat (W - r))) :: shr_limbs r y l'
    end.
  (** [operator>>=] (big_integer.cpp 50-67): erasing more limbs than there are and [data[0]] of no limbs are undefined. *)
  Definition b_shr (a : big) (distance : nat) : res big :=
    let blocks := (distance / W)%nat in
    let r := (distance mod W)%nat in
    if (length (limbs a) <? blocks)%nat then UB
    else
      let l := skipn blocks (limbs a) in
      if (r =? 0)%nat then Ok (b_shrink (mk_big (negative a) l))
      else match l with [] => UB | x :: l' => Ok (b_shrink (mk_big (negative a) (shr_limbs r x l'))) end.
End Model.

Section Proofs.
  Variable W : nat.
  Hypothesis HW : (32 <= W)%nat.
  Notation B := (base W).

  Lemma shl_one_limbs c l : in_range W l -> shl_limbs W 1 (if c : bool then Some 1 else None) l = shift_limbs W c l.
  Proof.
    intros H. assert (Hb := base_big W HW). revert c. induction H as [|x l Hx H IH]; intros c; cbn [shl_limbs shift_limbs].
    - destruct c; [|reflexivity]. rewrite (wrap_small W) by lia. reflexivity.
    - change (2 ^ Z.of_nat 1) with 2. f_equal; [rewrite (Z.mul_comm x 2); destruct c; reflexivity|].
      rewrite <- IH. f_equal. unfold top_bit. replace (Z.of_nat (W - 1)) with (Z.of_nat W - 1) by lia.
      destruct (Z.testbit x (Z.of_nat W - 1)) eqn:E; [|reflexivity]. f_equal.
      destruct (base_even W HW) as (h & Hh & Hp & Eh). rewrite <- Eh.
      apply Z.testbit_true in E; [|lia]. rewrite <- Eh in E. assert (0 <= x / h < 2) by (split; [apply Z.div_pos; lia|apply Z.div_lt_upper_bound; lia]).
      assert (x / h = 0 \/ x / h = 1) as [E1|E1] by lia; [rewrite E1 in E; discriminate|exact E1].
  Qed.
  Lemma shl_one a : in_range W (limbs a) -> b_shl W a 1 = b_shift1 W a.
  Proof.
    intros H. unfold b_shl, b_shift1. destruct (b_is_zero a); [reflexivity|].
    rewrite Nat.div_small, Nat.mod_small by lia. cbn [Nat.eqb repeat app]. destruct (limbs a) as [|x l] eqn:E; [reflexivity|].
    rewrite (shl_one_limbs false) by auto. reflexivity.
  Qed.

  Section Residual.
    Variable r : nat.
    Hypothesis Hr : (0 < r < W)%nat.
    Notation R := (2 ^ Z.of_nat r).
    Notation T := (2 ^ Z.of_nat (W - r)).
    Lemma base_split : B = R * T.
    Proof. unfold base. rewrite <- Z.pow_add_r by lia. f_equal. lia. Qed.
    Lemma R_pos : 0 < R. Proof. apply Z.pow_pos_nonneg; lia. Qed.
    Lemma T_pos : 0 < T. Proof. apply Z.pow_pos_nonneg; lia. Qed.

    (** The bits above [T] reach the next limb. *)
    Definition safe_limb (x : Z) : Prop := x < T \/ Z.testbit x (Z.of_nat (W - r)) = true.
    Lemma limb_split x : 0 <= x < B -> limb_wrap W (x * R) = R * (x mod T) /\ 0 <= x / T < R.
    Proof.
      intros Hx. assert (HB := base_split). assert (HR := R_pos). assert (HT := T_pos). unfold limb_wrap. split.
      - rewrite HB, (Z.mul_comm x R). apply Z.mul_mod_distr_l; lia.
      - split; [apply Z.div_pos; lia|apply Z.div_lt_upper_bound; [lia|]]. rewrite (Z.mul_comm T R). lia.
    Qed.
    Lemma shl_spec c l : in_range W l -> (forall z, c = Some z -> 0 < z < R) ->
      in_range W (shl_limbs W r c l) /\
      exists lost, 0 <= lost /\ lval W (shl_limbs W r c l) = R * lval W l + (match c with Some z => z | None => 0 end) - lost /\
        (lost = 0 <-> Forall safe_limb l) /\
        (length (shl_limbs W r c l) = length l \/ (length (shl_limbs W r c l) = S (length l) /\ last (shl_limbs W r c l) 0 <> 0)).
    Proof.
      intros H. assert (HB := base_split). assert (HR := R_pos). assert (HT := T_pos). revert c. induction H as [|x l Hx H IH]; intros c Hc; cbn [shl_limbs].
      - destruct c as [z|].
        + assert (Hz := Hc z eq_refl). rewrite (wrap_small W) by nia. split; [repeat constructor; nia|]. exists 0. cbn [lval length last]. repeat split; try lia; auto.
        + split; [constructor|]. exists 0. cbn. repeat split; try lia; auto.
      - destruct (limb_split x Hx) as (L1 & L2). rewrite L1.
        set (c' := if Z.testbit x (Z.of_nat (W - r)) then Some (x / T) else None).
        assert (Hodd : Z.testbit x (Z.of_nat (W - r)) = Z.odd (x / T)).
        { rewrite Z.testbit_odd, Z.shiftr_div_pow2 by lia. reflexivity. }
        assert (Hc' : forall z, c' = Some z -> 0 < z < R).
        { intros z. unfold c'. rewrite Hodd. destruct (Z.odd (x / T)) eqn:E; [|discriminate]. injection 1 as <-. destruct (Z.eq_dec (x / T) 0) as [E0|E0]; [rewrite E0 in E; discriminate|lia]. }
        destruct (IH c' Hc') as (I1 & lost & I2 & I3 & I4 & I5).
        set (v := match c with Some z => z | None => 0 end) in *. assert (Hv : 0 <= v < R). { unfold v. destruct c as [z|]; [destruct (Hc z eq_refl)|]; lia. }
        assert (Hm := Z.mod_pos_bound x T HT). assert (Hd := Z.div_mod x T ltac:(lia)).
        assert (Hw : 0 <= R * (x mod T) + v < B).
        { rewrite HB. split; [nia|]. apply Z.lt_le_trans with (R * (x mod T + 1)); [lia|]. apply Z.mul_le_mono_nonneg_l; lia. }
        rewrite (wrap_small W) by exact Hw. split; [constructor; auto|].
        exists (B * (x / T - match c' with Some z => z | None => 0 end) + B * lost).
        assert (Hlx : 0 <= x / T - match c' with Some z => z | None => 0 end /\ (x / T - match c' with Some z => z | None => 0 end = 0 <-> safe_limb x)).
        { unfold c', safe_limb. destruct (Z.testbit x (Z.of_nat (W - r))) eqn:E; [split; [lia|split; [auto|lia]]|]. rewrite Z.sub_0_r. split; [lia|]. split.
          - intros E0. left. rewrite E0 in Hd. lia.
          - intros [Hlt|]; [apply Z.div_small; lia|discriminate]. }
        destruct Hlx as (Hl1 & Hl2). set (lx := x / T - match c' with Some z => z | None => 0 end) in *.
        assert (HBp := base_pos W HW). split; [nia|]. split; [|split].
        + cbn [lval]. rewrite I3. assert (E : R * x = B * (x / T) + R * (x mod T)). { rewrite Hd at 1. rewrite HB. ring. }
          unfold lx. transitivity (R * (x mod T) + v + B * (R * lval W l + match c' with Some z => z | None => 0 end - lost)); [reflexivity|].
          transitivity ((B * (x / T) + R * (x mod T)) + R * (B * lval W l) + v - (B * (x / T - match c' with Some z => z | None => 0 end) + B * lost)); [ring|]. rewrite <- E. ring.
        + rewrite Forall_cons_iff, <- Hl2, <- I4. split; [intros E; split; nia|intros (-> & ->); lia].
        + cbn [length]. destruct I5 as [I5|(I5 & I6)]; [left; lia|right]. split; [lia|].
          destruct (shl_limbs W r c' l) eqn:E; [discriminate|]. exact I6.
    Qed.
    Lemma shr_spec x l : 0 <= x < B -> in_range W l -> in_range W (shr_limbs W r x l) /\ lval W (shr_limbs W r x l) = (x + B * lval W l) / R.
    Proof.
      intros Hx H. assert (HB := base_split). assert (HR := R_pos). assert (HT := T_pos). revert x Hx. induction H as [|y l Hy H IH]; intros x Hx; cbn [shr_limbs lval].
      - assert (0 <= x / R < B). { split; [apply Z.div_pos; lia|]. apply Z.le_lt_trans with x; [|lia]. apply Z.div_le_upper_bound; nia. }
        split; [repeat constructor; lia|]. rewrite !Z.mul_0_r, !Z.add_0_r. reflexivity.
      - destruct (IH y Hy) as (I1 & I2). rewrite I2. assert (Hm := Z.mod_pos_bound y R HR).
        assert (Hq : 0 <= x / R < T). { split; [apply Z.div_pos; lia|]. apply Z.div_lt_upper_bound; lia. }
        assert (H1 : 0 <= (y mod R) * T < B) by (rewrite HB; split; nia).
        assert (H2 : 0 <= x / R + (y mod R) * T < B). { rewrite HB. split; [nia|]. apply Z.lt_le_trans with ((y mod R + 1) * T); nia. }
        rewrite (wrap_small W ((y mod R) * T)) by exact H1. rewrite (wrap_small W) by exact H2. split; [constructor; auto|].
        set (L := y + B * lval W l) in *.
        assert (EL : y mod R = L mod R). { unfold L. rewrite HB. rewrite <- Z.mul_assoc, (Z.mul_comm R), Z_mod_plus_full. reflexivity. }
        rewrite EL. assert (Hd := Z.div_mod L R ltac:(lia)).
        transitivity (x / R + T * L).
        + transitivity (x / R + T * (R * (L / R) + L mod R)); [rewrite HB; ring|]. rewrite <- Hd. reflexivity.
        + replace (x + B * L) with (x + (T * L) * R) by (rewrite HB; ring). rewrite Z.div_add by lia. reflexivity.
    Qed.
  End Residual.

  Lemma lval_blocks n l : lval W (repeat 0 n ++ l) = B ^ Z.of_nat n * lval W l.
  Proof. induction n as [|n IH]; cbn [repeat app lval]; [cbn [Z.of_nat]; rewrite Z.pow_0_r; ring|]. rewrite IH, Nat2Z.inj_succ, Z.pow_succ_r by lia. ring. Qed.
  Lemma blocks_range n l : in_range W l -> in_range W (repeat 0 n ++ l).
  Proof. intros H. assert (Hb := base_pos W HW). apply range_app. split; auto. unfold in_range. rewrite Forall_forall. intros x Hx. apply repeat_spec in Hx. lia. Qed.
  Lemma blocks_cmag n l : cmag W l -> lval W l <> 0 -> cmag W (repeat 0 n ++ l).
  Proof.
    intros H Hz. destruct H as (H1 & H2 & H3). split; [|split].
    - destruct l; [congruence|]. destruct n; discriminate.
    - apply blocks_range. auto.
    - right. assert (E : last (repeat 0 n ++ l) 0 = last l 0).
      { induction n as [|n IH]; [reflexivity|]. cbn [repeat app]. rewrite <- IH. destruct (repeat 0 n ++ l) eqn:E; [|reflexivity].
        apply app_eq_nil in E. destruct E. congruence. }
      rewrite E. destruct H3 as [H3|H3]; auto. destruct l as [|x [|]]; cbn in H3; try lia. cbn in *. lia.
  Qed.
  Lemma pow_blocks k : B ^ Z.of_nat (k / W) * 2 ^ Z.of_nat (k mod W) = 2 ^ Z.of_nat k.
  Proof.
    unfold base. rewrite <- Z.pow_mul_r by lia. rewrite <- Z.pow_add_r by lia. f_equal. rewrite <- Nat2Z.inj_mul, <- Nat2Z.inj_add. f_equal.
    symmetry. apply Nat.div_mod. lia.
  Qed.
  Lemma skipn_lval n l : in_range W l -> in_range W (skipn n l) /\ lval W (skipn n l) = lval W l / B ^ Z.of_nat n.
  Proof.
    intros H. assert (Hb := base_pos W HW). revert n. induction H as [|x l Hx H IH]; intros n.
    - destruct n; cbn [skipn]; (split; [constructor|]); cbn [lval]; rewrite Z.div_0_l; auto; apply Z.pow_nonzero; lia.
    - destruct n as [|n]; cbn [skipn].
      + split; [constructor; auto|]. cbn [Z.of_nat]. rewrite Z.pow_0_r, Z.div_1_r. reflexivity.
      + destruct (IH n) as (I1 & I2). split; auto. rewrite I2. cbn [lval]. rewrite Nat2Z.inj_succ, Z.pow_succ_r by lia.
        rewrite <- Z.div_div by (try apply Z.pow_pos_nonneg; lia). f_equal. rewrite (Z.mul_comm B), Z.div_add by lia. rewrite Z.div_small by lia. reflexivity.
  Qed.

  (** [a <<= k]: right exactly if every limb is safe for the residual distance. *)
  Definition left_safe (k : nat) (a : big) : Prop := (k mod W = 0)%nat \/ Forall (safe_limb (k mod W)) (limbs a).
  Lemma shl_ok a k : canonical W a -> exists b, b_shl W a k = Ok b /\
    (left_safe k a -> canonical W b /\ bval W b = bval W a * 2 ^ Z.of_nat k) /\ (~ left_safe k a -> bval W b <> bval W a * 2 ^ Z.of_nat k).
  Proof.
    intros H. assert (Hb := base_pos W HW). unfold b_shl. rewrite (is_zero_val W HW) by auto. destruct (Z.eqb_spec (bval W a) 0) as [E|E].
    - exists a. split; [reflexivity|]. rewrite E. split; [intros _; split; auto; lia|]. intros Hn. exfalso. apply Hn. clear Hn. unfold left_safe.
      destruct (Nat.eq_dec (k mod W) 0) as [|Hk]; [auto|right].
      assert (E0 : limbs a = [0]). { apply (cmag_zero W HW); [apply H|]. assert (M := canonical_mag W HW a H). unfold mag in M. lia. }
      rewrite E0. constructor; [|constructor]. left. apply Z.pow_pos_nonneg; lia.
    - assert (Hne : lval W (limbs a) <> 0). { assert (M := canonical_mag W HW a H). unfold mag in M. lia. }
      assert (Hval : forall l, lval W l = 2 ^ Z.of_nat k * lval W (limbs a) <-> bval W (mk_big (negative a) l) = bval W a * 2 ^ Z.of_nat k).
      { intros l. unfold bval, mag. cbn [negative limbs]. destruct (negative a); lia. }
      assert (Hpk : 0 < 2 ^ Z.of_nat k) by (apply Z.pow_pos_nonneg; lia).
      assert (Hcan : forall l, cmag W l -> lval W l = 2 ^ Z.of_nat k * lval W (limbs a) -> canonical W (mk_big (negative a) l)).
      { intros l Hl Hv. split; [exact Hl|]. cbn [limbs negative]. intros ->. cbn [lval] in Hv. exfalso. nia. }
      assert (HM := pow_blocks k).
      destruct (Nat.eqb_spec (k mod W) 0) as [E0|E0].
      + assert (Hk : lval W (repeat 0 (k / W) ++ limbs a) = 2 ^ Z.of_nat k * lval W (limbs a)). { rewrite lval_blocks, <- HM, E0. change (2 ^ Z.of_nat 0) with 1. ring. }
        eexists. split; [reflexivity|]. split; [|intros Hn; exfalso; apply Hn; left; exact E0]. intros _. split; [|apply Hval; exact Hk].
        apply Hcan; [|exact Hk]. apply blocks_cmag; [apply H|exact Hne].
      + assert (Hr : (0 < k mod W < W)%nat). { split; [lia|]. apply Nat.mod_upper_bound. lia. }
        assert (Hl := proj1 H). destruct (limbs a) as [|x l] eqn:El; [destruct Hl; congruence|]. rewrite <- El in *.
        destruct (shl_spec (k mod W) Hr None (limbs a)) as (S1 & lost & S2 & S3 & S4 & S5); [apply Hl|discriminate|].
        set (out := shl_limbs W (k mod W) None (limbs a)) in *. rewrite Z.add_0_r in S3.
        assert (HBp : 0 < B ^ Z.of_nat (k / W)) by (apply Z.pow_pos_nonneg; lia).
        assert (HL : lval W (repeat 0 (k / W) ++ out) = 2 ^ Z.of_nat k * lval W (limbs a) - B ^ Z.of_nat (k / W) * lost). { rewrite lval_blocks, S3, <- HM. ring. }
        exists (mk_big (negative a) (repeat 0 (k / W) ++ out)). split; [reflexivity|]. split.
        * intros [Hk|Hs]; [lia|]. apply S4 in Hs. subst lost. rewrite Z.mul_0_r, Z.sub_0_r in HL. split; [|apply Hval; exact HL].
          apply Hcan; [|exact HL]. assert (HR : 0 < 2 ^ Z.of_nat (k mod W)) by (apply Z.pow_pos_nonneg; lia).
          assert (Hnn := cmag_nonneg W HW _ Hl). assert (Hout : lval W out <> 0) by nia.
          apply blocks_cmag; [|exact Hout]. assert (Hon : out <> []) by (intros Eo; rewrite Eo in Hout; cbn in Hout; lia).
          destruct S5 as [S5|(S5 & S6)]; [|split; [exact Hon|split; auto]].
          apply (cmag_of W HW); auto. rewrite S5. destruct (cmag_low W HW _ Hl) as [Hlo|Hlo]; [auto|right]. nia.
        * intros Hn Hv. apply Hval in Hv. apply Hn. right. apply S4. nia.
  Qed.

  (** [a >>= k] divides, rounding towards zero, if a limb is left. *)
  Lemma shr_ok a k : canonical W a -> (k / W < length (limbs a))%nat -> exists b, b_shr W a k = Ok b /\ canonical W b /\ bval W b = Z.quot (bval W a) (2 ^ Z.of_nat k).
  Proof.
    intros H Hk. assert (Hb := base_pos W HW). unfold b_shr. replace (length (limbs a) <? k / W)%nat with false by (symmetry; apply Nat.ltb_ge; lia).
    assert (Hrg := cmag_range W _ (proj1 H)). destruct (skipn_lval (k / W) (limbs a) Hrg) as (I1 & I2).
    assert (Hne : skipn (k / W) (limbs a) <> []). { intros E. apply (f_equal (@length Z)) in E. rewrite skipn_length in E. cbn in E. lia. }
    assert (Hpk : 0 < 2 ^ Z.of_nat k) by (apply Z.pow_pos_nonneg; lia).
    assert (Hnn := cmag_nonneg W HW _ (proj1 H)).
    assert (Hfin : forall l, l <> [] -> in_range W l -> lval W l = lval W (limbs a) / 2 ^ Z.of_nat k ->
      canonical W (b_shrink (mk_big (negative a) l)) /\ bval W (b_shrink (mk_big (negative a) l)) = Z.quot (bval W a) (2 ^ Z.of_nat k)).
    { intros l Hl1 Hl2 Hl3. destruct (shrink_spec W HW (mk_big (negative a) l)) as (S1 & S2); auto. split; [exact S1|]. rewrite S2. unfold bval, mag. cbn [negative limbs]. rewrite Hl3.
      destruct (negative a); [rewrite Z.quot_opp_l by lia|]; rewrite Z.quot_div_nonneg by lia; reflexivity. }
    assert (HM := pow_blocks k). destruct (Nat.eqb_spec (k mod W) 0) as [E0|E0].
    - eexists. split; [reflexivity|]. apply Hfin; auto. rewrite I2, <- HM, E0. change (2 ^ Z.of_nat 0) with 1. rewrite Z.mul_1_r. reflexivity.
    - assert (Hr : (0 < k mod W < W)%nat). { split; [lia|]. apply Nat.mod_upper_bound. lia. }
      destruct (skipn (k / W) (limbs a)) as [|x l] eqn:E; [congruence|]. apply Forall_cons_iff in I1. destruct I1 as (I1 & I3).
      destruct (shr_spec (k mod W) Hr x l I1 I3) as (S1 & S2). eexists. split; [reflexivity|]. apply Hfin; auto.
      + destruct l; discriminate.
      + rewrite S2. cbn [lval] in I2. rewrite I2, <- HM. rewrite Z.div_div by (try apply Z.pow_nonzero; try apply Z.pow_pos_nonneg; lia). reflexivity.
  Qed.
  (** Otherwise the behaviour is undefined, or no limb is left. *)
  Lemma shr_bad a k : (length (limbs a) <= k / W)%nat -> b_shr W a k = UB \/ (exists b, b_shr W a k = Ok b /\ limbs b = []).
  Proof.
    intros Hk. unfold b_shr. destruct (Nat.ltb_spec (length (limbs a)) (k / W)) as [|Hge]; [left; reflexivity|].
    assert (E : skipn (k / W) (limbs a) = []) by (apply skipn_all2; lia). rewrite E.
    destruct (k mod W =? 0)%nat; [right|left; reflexivity]. eexists. split; [reflexivity|]. reflexivity.
  Qed.
End Proofs.
