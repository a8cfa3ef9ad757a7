(** * BigIntDiv: quotient and remainder of two BigIntegers. *)
From Coq Require Import List ZArith Arith Lia Bool.
From Verif Require Import Base ArithModel SafeIntModel BigIntModel BigIntLimbs BigIntProofs BigIntMul.
Import ListNotations.
Open Scope Z_scope.

  Lemma quot_abs a b : b <> 0 -> Z.quot a b = if Bool.eqb (a <? 0) (b <? 0) then Z.abs a / Z.abs b else - (Z.abs a / Z.abs b).
  Proof.
    intros Hb. destruct (Z.ltb_spec a 0), (Z.ltb_spec b 0); cbn [Bool.eqb].
    - rewrite <- (Z.opp_involutive a), <- (Z.opp_involutive b) at 1. rewrite Z.quot_opp_opp by lia. rewrite Z.quot_div_nonneg by lia. f_equal; lia.
    - rewrite <- (Z.opp_involutive a) at 1. rewrite Z.quot_opp_l by lia. rewrite Z.quot_div_nonneg by lia. f_equal. f_equal; lia.
    - rewrite <- (Z.opp_involutive b) at 1. rewrite Z.quot_opp_r by lia. rewrite Z.quot_div_nonneg by lia. f_equal. f_equal; lia.
    - rewrite Z.quot_div_nonneg by lia. f_equal; lia.
  Qed.

Section Big.
  Variable W : nat.
  Variable strict : bool.
  Hypothesis HW : (32 <= W)%nat.
  Notation B := (base W).
  Notation lv := (lval W).
  Notation canonical := (canonical W).
  Notation bval := (bval W).
  Notation mag := (mag W).
  Notation gives := (gives W strict).

  (** ** One step of the long division *)
  Definition evenfront (a : big) : Prop := exists x l, limbs a = x :: l /\ Z.even x = true.
  Lemma shift1_even a : canonical a -> negative a = false ->
    exists r, b_shift1 W a = Ok r /\ canonical r /\ bval r = 2 * bval a /\ negative r = false /\ evenfront r.
  Proof.
    intros Ha Hn. destruct (shift1_spec W HW a Ha) as (r & E & H1 & H2 & H3). exists r. split; auto. split; auto. split; auto. split; [congruence|].
    unfold b_shift1 in E. rewrite (is_zero_val W HW) in E by auto. destruct (Z.eqb_spec (bval a) 0) as [E0|E0].
    - injection E as <-. exists 0, []. split; auto. apply (cmag_zero W HW); [apply Ha|]. fold (mag a). rewrite (canonical_mag W HW a Ha). lia.
    - destruct (limbs a) as [|x l] eqn:El; [discriminate|]. rewrite <- El in E. assert (Er : r = mk_big (negative a) (shift_limbs W false (limbs a))) by congruence. subst r. unfold evenfront. cbn [limbs].
      destruct (shift_limbs_ok W HW (limbs a) (proj1 Ha)) as (_ & _ & (y & m & Ey & He)). exists y, m. auto.
  Qed.
  Lemma or_front_spec a bit : canonical a -> negative a = false -> evenfront a ->
    exists r, b_or_front a bit = Ok r /\ canonical r /\ bval r = bval a + cz bit /\ negative r = false.
  Proof.
    intros Ha Hn (x & l & El & He). unfold b_or_front. rewrite El. eexists. split; [reflexivity|].
    assert (Hr := cmag_range W _ (proj1 Ha)). rewrite El in Hr. inversion Hr as [|? ? Hx Hl]; subst.
    rewrite (lor_even W HW) by (auto; lia). assert (Hx1 := even_bound W HW x Hx He).
    assert (Hxr : 0 <= x + cz bit < B) by (destruct bit; cbn [cz]; lia).
    split; [|split; auto; unfold BigIntProofs.bval, BigIntProofs.mag; cbn [negative limbs]; rewrite Hn, El; cbn [lval]; lia].
    split; cbn [limbs negative]; auto. split; [discriminate|]. split; [constructor; auto|].
    destruct Ha as ((_ & _ & Hlast) & _). rewrite El in Hlast. destruct Hlast as [H|H]; [left; auto|]. destruct l as [|y l]; [left; reflexivity|right; exact H].
  Qed.

  Section Loop.
    Variables (data : list Z) (second : big).
    Hypothesis Hd : in_range W data.
    Hypothesis Hs : cmag W (limbs second).
    Let N := lv data.
    Let D := mag second.
    Hypothesis HD : 0 < D.
    Definition dinv (k : nat) (s : big * big) : Prop :=
      canonical (fst s) /\ canonical (snd s) /\ bval (fst s) = (N / 2 ^ Z.of_nat k) / D /\ bval (snd s) = (N / 2 ^ Z.of_nat k) mod D /\
      negative (fst s) = false /\ negative (snd s) = false.

    Lemma div_step_spec k s : (k < W * length data)%nat -> dinv (S k) s -> exists s', div_step W data second s k = Ok s' /\ dinv k s'.
    Proof.
      intros Hk (H1 & H2 & H3 & H4 & H5 & H6). destruct s as [q r]. cbn [fst snd] in *. unfold div_step.
      assert (HW0 : W <> 0%nat) by lia.
      assert (Hlen : (k / W < length data)%nat) by (apply Nat.div_lt_upper_bound; auto).
      assert (Eget : get data (k / W) = Ok (nth (k / W) data 0)) by (unfold get; rewrite (nth_error_nth' data 0 Hlen); reflexivity).
      rewrite Eget. cbn [bind]. rewrite (testbit_limb W HW) by auto. fold N.
      destruct (shift1_even r H2 H6) as (r1 & Er & R1 & R2 & R3 & R4). destruct (shift1_even q H1 H5) as (q1 & Eq & Q1 & Q2 & Q3 & Q4). rewrite Er, Eq. cbn [bind].
      destruct (or_front_spec r1 (Z.testbit N (Z.of_nat k)) R1 R3 R4) as (r2 & Er2 & S1 & S2 & S3). rewrite Er2. cbn [bind].
      rewrite (mag_smaller_spec W HW) by (auto; apply S1). fold (mag r2) (mag second). fold D. rewrite (canonical_mag W HW r2 S1).
      (* The numbers *)
      assert (Hbits : N / 2 ^ Z.of_nat k = 2 * (N / 2 ^ Z.of_nat (S k)) + cz (Z.testbit N (Z.of_nat k))).
      { assert (E1 := Z.div_mod (N / 2 ^ Z.of_nat k) 2 ltac:(lia)). assert (E2 := Z.testbit_spec' N (Z.of_nat k) ltac:(lia)). rewrite <- E2 in E1.
        rewrite Z.div_div in E1 by (try lia; apply Z.pow_nonzero; lia). rewrite Nat2Z.inj_succ, Z.pow_succ_r by lia. rewrite (Z.mul_comm 2 (2 ^ Z.of_nat k)). exact E1. }
      set (M := N / 2 ^ Z.of_nat (S k)) in *. set (bit := cz (Z.testbit N (Z.of_nat k))) in *.
      assert (Hbit : 0 <= bit <= 1) by (unfold bit; destruct (Z.testbit N (Z.of_nat k)); cbn [cz]; lia).
      assert (HM := Z.div_mod M D ltac:(lia)). assert (HMr := Z.mod_pos_bound M D HD).
      assert (Hr2 : bval r2 = 2 * (M mod D) + bit) by lia. assert (Hq1 : bval q1 = 2 * (M / D)) by lia.
      assert (Habs : Z.abs (bval r2) = 2 * (M mod D) + bit) by lia. rewrite Habs.
      destruct (Z.ltb_spec (2 * (M mod D) + bit) D) as [Hlt|Hge]; cbn [negb].
      - eexists. split; [reflexivity|]. unfold dinv. cbn [fst snd]. rewrite Hbits.
        assert (E : (2 * M + bit) / D = 2 * (M / D) /\ (2 * M + bit) mod D = 2 * (M mod D) + bit).
        { split; [symmetry; apply (Z.div_unique _ _ _ (2 * (M mod D) + bit)); lia|symmetry; apply (Z.mod_unique _ _ (2 * (M / D))); lia]. }
        destruct E as (E1 & E2). rewrite E1, E2. auto 10.
      - destruct (sub_mag_spec W HW r2 (limbs second)) as (r3 & Er3 & T1 & T2); [right; apply S1|auto|fold D; fold (mag second); fold D; rewrite (canonical_mag W HW r2 S1); lia|].
        rewrite Er3. cbn [bind]. rewrite S3 in T2. fold (mag second) in T2. fold D in T2. rewrite (canonical_mag W HW r2 S1), Habs in T2.
        destruct (or_front_spec q1 true Q1 Q3 Q4) as (q2 & Eq2 & U1 & U2 & U3). rewrite Eq2. cbn [bind cz] in *.
        eexists. split; [reflexivity|]. unfold dinv. cbn [fst snd]. rewrite Hbits.
        assert (E : (2 * M + bit) / D = 2 * (M / D) + 1 /\ (2 * M + bit) mod D = 2 * (M mod D) + bit - D).
        { split; [symmetry; apply (Z.div_unique _ _ _ (2 * (M mod D) + bit - D)); lia|symmetry; apply (Z.mod_unique _ _ (2 * (M / D) + 1)); lia]. }
        destruct E as (E1 & E2). rewrite E1, E2. repeat (split; [auto; lia|]). rewrite (canonical_neg W HW r3 T1), T2. apply Z.ltb_ge. lia.
    Qed.
    Lemma div_loop k s : (k <= W * length data)%nat -> dinv k s -> exists s', foldM (div_step W data second) s (rev (seq 0 k)) = Ok s' /\ dinv 0 s'.
    Proof.
      revert s. induction k as [|k IH]; intros s Hk Hi.
      - exists s. auto.
      - rewrite seq_S, rev_app_distr. cbn [rev app]. rewrite Nat.add_0_l. cbn [foldM]. destruct (div_step_spec k s ltac:(lia) Hi) as (s' & E & Hi'). rewrite E. cbn [bind].
        apply IH; auto. lia.
    Qed.
  End Loop.

  Lemma pow_B n : B ^ Z.of_nat n = 2 ^ Z.of_nat (W * n).
  Proof. unfold base. rewrite <- Z.pow_mul_r by lia. f_equal. lia. Qed.

  (** ** Division of magnitudes *)
  Definition divides_to (a b : big) (m : res (big * big)) : Prop :=
    let x := Z.abs (bval a) in let y := Z.abs (bval b) in
    match m with
    | Throw => False
    | UB => strict = true /\ bval a < 0 /\ (x mod y = 2 ^ 31 \/ bval b = int_min 32)
    | Ok (q, r) => canonical q /\ canonical r /\
        (if x <? y then bval q = 0 /\ bval r = bval a
         else if bval a =? bval b then bval q = 1 /\ bval r = 0
         else if bval a <? 0 then bval q = - (x / y) /\ bval r = - (x mod y) + bval b
         else bval q = x / y /\ bval r = x mod y)
    end.
  Lemma div_mag_spec a b : canonical a -> canonical b -> bval b <> 0 -> divides_to a b (b_div_mag W strict a b).
  Proof.
    intros Ha Hb Hnz. unfold b_div_mag. rewrite (mag_smaller_spec W HW) by (try apply Ha; try apply Hb). fold (mag a) (mag b).
    assert (Ma := canonical_mag W HW a Ha). assert (Mb := canonical_mag W HW b Hb). rewrite (eq_spec W HW) by auto.
    destruct (of_int_spec W HW 0 eq_refl) as (Z1 & Z2). destruct (of_int_spec W HW 1 eq_refl) as (O1 & O2).
    destruct (Z.ltb_spec (mag a) (mag b)) as [Hlt|Hge].
    { unfold divides_to. replace (Z.abs (bval a) <? Z.abs (bval b)) with true by (symmetry; apply Z.ltb_lt; lia). auto. }
    destruct (Z.eqb_spec (bval a) (bval b)) as [He|He].
    { unfold divides_to. replace (Z.abs (bval a) <? Z.abs (bval b)) with false by (symmetry; apply Z.ltb_ge; lia).
      replace (bval a =? bval b) with true by (symmetry; apply Z.eqb_eq; auto). auto. }
    assert (Na := canonical_neg W HW a Ha).
    assert (Ed : limbs (if negative a then b_flip a else a) = limbs a) by (destruct (negative a); auto; unfold b_flip; destruct (b_is_zero a); reflexivity).
    rewrite Ed. assert (Hr := cmag_range W _ (proj1 Ha)).
    assert (Hi : dinv (limbs a) b (W * length (limbs a)) (b_of_signed W 0, b_of_signed W 0)).
    { unfold dinv. cbn [fst snd]. rewrite <- pow_B. rewrite (Z.div_small (lv (limbs a))).
      - rewrite Z2. unfold b_of_signed. cbn. auto 10.
      - split; [apply (lval_nonneg W HW); auto|apply (lval_bound W HW); auto]. }
    destruct (div_loop (limbs a) b Hr (proj1 Hb) ltac:(lia) _ _ (le_n _) Hi) as ((q & r) & E & Hf). rewrite E. cbn [bind].
    destruct Hf as (F1 & F2 & F3 & F4 & F5 & F6). cbn [fst snd] in *. change (2 ^ Z.of_nat 0) with 1 in *. rewrite Z.div_1_r in *. fold (mag a) in *. rewrite Ma, Mb in *.
    destruct (flip_spec W HW q F1) as (G1 & G2). destruct (flip_spec W HW r F2) as (G3 & G4).
    rewrite Na. destruct (Z.ltb_spec (bval a) 0) as [Hn|Hn].
    - assert (S := b_add_spec W strict HW (b_flip r) b G3 Hb). unfold BigIntProofs.gives in S. destruct (b_add W strict (b_flip r) b) as [r'| |]; cbn [bind]; auto.
      + unfold divides_to. replace (Z.abs (bval a) <? Z.abs (bval b)) with false by (symmetry; apply Z.ltb_ge; lia).
        replace (bval a =? bval b) with false by (symmetry; apply Z.eqb_neq; auto). replace (bval a <? 0) with true by (symmetry; apply Z.ltb_lt; auto).
        split; auto. split; [apply S|]. rewrite G2, F3, (proj2 S), G4, F4. auto.
      + destruct S as (S1 & S2). split; auto. split; auto. destruct S2 as [S2|S2]; auto. left. rewrite G4, F4, min32 in S2. change (2 ^ 31) with 2147483648. lia.
    - unfold divides_to. replace (Z.abs (bval a) <? Z.abs (bval b)) with false by (symmetry; apply Z.ltb_ge; lia).
      replace (bval a =? bval b) with false by (symmetry; apply Z.eqb_neq; auto). replace (bval a <? 0) with false by (symmetry; apply Z.ltb_ge; auto). auto.
  Qed.

  (** ** operator/ *)
  (** The quotients that have the wrong sign. *)
  Definition bad_quotient (a b : Z) : bool :=
    (a <? 0) && negb (fits 32 a && fits 32 b) && (Z.abs b <=? Z.abs a) && negb (a =? b) && negb (b =? 1) && negb (b =? -1).
  Definition quotient_of (a b : Z) : Z := if bad_quotient a b then - Z.quot a b else Z.quot a b.
  Definition div_undefined (a b : Z) : Prop := a = int_min 32 \/ b = int_min 32 \/ (a < 0 /\ Z.abs a mod Z.abs b = 2 ^ 31).

  Lemma b_div_zero a b : canonical b -> bval b = 0 -> b_div W strict a b = Throw.
  Proof. intros Hb E. unfold b_div. rewrite (is_zero_val W HW) by auto. rewrite E. reflexivity. Qed.

  Lemma b_div_spec a b : canonical a -> canonical b -> bval b <> 0 ->
    gives (div_undefined (bval a) (bval b)) (b_div W strict a b) (quotient_of (bval a) (bval b)).
  Proof.
    intros Ha Hb Hnz. unfold b_div. rewrite !(is_zero_val W HW) by auto. replace (bval b =? 0) with false by (symmetry; apply Z.eqb_neq; auto).
    rewrite (eqi_spec W strict HW b 1), (eqi_spec W strict HW b (-1)) by (auto; try reflexivity; rewrite min32; lia).
    assert (Nb := canonical_neg W HW b Hb). assert (Na := canonical_neg W HW a Ha). destruct (flip_spec W HW a Ha) as (Fl1 & Fl2).
    unfold quotient_of, bad_quotient.
    destruct (Z.eqb_spec (bval a) 0) as [Ea|Ea]; cbn [bind].
    { rewrite Ea. change (0 <? 0) with false. cbn [andb]. rewrite Z.quot_0_l by auto. rewrite Nb. destruct (bval b <? 0); apply gives_ok; auto; lia. }
    destruct (Z.eqb_spec (bval b) 1) as [E1|E1]; cbn [bind].
    { cbn [negb]. rewrite andb_false_r. cbn [andb]. rewrite E1, Z.quot_1_r, Nb, E1. change (1 <? 0) with false. cbn iota. apply gives_ok; auto. }
    destruct (Z.eqb_spec (bval b) (-1)) as [E2|E2]; cbn [bind].
    { cbn [negb]. rewrite andb_false_r. rewrite E2. change (-1) with (- (1)) at 2. rewrite Z.quot_opp_r, Z.quot_1_r by lia. rewrite Nb, E2. change (-1 <? 0) with true. cbn iota. apply gives_ok; auto. }
    cbn [negb]. rewrite !andb_true_r.
    assert (HP : fits 32 (bval a) && fits 32 (bval b) = false ->
      gives (div_undefined (bval a) (bval b)) (do r <- b_div_mag W strict a b; Ok (if negb (Bool.eqb (negative b) (negative a)) then b_flip (fst r) else fst r))
        (if (bval a <? 0) && negb (fits 32 (bval a) && fits 32 (bval b)) && (Z.abs (bval b) <=? Z.abs (bval a)) && negb (bval a =? bval b) then - Z.quot (bval a) (bval b) else Z.quot (bval a) (bval b))).
    { intros Hf. rewrite Hf. cbn [negb]. rewrite andb_true_r. assert (S := div_mag_spec a b Ha Hb Hnz). unfold divides_to in S.
      destruct (b_div_mag W strict a b) as [(q & r)| |]; cbn [bind fst]; [|contradiction|].
      2:{ destruct S as (S0 & S1 & [S2|S2]); split; auto; [right; right; auto|right; left; auto]. }
      destruct S as (S1 & S2 & S3). destruct (flip_spec W HW q S1) as (F1 & F2). rewrite (quot_abs _ _ Hnz). rewrite Na, Nb.
      destruct (Z.ltb_spec (Z.abs (bval a)) (Z.abs (bval b))) as [Hlt|Hge].
      - replace (Z.abs (bval b) <=? Z.abs (bval a)) with false by (symmetry; apply Z.leb_gt; auto). rewrite andb_false_r. cbn [andb].
        rewrite Z.div_small by lia. destruct S3 as (S3 & _). destruct (Bool.eqb (bval b <? 0) (bval a <? 0)), (Bool.eqb (bval a <? 0) (bval b <? 0)); cbn [negb]; apply gives_ok; auto; lia.
      - replace (Z.abs (bval b) <=? Z.abs (bval a)) with true by (symmetry; apply Z.leb_le; auto). rewrite andb_true_r.
        destruct (Z.eqb_spec (bval a) (bval b)) as [Ee|Ee]; cbn [negb].
        + rewrite andb_false_r. rewrite Ee, !Bool.eqb_reflx. cbn [negb]. apply gives_ok; auto. rewrite Z.div_same by lia. apply S3.
        + rewrite andb_true_r. destruct (Z.ltb_spec (bval a) 0), (Z.ltb_spec (bval b) 0); cbn [Bool.eqb negb]; apply gives_ok; auto; lia. }
    unfold fallback_div. rewrite !(to_int_spec W strict HW) by auto.
    destruct (int_of_cases strict (bval a)) as [(Eia & Fa)|[(Eia & Sa & Fa)|(Eia & Fa)]]; rewrite Eia; cbn [bind catching].
    { apply HP. rewrite Fa. reflexivity. } { split; [auto|left; auto]. }
    destruct (int_of_cases strict (bval b)) as [(Eib & Fb)|[(Eib & Sb & Fb)|(Eib & Fb)]]; rewrite Eib; cbn [bind catching].
    { apply HP. rewrite Fb. apply andb_false_r. } { split; [auto|right; left; auto]. }
    rewrite Fa, Fb. cbn [negb andb]. rewrite andb_false_r. cbn [andb]. apply fits32 in Fa. apply fits32 in Fb.
    replace (bval b =? -1) with false by (symmetry; apply Z.eqb_neq; auto). cbn [bind]. unfold i_div. replace (bval b =? 0) with false by (symmetry; apply Z.eqb_neq; auto).
    assert (Hq : -2147483648 <= Z.quot (bval a) (bval b) <= 2147483647).
    { assert (Q := Z.quot_abs (bval a) (bval b) Hnz). rewrite Z.quot_div_nonneg in Q by lia.
      assert (Z.abs (bval a) / Z.abs (bval b) <= Z.abs (bval a) / 2) by (apply Z.div_le_compat_l; lia).
      assert (Z.abs (bval a) / 2 <= 2147483648 / 2) by (apply Z.div_le_mono; lia). change (2147483648 / 2) with 1073741824 in *. lia. }
    rewrite ck32 by auto. cbn [bind catching]. destruct (of_int_spec W HW (Z.quot (bval a) (bval b))) as (G1 & G2); [apply fits32; auto|]. apply gives_ok; auto.
  Qed.

  (** ** operator% *)
  Definition remainder_of (a b : Z) : Z :=
    if 0 <=? a then a mod b else if negb (fits 32 a && fits 32 b) && (Z.abs a <? b) then a else b - Z.abs a mod b.
  Definition mod_undefined (a b : Z) : Prop := a = int_min 32 \/ (a < 0 /\ Z.abs a mod b = 2 ^ 31).

  Lemma is_positive_spec b : canonical b -> b_is_positive b = (0 <? bval b).
  Proof.
    intros Hb. unfold b_is_positive. rewrite (is_zero_val W HW) by auto. rewrite (canonical_neg W HW b Hb).
    destruct (Z.ltb_spec (bval b) 0), (Z.eqb_spec (bval b) 0), (Z.ltb_spec 0 (bval b)); cbn [negb andb]; auto; lia.
  Qed.
  Lemma b_mod_nonpositive a b : canonical b -> bval b <= 0 -> b_mod W strict a b = Throw.
  Proof. intros Hb E. unfold b_mod. rewrite (is_positive_spec b Hb). destruct (Z.ltb_spec 0 (bval b)); [lia|reflexivity]. Qed.

  Lemma b_mod_spec a b : canonical a -> canonical b -> 0 < bval b ->
    gives (mod_undefined (bval a) (bval b)) (b_mod W strict a b) (remainder_of (bval a) (bval b)).
  Proof.
    intros Ha Hb Hp. unfold b_mod. rewrite (is_positive_spec b Hb). replace (0 <? bval b) with true by (symmetry; apply Z.ltb_lt; auto). cbn [negb].
    assert (HP : fits 32 (bval a) && fits 32 (bval b) = false ->
      gives (mod_undefined (bval a) (bval b)) (do r <- b_div_mag W strict a b; Ok (snd r)) (remainder_of (bval a) (bval b))).
    { intros Hf. unfold remainder_of. rewrite Hf. cbn [negb andb]. assert (S := div_mag_spec a b Ha Hb ltac:(lia)). unfold divides_to in S. rewrite (Z.abs_eq (bval b)) in S by lia.
      destruct (b_div_mag W strict a b) as [(q & r)| |]; cbn [bind snd]; [|contradiction|].
      2:{ destruct S as (S0 & S1 & [S2|S2]); [split; auto; right; auto|]. rewrite S2, min32 in Hp. lia. }
      destruct S as (S1 & S2 & S3). destruct (Z.leb_spec 0 (bval a)) as [Hn|Hn].
      - replace (Z.abs (bval a)) with (bval a) in S3 by lia. apply gives_ok; auto. destruct (Z.ltb_spec (bval a) (bval b)).
        + rewrite Z.mod_small by lia. apply S3.
        + destruct (Z.eqb_spec (bval a) (bval b)) as [Ee|Ee]; [rewrite Ee, Z.mod_same by lia; apply S3|]. destruct (Z.ltb_spec (bval a) 0); [lia|apply S3].
      - apply gives_ok; auto. destruct (Z.ltb_spec (Z.abs (bval a)) (bval b)); [apply S3|]. destruct (Z.eqb_spec (bval a) (bval b)); [lia|].
        destruct (Z.ltb_spec (bval a) 0); [|lia]. lia. }
    unfold fallback_mod. rewrite !(to_int_spec W strict HW) by auto.
    destruct (int_of_cases strict (bval a)) as [(Eia & Fa)|[(Eia & Sa & Fa)|(Eia & Fa)]]; rewrite Eia; cbn [bind catching].
    { apply HP. rewrite Fa. reflexivity. } { split; [auto|left; auto]. }
    destruct (int_of_cases strict (bval b)) as [(Eib & Fb)|[(Eib & Sb & Fb)|(Eib & Fb)]]; rewrite Eib; cbn [bind catching].
    { apply HP. rewrite Fb. apply andb_false_r. } { rewrite Fb, min32 in Hp. lia. }
    unfold remainder_of. rewrite Fa, Fb. cbn [negb andb]. apply fits32 in Fa. apply fits32 in Fb.
    unfold i_mod. replace (bval b =? 0) with false by (symmetry; apply Z.eqb_neq; lia).
    assert (Hq : fits 32 (Z.quot (bval a) (bval b)) = true).
    { apply fits32. rewrite quot_abs by lia. rewrite (Z.abs_eq (bval b)) by lia.
      assert (Z.abs (bval a) / bval b <= Z.abs (bval a)) by (apply Z.div_le_upper_bound; nia). assert (0 <= Z.abs (bval a) / bval b) by (apply Z.div_pos; lia).
      destruct (Z.ltb_spec (bval a) 0), (Z.ltb_spec (bval b) 0); cbn [Bool.eqb]; lia. }
    rewrite Hq. cbn [bind]. unfold i_add.
    assert (Hv : (if bval a <? 0 then bval b else 0) + Z.rem (bval a) (bval b) = if 0 <=? bval a then bval a mod bval b else bval b - Z.abs (bval a) mod bval b).
    { destruct (Z.ltb_spec (bval a) 0), (Z.leb_spec 0 (bval a)); try lia.
      - rewrite <- (Z.opp_involutive (bval a)) at 1. rewrite Z.rem_opp_l by lia. rewrite Z.rem_mod_nonneg by lia. replace (Z.abs (bval a)) with (- bval a) by lia. lia.
      - rewrite Z.rem_mod_nonneg by lia. lia. }
    rewrite Hv. assert (Hin : -2147483648 <= (if 0 <=? bval a then bval a mod bval b else bval b - Z.abs (bval a) mod bval b) <= 2147483647).
    { assert (M1 := Z.mod_pos_bound (bval a) (bval b) Hp). assert (M2 := Z.mod_pos_bound (Z.abs (bval a)) (bval b) Hp). destruct (0 <=? bval a); lia. }
    rewrite ck32 by auto. cbn [bind catching]. edestruct (of_int_spec W HW) as (G1 & G2); [apply fits32; exact Hin|]. apply gives_ok; auto.
  Qed.
End Big.
