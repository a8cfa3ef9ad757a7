(** * BigIntMul: the product of two BigIntegers. *)
From Coq Require Import List ZArith Arith Lia Bool.
From Verif Require Import Base ArithModel SafeIntModel BigIntModel BigIntLimbs BigIntProofs.
Import ListNotations.
Open Scope Z_scope.

Lemma div_lt_iff m y x : 0 < y -> m / y < x <-> m < x * y.
Proof.
  intros Hy. split; intros H.
  - assert (E := Z.div_mod m y). assert (R := Z.mod_pos_bound m y Hy). nia.
  - apply Z.div_lt_upper_bound; lia.
Qed.

Section Big.
  Variable W : nat.
  Variable strict : bool.
  Hypothesis HW : (32 <= W)%nat.
  Notation B := (base W).
  Notation lv := (lval W).
  Notation canonical := (canonical W).
  Notation bval := (bval W).
  Notation mag := (mag W).
  Notation gives := (gives W strict).

  Lemma shift1_spec a : canonical a -> exists r, b_shift1 W a = Ok r /\ canonical r /\ bval r = 2 * bval a /\ negative r = negative a.
  Proof.
    intros Ha. unfold b_shift1. rewrite (is_zero_val W HW) by auto. destruct (Z.eqb_spec (bval a) 0) as [E|E].
    - exists a. rewrite E. auto.
    - destruct (limbs a) as [|x l] eqn:El; [destruct Ha as ((Ha & _) & _); congruence|]. rewrite <- El.
      destruct (shift_limbs_ok W HW (limbs a) (proj1 Ha)) as (H1 & H2 & _). eexists. split; [reflexivity|].
      assert (Hm : mag (mk_big (negative a) (shift_limbs W false (limbs a))) = 2 * mag a) by exact H2.
      split; [|split; auto; unfold BigIntProofs.bval; cbn [negative]; rewrite Hm; destruct (negative a); lia].
      split; auto. cbn [limbs negative]. intros E0. exfalso. apply E. unfold BigIntProofs.mag in Hm. cbn [limbs] in Hm. rewrite E0 in Hm. cbn [lval] in Hm.
      unfold BigIntProofs.bval, BigIntProofs.mag. destruct (negative a); lia.
  Qed.

  (** ** The loop *)
  Section Loop.
    Variable a : big.
    Hypothesis Ha : canonical a.
    Hypothesis Hnz : bval a <> 0.
    (** Undefined: an intermediate result equal to -2^31 can only appear for a negative divisor of 2^31. *)
    Definition dangerous : Prop := bval a < 0 /\ (bval a | 2 ^ 31).

    Definition inv (t c : Z) (s : big * big) : Prop :=
      cmag W (limbs (fst s)) /\ negative (fst s) = negative a /\ mag (fst s) = t * Z.abs (bval a) /\ canonical (snd s) /\ bval (snd s) = c * bval a /\
      0 <= t /\ 0 < c.
    Definition reaches (t c : Z) (m : res (big * big)) : Prop :=
      match m with Ok s => inv t c s | Throw => False | UB => strict = true /\ dangerous end.

    Lemma mul_sign t : 0 < t -> (t * bval a <? 0) = negative a.
    Proof.
      intros Ht. rewrite (canonical_neg W HW a Ha). destruct (Z.ltb_spec (bval a) 0); [apply Z.ltb_lt|apply Z.ltb_ge]; nia.
    Qed.
    Lemma dangerous_of t : 0 < t -> t * bval a = int_min 32 -> dangerous.
    Proof.
      intros Ht E. rewrite min32 in E. split; [nia|]. exists (- t). change (2 ^ 31) with 2147483648. lia.
    Qed.

    Lemma add_step t c s : inv t c s -> match b_add W strict (fst s) (snd s) with Ok r => inv (t + c) c (r, snd s) | Throw => False | UB => strict = true /\ dangerous end.
    Proof.
      intros (H1 & H2 & H3 & H4 & H5 & H6 & H7). destruct s as [this copy]. cbn [fst snd] in *.
      assert (Hcn : negative copy = negative a) by (rewrite (canonical_neg W HW copy H4), H5; apply mul_sign; auto).
      assert (Hcm : mag copy = c * Z.abs (bval a)) by (rewrite (canonical_mag W HW copy H4), H5, Z.abs_mul; f_equal; lia).
      destruct (Z.eq_dec t 0) as [->|Ht].
      - assert (Hl : limbs this = [0]) by (apply (cmag_zero W HW); auto; fold (mag this); lia).
        destruct (negative a) eqn:En.
        + assert (Et : this = mk_big true [0]) by (destruct this as [n0 l0]; cbn [negative limbs] in *; congruence).
          assert (E : b_add W strict this copy = Ok (b_add_mag W this (limbs copy))).
          { unfold b_add. rewrite (is_zero_val W HW) by auto. rewrite H5. destruct (Z.eqb_spec (c * bval a) 0) as [E0|E0]; [nia|].
            unfold fallback_add. rewrite Et at 1. rewrite (to_int_neg_zero W strict HW). cbn [bind catching]. rewrite H2, Hcn. reflexivity. }
          rewrite E. destruct (add_mag_spec W HW this copy H1 (proj1 H4)) as (I1 & I2 & I3). unfold inv. cbn [fst snd]. rewrite I2, I3, H3, Hcm, En. repeat split; auto; try apply I1; try apply H4; try lia.
        + assert (Hc : canonical this) by (split; auto).
          assert (Hv : bval this = 0) by (unfold BigIntProofs.bval; rewrite H2, H3; lia).
          assert (S := b_add_spec W strict HW this copy Hc H4). unfold BigIntProofs.gives in S. destruct (b_add W strict this copy) as [r| |]; auto.
          * destruct S as (S1 & S2). rewrite Hv, H5 in S2. unfold inv. cbn [fst snd]. split; [apply S1|]. rewrite (canonical_neg W HW r S1), (canonical_mag W HW r S1), S2. 
            rewrite Z.add_0_l. split; [rewrite mul_sign; auto|]. split; [rewrite Z.abs_mul; f_equal; lia|]. split; auto. split; auto. lia.
          * destruct S as (S1 & [S2|S2]); [rewrite Hv in S2; discriminate|]. split; auto. rewrite H5 in S2. eapply dangerous_of; eauto.
      - assert (Hc : canonical this).
        { split; auto. intros E. exfalso. apply (cmag_zero W HW) in E; auto. fold (mag this) in E. nia. }
        assert (Hv : bval this = t * bval a).
        { assert (Na := canonical_neg W HW a Ha). unfold BigIntProofs.bval at 1. rewrite H2, H3, Na. destruct (Z.ltb_spec (bval a) 0); nia. }
        assert (S := b_add_spec W strict HW this copy Hc H4). unfold BigIntProofs.gives in S. destruct (b_add W strict this copy) as [r| |]; auto.
        + destruct S as (S1 & S2). rewrite Hv, H5 in S2. unfold inv. cbn [fst snd]. split; [apply S1|]. rewrite (canonical_neg W HW r S1), (canonical_mag W HW r S1), S2.
          replace (t * bval a + c * bval a) with ((t + c) * bval a) by ring.
          split; [apply mul_sign; lia|]. split; [rewrite Z.abs_mul; f_equal; lia|]. split; auto. split; auto. lia.
        + destruct S as (S1 & [S2|S2]); split; auto; [apply (dangerous_of t)|apply (dangerous_of c)]; try lia.
    Qed.

    Lemma mul_bits entry n j t c s : 0 <= entry -> inv t c s ->
      reaches (t + c * ((entry / 2 ^ Z.of_nat j) mod 2 ^ Z.of_nat n)) (c * 2 ^ Z.of_nat n)
        (foldM (fun (s : big * big) j =>
          let '(this, copy) := s in
          do this' <- (if Z.testbit entry (Z.of_nat j) then b_add W strict this copy else Ok this);
          do copy' <- b_shift1 W copy;
          Ok (this', copy')) s (seq j n)).
    Proof.
      intros He. revert j t c s. induction n as [|n IH]; intros j t c s Hs.
      - cbn [seq foldM reaches]. change (2 ^ Z.of_nat 0) with 1. rewrite Z.mod_1_r. replace (t + c * 0) with t by lia. rewrite Z.mul_1_r. auto.
      - cbn [seq foldM].
        assert (Hbits : (entry / 2 ^ Z.of_nat j) mod 2 ^ Z.of_nat (S n) = cz (Z.testbit entry (Z.of_nat j)) + 2 * ((entry / 2 ^ Z.of_nat (S j)) mod 2 ^ Z.of_nat n)).
        { rewrite !Nat2Z.inj_succ, !Z.pow_succ_r by lia. rewrite Z.rem_mul_r by (try lia; apply Z.pow_pos_nonneg; lia).
          rewrite Z.div_div by (try lia; apply Z.pow_nonzero; lia). rewrite (Z.mul_comm (2 ^ Z.of_nat j) 2). f_equal.
          rewrite Z.testbit_spec' with (n := Z.of_nat j) (a := entry) || idtac.
          rewrite <- Z.testbit_spec' by lia. unfold cz, Z.b2z. reflexivity. }
        rewrite Hbits. destruct s as [this copy].
        assert (Step : match (do this' <- (if Z.testbit entry (Z.of_nat j) then b_add W strict this copy else Ok this); do copy' <- b_shift1 W copy; Ok (this', copy')) with
          | Ok s' => inv (t + c * cz (Z.testbit entry (Z.of_nat j))) (c * 2) s' | Throw => False | UB => strict = true /\ dangerous end).
        { assert (Hcopy : canonical copy) by apply Hs. destruct (shift1_spec copy Hcopy) as (copy' & Ec & Hc1 & Hc2 & Hc3). rewrite Ec. cbn [bind].
          assert (Fin : forall this' t', inv t' c (this', copy) -> inv t' (c * 2) (this', copy')).
          { intros this' t' (I1 & I2 & I3 & I4 & I5 & I6 & I7). cbn [fst snd] in *. unfold inv. cbn [fst snd]. split; [auto|]. split; [auto|]. split; [auto|]. split; [auto|].
            split; [rewrite Hc2, I5; ring|lia]. }
          destruct (Z.testbit entry (Z.of_nat j)); cbn [cz].
          - assert (A := add_step t c (this, copy) Hs). cbn [fst snd] in A. destruct (b_add W strict this copy); cbn [bind]; auto. replace (t + c * 1) with (t + c) by lia. auto.
          - cbn [bind]. replace (t + c * 0) with t by lia. auto. }
        match type of Step with match ?m with _ => _ end => destruct m as [s'| |] end; cbn [bind]; auto.
        specialize (IH (S j) _ _ _ Step). rewrite Nat2Z.inj_succ with (n := n), Z.pow_succ_r by lia.
        replace (t + c * (cz (Z.testbit entry (Z.of_nat j)) + 2 * ((entry / 2 ^ Z.of_nat (S j)) mod 2 ^ Z.of_nat n)))
          with (t + c * cz (Z.testbit entry (Z.of_nat j)) + c * 2 * ((entry / 2 ^ Z.of_nat (S j)) mod 2 ^ Z.of_nat n)) by ring.
        replace (c * (2 * 2 ^ Z.of_nat n)) with (c * 2 * 2 ^ Z.of_nat n) by ring. exact IH.
    Qed.
    Lemma mul_limb_spec entry t c s : 0 <= entry < B -> inv t c s -> reaches (t + c * entry) (c * B) (mul_limb W strict entry s).
    Proof.
      intros He Hs. assert (H := mul_bits entry W 0 t c s (proj1 He) Hs). change (2 ^ Z.of_nat 0) with 1 in H. rewrite Z.div_1_r in H. fold B in H.
      rewrite Z.mod_small in H by auto. exact H.
    Qed.
    Lemma mul_limbs_spec l t c s : in_range W l -> inv t c s ->
      reaches (t + c * lv l) (c * B ^ Z.of_nat (length l)) (foldM (fun s entry => mul_limb W strict entry s) s l).
    Proof.
      intros Hl. revert t c s. induction Hl as [|x l Hx Hl IH]; intros t c s Hs.
      - cbn [foldM reaches lval length]. change (B ^ Z.of_nat 0) with 1. rewrite Z.mul_0_r, Z.add_0_r, Z.mul_1_r. auto.
      - cbn [foldM lval length]. assert (H := mul_limb_spec x t c s Hx Hs). unfold reaches in H. destruct (mul_limb W strict x s) as [s'| |]; cbn [bind]; auto.
        specialize (IH _ _ _ H). rewrite Nat2Z.inj_succ, Z.pow_succ_r by lia.
        replace (t + c * (x + B * lv l)) with (t + c * x + c * B * lv l) by ring. replace (c * (B * B ^ Z.of_nat (length l))) with (c * B * B ^ Z.of_nat (length l)) by ring. exact IH.
    Qed.
  End Loop.

  Definition mul_undefined (a b : big) : Prop := bval b = int_min 32 \/ (bval a < 0 /\ (bval a | 2 ^ 31)).

  Lemma b_mul_spec a b : canonical a -> canonical b -> gives (mul_undefined a b) (b_mul W strict a b) (bval a * bval b).
  Proof.
    intros Ha Hb. unfold b_mul. rewrite !(is_zero_val W HW) by auto.
    destruct (Z.eqb_spec (bval a) 0) as [Ea|Ea]; cbn [orb].
    { apply gives_ok; [apply zero_canonical; auto|]. rewrite (proj2 (zero_canonical W HW)). lia. }
    destruct (Z.eqb_spec (bval b) 0) as [Eb|Eb].
    { apply gives_ok; [apply zero_canonical; auto|]. rewrite (proj2 (zero_canonical W HW)). lia. }
    rewrite (eqi_spec W strict HW b 1), (eqi_spec W strict HW b (-1)) by (auto; try reflexivity; rewrite min32; lia). cbn [bind].
    assert (Nb := canonical_neg W HW b Hb). destruct (flip_spec W HW a Ha) as (Fl1 & Fl2).
    destruct (Z.eqb_spec (bval b) 1) as [E1|E1]; cbn [bind].
    { rewrite Nb, E1. change (1 <? 0) with false. cbn iota. apply gives_ok; auto. lia. }
    destruct (Z.eqb_spec (bval b) (-1)) as [E2|E2]; cbn [bind].
    { rewrite Nb, E2. change (-1 <? 0) with true. cbn iota. apply gives_ok; auto. lia. }
    assert (Path : gives (mul_undefined a b)
      (do r <- foldM (fun s entry => mul_limb W strict entry s) (mk_big (negative a) [0], a) (limbs b); Ok (if negative b then b_flip (fst r) else fst r)) (bval a * bval b)).
    { assert (Hi : inv a 0 1 (mk_big (negative a) [0], a)).
      { assert (Hp := base_pos W HW). unfold inv. cbn [fst snd limbs negative]. split; [apply single_cmag; lia|]. split; auto. split; [unfold BigIntProofs.mag; cbn [limbs lval]; lia|].
        split; auto. split; [lia|lia]. }
      assert (H := mul_limbs_spec a Ha Ea (limbs b) 0 1 _ (cmag_range W _ (proj1 Hb)) Hi). rewrite Z.add_0_l, !Z.mul_1_l in H. fold (mag b) in H.
      destruct (foldM _ _ (limbs b)) as [s| |]; cbn [bind reaches] in *; auto.
      - destruct H as (I1 & I2 & I3 & _). assert (Mb := canonical_mag W HW b Hb). assert (Hpos : 0 < mag (fst s)) by (rewrite I3, Mb; nia).
        assert (Hc : canonical (fst s)).
        { split; auto. intros E. exfalso. apply (cmag_zero W HW) in E; auto. fold (mag (fst s)) in E. lia. }
        assert (Hv : bval (fst s) = bval a * Z.abs (bval b)).
        { assert (Na := canonical_neg W HW a Ha). unfold BigIntProofs.bval at 1. rewrite I2, I3, Mb, Na. destruct (Z.ltb_spec (bval a) 0); nia. }
        destruct (flip_spec W HW (fst s) Hc) as (F1 & F2). rewrite Nb. destruct (Z.ltb_spec (bval b) 0); apply gives_ok; auto; nia.
      - destruct H as (S1 & S2). split; auto. right. auto. }
    unfold fallback_mul. rewrite !(to_int_spec W strict HW) by auto.
    destruct (int_of_cases strict (bval a)) as [(Eia & Fa)|[(Eia & Sa & Fa)|(Eia & Fa)]]; rewrite Eia; cbn [bind catching]; [exact Path| |].
    { split; auto. right. rewrite Fa, min32. split; [lia|]. exists (-1). reflexivity. }
    destruct (int_of_cases strict (bval b)) as [(Eib & Fb)|[(Eib & Sb & Fb)|(Eib & Fb)]]; rewrite Eib; cbn [bind catching]; [exact Path|split; [auto|left; auto]|].
    apply fits32 in Fa. apply fits32 in Fb. rewrite max32, min32. unfold i_div, i_mul.
    replace (bval b =? 0) with false by (symmetry; apply Z.eqb_neq; auto).
    remember (if Bool.eqb (bval a >? 0) (bval b >? 0) then 2147483647 else -2147483648) as limit eqn:El.
    assert (Hq : ck 32 (Z.quot limit (bval b)) = Ok (Z.quot limit (bval b))).
    { apply ck32. assert (Hlim : limit = 2147483647 \/ limit = -2147483648) by (rewrite El; destruct (Bool.eqb _ _); auto).
      assert (Hb2 : Z.abs (bval b) >= 2) by lia. assert (Q := Z.quot_abs limit (bval b) Eb). assert (Z.abs limit / Z.abs (bval b) <= 2147483648 / 2).
      { etransitivity; [apply Z.div_le_compat_l; [lia|split; [|apply Z.ge_le, Hb2]; lia]|]. apply Z.div_le_mono; lia. }
      rewrite Z.quot_div_nonneg in Q by lia. change (2147483648 / 2) with 1073741824 in *. lia. }
    rewrite !Hq. cbn [bind]. rewrite !Z.gtb_ltb in *.
    assert (Hok : (if (if 0 <? bval a then Z.quot limit (bval b) <? bval a else false) then true
                   else if bval a <? 0 then bval a <? Z.quot limit (bval b) else false) = negb (fits 32 (bval a * bval b))).
    { destruct (Z.ltb_spec 0 (bval a)) as [Hpa|Hpa], (Z.ltb_spec 0 (bval b)) as [Hpb|Hpb]; cbn [Bool.eqb] in El; rewrite El; clear El Hq.
      - rewrite Z.quot_div_nonneg by lia. assert (D := div_lt_iff 2147483647 (bval b) (bval a) ltac:(lia)).
        destruct (Z.ltb_spec (2147483647 / bval b) (bval a)) as [H|H].
        + symmetry. apply negb_true_iff, fits32_false. right. apply D. auto.
        + destruct (Z.ltb_spec (bval a) 0); [lia|]. symmetry. apply negb_false_iff, fits32. nia.
      - replace (bval b) with (- (- bval b)) by lia. replace (-2147483648) with (- (2147483648)) by lia. rewrite Z.quot_opp_opp by lia. rewrite Z.quot_div_nonneg by lia.
        assert (D := div_lt_iff 2147483648 (- bval b) (bval a) ltac:(lia)). destruct (Z.ltb_spec (2147483648 / - bval b) (bval a)) as [H|H].
        + symmetry. apply negb_true_iff, fits32_false. left. nia.
        + destruct (Z.ltb_spec (bval a) 0); [lia|]. symmetry. apply negb_false_iff, fits32. nia.
      - destruct (Z.ltb_spec (bval a) 0) as [Hna|Hna]; [|lia]. replace (-2147483648) with (- (2147483648)) by lia. rewrite Z.quot_opp_l by lia. rewrite Z.quot_div_nonneg by lia.
        assert (D := div_lt_iff 2147483648 (bval b) (- bval a) ltac:(lia)). destruct (Z.ltb_spec (bval a) (- (2147483648 / bval b))) as [H|H]; symmetry.
        + apply negb_true_iff, fits32_false. left. nia.
        + apply negb_false_iff, fits32. nia.
      - destruct (Z.ltb_spec (bval a) 0) as [Hna|Hna]; [|lia]. replace (bval b) with (- (- bval b)) by lia. rewrite Z.quot_opp_r by lia. rewrite Z.quot_div_nonneg by lia.
        assert (D := div_lt_iff 2147483647 (- bval b) (- bval a) ltac:(lia)). destruct (Z.ltb_spec (bval a) (- (2147483647 / - bval b))) as [H|H]; symmetry.
        + apply negb_true_iff, fits32_false. right. nia.
        + apply negb_false_iff, fits32. nia. }
    assert (Hres : forall X : res big, (if fits 32 (bval a * bval b) then True else X = Throw) ->
       (fits 32 (bval a * bval b) = true -> X = Ok (b_of_signed W (bval a * bval b))) -> gives (mul_undefined a b) (catching X 
       (do r <- foldM (fun s entry => mul_limb W strict entry s) (mk_big (negative a) [0], a) (limbs b); Ok (if negative b then b_flip (fst r) else fst r))) (bval a * bval b)).
    { intros X HX1 HX2. destruct (fits 32 (bval a * bval b)) eqn:Ef.
      - rewrite HX2 by auto. cbn [catching]. destruct (of_int_spec W HW _ Ef). apply gives_ok; auto.
      - rewrite HX1. cbn [catching]. exact Path. }
    apply Hres.
    - destruct (fits 32 (bval a * bval b)) eqn:Ef; auto. cbn [negb] in Hok.
      destruct (0 <? bval a); cbn [bind].
      + destruct (Z.quot limit (bval b) <? bval a); cbn [bind]; auto. destruct (bval a <? 0); [|discriminate]. cbn [bind]. rewrite ?Z.gtb_ltb, Hok. reflexivity.
      + destruct (bval a <? 0); [|discriminate]. cbn [bind]. rewrite ?Z.gtb_ltb, Hok. reflexivity.
    - intros Ef. rewrite Ef in Hok. cbn [negb] in Hok. apply fits32 in Ef. rewrite ck32 by auto.
      destruct (0 <? bval a); cbn [bind].
      + destruct (Z.quot limit (bval b) <? bval a); cbn [bind]; [discriminate|]. destruct (bval a <? 0); cbn [bind]; auto. rewrite ?Z.gtb_ltb, Hok. reflexivity.
      + destruct (bval a <? 0); cbn [bind]; auto. rewrite ?Z.gtb_ltb, Hok. reflexivity.
  Qed.
End Big.
