(** * BigIntProofs: what the operators of BigInteger compute. *)
From Coq Require Import List ZArith Arith Lia Bool.
From Verif Require Import Base ArithModel SafeIntModel BigIntModel BigIntLimbs.
Import ListNotations.
Open Scope Z_scope.

Lemma fits32 v : fits 32 v = true <-> -2147483648 <= v <= 2147483647.
Proof. unfold fits. rewrite andb_true_iff, !Z.leb_le. unfold int_min, int_max. cbn. lia. Qed.
Lemma fits32_false v : fits 32 v = false <-> v < -2147483648 \/ 2147483647 < v.
Proof. rewrite <- not_true_iff_false, fits32. lia. Qed.
Lemma ck32 v : -2147483648 <= v <= 2147483647 -> ck 32 v = Ok v.
Proof. intros H. unfold ck. apply fits32 in H. rewrite H. reflexivity. Qed.
Lemma min32 : int_min 32 = -2147483648. Proof. reflexivity. Qed.
Lemma max32 : int_max 32 = 2147483647. Proof. reflexivity. Qed.

Section Big.
  Variable W : nat.
  Variable strict : bool.
  Hypothesis HW : (32 <= W)%nat.
  Notation B := (base W).
  Notation lv := (lval W).

  (** The integer denoted, and canonical objects: no leading zero limb, no negative zero. *)
  Definition mag (a : big) : Z := lv (limbs a).
  Definition bval (a : big) : Z := if negative a then - mag a else mag a.
  Definition canonical (a : big) : Prop := cmag W (limbs a) /\ (limbs a = [0] -> negative a = false).

  Lemma mag_nonneg a : cmag W (limbs a) -> 0 <= mag a.
  Proof. apply cmag_nonneg. auto. Qed.
  Lemma canonical_neg a : canonical a -> negative a = (bval a <? 0).
  Proof.
    intros (H1 & H2). assert (H0 := mag_nonneg a H1). unfold bval. destruct (negative a) eqn:E.
    - symmetry. apply Z.ltb_lt. assert (mag a <> 0); [|lia]. intros E0. apply (cmag_zero W HW) in E0; auto. apply H2 in E0. discriminate.
    - symmetry. apply Z.ltb_ge. auto.
  Qed.
  Lemma canonical_mag a : canonical a -> mag a = Z.abs (bval a).
  Proof. intros (H1 & _). assert (H0 := mag_nonneg a H1). unfold bval. destruct (negative a); lia. Qed.
  Lemma canonical_unique a b : canonical a -> canonical b -> bval a = bval b -> a = b.
  Proof.
    intros Ha Hb E. assert (E1 := canonical_neg a Ha). assert (E2 := canonical_neg b Hb). assert (M1 := canonical_mag a Ha). assert (M2 := canonical_mag b Hb).
    rewrite E in *. destruct a as [n l], b as [n' l']. cbn [negative limbs] in *. f_equal; [congruence|].
    apply (cmag_unique W HW); [apply Ha|apply Hb|]. unfold mag in *. cbn [limbs] in *. congruence.
  Qed.
  Lemma is_zero_spec a : cmag W (limbs a) -> b_is_zero a = (mag a =? 0).
  Proof.
    intros H. unfold b_is_zero. assert (Z0 := cmag_zero W HW _ H). fold (mag a) in Z0. destruct (limbs a) as [|x [|y l]] eqn:E.
    - destruct H. congruence.
    - unfold mag. rewrite E. cbn [lval]. destruct (Z.eqb_spec x 0); symmetry; [apply Z.eqb_eq|apply Z.eqb_neq]; lia.
    - symmetry. apply Z.eqb_neq. intros E0. apply Z0 in E0. discriminate.
  Qed.
  Lemma is_zero_val a : canonical a -> b_is_zero a = (bval a =? 0).
  Proof.
    intros H. rewrite is_zero_spec by apply H. rewrite canonical_mag by auto. destruct (Z.eqb_spec (bval a) 0) as [->|]; auto. apply Z.eqb_neq. lia.
  Qed.
  Lemma flip_spec a : canonical a -> canonical (b_flip a) /\ bval (b_flip a) = - bval a.
  Proof.
    intros H. unfold b_flip. rewrite is_zero_val by auto. destruct (Z.eqb_spec (bval a) 0) as [E|E]; [split; auto; lia|].
    split.
    - split; cbn [limbs negative]; [apply H|]. intros E0. exfalso. apply E. unfold bval, mag. rewrite E0. cbn [lval]. destruct (negative a); lia.
    - unfold bval, mag. cbn [negative limbs]. destruct (negative a); cbn [negb]; lia.
  Qed.
  Lemma abs_spec a : canonical a -> canonical (b_abs a) /\ bval (b_abs a) = Z.abs (bval a).
  Proof. intros H. split; [split; cbn [b_abs limbs negative]; [apply H|auto]|]. rewrite <- canonical_mag by auto. reflexivity. Qed.
  Lemma zero_canonical : canonical b_set_zero /\ bval b_set_zero = 0.
  Proof.
    assert (Hb := base_pos W HW). split; [|unfold bval, mag; cbn; lia]. split; auto. split; [discriminate|]. split; [repeat constructor; lia|left; reflexivity].
  Qed.
  Lemma shrink_spec a : limbs a <> [] -> in_range W (limbs a) -> canonical (b_shrink a) /\ bval (b_shrink a) = bval a.
  Proof.
    intros Hne Hr. destruct (shrink_limbs_spec W HW (limbs a) Hne Hr) as (H1 & H2). unfold b_shrink.
    assert (Z0 := cmag_zero W HW _ H1). destruct (shrink_limbs (limbs a)) as [|x [|y l]] eqn:E.
    - destruct H1. congruence.
    - destruct (Z.eqb_spec x 0) as [->|Hx].
      + split; [split; cbn [limbs negative]; auto|]. unfold bval, mag in *. cbn [limbs negative lval] in *. destruct (negative a); lia.
      + split; [split; cbn [limbs negative]; auto; intros E0; congruence|]. unfold bval, mag in *. cbn [limbs negative]. destruct (negative a); lia.
    - split; [split; cbn [limbs negative]; auto; intros E0; discriminate|]. unfold bval, mag in *. cbn [limbs negative]. destruct (negative a); lia.
  Qed.

  (** ** Constructors and conversion *)
  Lemma single_cmag x : 0 <= x < B -> cmag W [x].
  Proof. intros H. split; [discriminate|]. split; [constructor; auto; constructor|left; reflexivity]. Qed.
  Lemma of_signed_spec v : - B < v < B -> canonical (b_of_signed W v) /\ bval (b_of_signed W v) = v.
  Proof.
    intros Hv. assert (Hb := base_big W HW). unfold b_of_signed. rewrite Z.geb_leb. destruct (Z.leb_spec 0 v) as [H|H]; cbn [negb].
    - rewrite wrap_small by lia. split; [split; cbn [limbs negative]; auto; apply single_cmag; lia|]. unfold bval, mag. cbn [negative limbs lval]. lia.
    - rewrite (wrap_small W (- (1 + v))) by lia. rewrite wrap_small by lia. split.
      + split; cbn [limbs negative]; [apply single_cmag; lia|]. intros E. apply (f_equal (fun l => nth 0 l 1)) in E. cbn [nth] in E. lia.
      + unfold bval, mag. cbn [negative limbs lval]. lia.
  Qed.
  Lemma of_int_spec v : fits 32 v = true -> canonical (b_of_signed W v) /\ bval (b_of_signed W v) = v.
  Proof. intros H. apply fits32 in H. apply of_signed_spec. assert (Hb := base_big W HW). lia. Qed.
  Lemma of_unsigned_spec v : 0 <= v < B -> canonical (b_of_unsigned W v) /\ bval (b_of_unsigned W v) = v.
  Proof.
    intros Hv. unfold b_of_unsigned. rewrite wrap_small by auto. split; [split; cbn [limbs negative]; auto; apply single_cmag; auto|].
    unfold bval, mag. cbn [negative limbs lval]. lia.
  Qed.

  (** The result of converting [v] to [int]. *)
  Definition int_of (v : Z) : res Z := if fits 32 v then (if strict && (v =? int_min 32) then UB else Ok v) else Throw.
  Lemma to_int_spec a : canonical a -> b_to_int W strict a = int_of (bval a).
  Proof.
    intros Ha. assert (Hb := base_big W HW). unfold b_to_int, int_of. destruct a as [n l]. cbn [limbs negative] in *.
    destruct Ha as (Hc & Hz). cbn [limbs negative] in *.
    destruct l as [|x [|y l]]; [destruct Hc; congruence| |].
    - change (1 <? length [x])%nat with false. cbn iota. cbn [get nth_error bind].
      assert (Hx : 0 <= x < B) by (destruct Hc as (_ & Hr & _); inversion Hr; auto).
      unfold bval, mag. cbn [negative limbs lval]. rewrite Z.mul_0_r, Z.add_0_r. rewrite max32, min32.
      destruct n; cbn [negb andb].
      + assert (x <> 0) by (intros ->; specialize (Hz eq_refl); discriminate). rewrite wrap_small by lia. rewrite Z.gtb_ltb.
        destruct (Z.ltb_spec 2147483647 (x - 1)) as [H1|H1].
        * replace (fits 32 (- x)) with false by (symmetry; apply fits32_false; lia). reflexivity.
        * replace (fits 32 (- x)) with true by (symmetry; apply fits32; lia). unfold int_neg.
          destruct (Z.eq_dec x 2147483648) as [->|Hne].
          -- change (wrap_signed 32 2147483648) with (-2147483648). change (fits 32 (- -2147483648)) with false. cbn iota.
             change (- (2147483648) =? -2147483648) with true. rewrite andb_true_r. destruct strict; reflexivity.
          -- assert (Ew : wrap_signed 32 x = x). { unfold wrap_signed. cbn. rewrite Z.mod_small by lia. lia. }
             rewrite Ew. replace (fits 32 (- x)) with true by (symmetry; apply fits32; lia).
             replace (- x =? -2147483648) with false by (symmetry; apply Z.eqb_neq; lia). rewrite andb_false_r. reflexivity.
      + rewrite Z.gtb_ltb. destruct (Z.ltb_spec 2147483647 x) as [H1|H1].
        * replace (fits 32 x) with false by (symmetry; apply fits32_false; lia). reflexivity.
        * replace (fits 32 x) with true by (symmetry; apply fits32; lia).
          replace (x =? -2147483648) with false by (symmetry; apply Z.eqb_neq; lia). rewrite andb_false_r.
          f_equal. unfold wrap_signed. cbn. rewrite Z.mod_small by lia. lia.
    - change (1 <? length (x :: y :: l))%nat with true. cbn iota.
      assert (Hlow : B <= lv (x :: y :: l)).
      { destruct (cmag_low W HW _ Hc) as [H|H]; [discriminate|]. cbn [length] in H. replace (S (S (length l)) - 1)%nat with (S (length l)) in H by lia.
        rewrite Nat2Z.inj_succ, Z.pow_succ_r in H by lia. assert (0 < B ^ Z.of_nat (length l)) by (apply Z.pow_pos_nonneg; lia). nia. }
      replace (fits 32 (bval _)) with false; [reflexivity|]. symmetry. apply fits32_false. unfold bval, mag. cbn [negative limbs]. destruct n; lia.
  Qed.
  (** The negative zero inside a multiplication does not convert. *)
  Lemma to_int_neg_zero : b_to_int W strict (mk_big true [0]) = Throw.
  Proof.
    assert (Hb := base_big W HW). unfold b_to_int. cbn [limbs length get nth_error bind negative negb andb]. change (1 <? 1)%nat with false. cbn iota.
    rewrite wrap_under by lia. rewrite max32, Z.gtb_ltb. destruct (Z.ltb_spec 2147483647 (0 - 1 + B)); [reflexivity|lia].
  Qed.

  (** ** Comparisons *)
  Lemma eq_spec a b : canonical a -> canonical b -> b_eq a b = (bval a =? bval b).
  Proof.
    intros Ha Hb. assert (Heq : b_eq a b = true <-> a = b).
    { unfold b_eq. destruct a as [n l], b as [n' l']. cbn [negative limbs].
      destruct (Bool.eqb n n') eqn:En; cbn [negb orb]; [|split; [discriminate|]; intros E; injection E; intros; subst; rewrite Bool.eqb_reflx in En; discriminate].
      apply Bool.eqb_prop in En. subst n'. destruct (Nat.eqb_spec (length l) (length l')) as [El|El]; cbn [negb].
      - rewrite equal_limbs_spec by auto. split; [intros ->; auto|intros E; injection E; auto].
      - split; [discriminate|]. intros E. injection E. intros ->. congruence. }
    destruct (Z.eqb_spec (bval a) (bval b)) as [E|E].
    - apply Heq. apply canonical_unique; auto.
    - apply not_true_iff_false. rewrite Heq. congruence.
  Qed.
  Lemma lt_spec a b : canonical a -> canonical b -> b_lt a b = (bval a <? bval b).
  Proof.
    intros Ha Hb. unfold b_lt. assert (E1 := canonical_neg a Ha). assert (E2 := canonical_neg b Hb).
    assert (M1 := canonical_mag a Ha). assert (M2 := canonical_mag b Hb).
    rewrite mag_smaller_spec with (W := W), mag_greater_spec with (W := W) by (auto; try apply Ha; try apply Hb). fold (mag a) (mag b). rewrite M1, M2, E1, E2.
    destruct (Z.ltb_spec (bval a) 0), (Z.ltb_spec (bval b) 0); cbn [Bool.eqb negb]; symmetry.
    - destruct (Z.ltb_spec (Z.abs (bval b)) (Z.abs (bval a))); [apply Z.ltb_lt|apply Z.ltb_ge]; lia.
    - apply Z.ltb_lt. lia.
    - apply Z.ltb_ge. lia.
    - destruct (Z.ltb_spec (Z.abs (bval a)) (Z.abs (bval b))); [apply Z.ltb_lt|apply Z.ltb_ge]; lia.
  Qed.

  Lemma canonical_single a : canonical a -> (exists x, limbs a = [x] /\ 0 <= x < B) \/ ((1 < length (limbs a))%nat /\ B <= mag a).
  Proof.
    intros (Hc & _). destruct (limbs a) as [|x [|y l]] eqn:E.
    - destruct Hc. congruence.
    - left. exists x. split; auto. destruct Hc as (_ & Hr & _). inversion Hr; auto.
    - right. split; [cbn [length]; lia|]. unfold mag. rewrite E. assert (Hb := base_pos W HW). destruct (cmag_low W HW _ Hc) as [H|H]; [discriminate|].
      cbn [length] in H. replace (S (S (length l)) - 1)%nat with (S (length l)) in H by lia.
      rewrite Nat2Z.inj_succ, Z.pow_succ_r in H by lia. assert (0 < B ^ Z.of_nat (length l)) by (apply Z.pow_pos_nonneg; lia). nia.
  Qed.
  Lemma int_abs_ok v : fits 32 v = true -> v <> int_min 32 -> int_abs strict v = Ok (Z.abs v).
  Proof.
    intros H Hm. apply fits32 in H. rewrite min32 in Hm. unfold int_abs, int_neg. destruct (Z.ltb_spec v 0).
    - replace (fits 32 (- v)) with true by (symmetry; apply fits32; lia). f_equal. lia.
    - f_equal. lia.
  Qed.
  Lemma eqi_spec a v : canonical a -> fits 32 v = true -> v <> int_min 32 -> b_eqi W strict a v = Ok (bval a =? v).
  Proof.
    intros Ha Hv Hm. assert (Hb := base_big W HW). assert (E1 := canonical_neg a Ha). assert (M1 := canonical_mag a Ha). unfold b_eqi.
    rewrite (int_abs_ok v Hv Hm). apply fits32 in Hv. destruct (canonical_single a Ha) as [(x & El & Hx)|(Hl & Hm1)].
    - rewrite El. change (1 <? length [x])%nat with false. cbn iota. cbn [get nth_error bind].
      assert (Ex : x = Z.abs (bval a)) by (rewrite <- M1; unfold mag; rewrite El; cbn [lval]; lia).
      rewrite E1, Z.geb_leb. rewrite wrap_small by lia. rewrite Ex.
      destruct (Z.leb_spec 0 v), (Z.ltb_spec (bval a) 0); cbn [Bool.eqb negb]; f_equal; symmetry; try (apply Z.eqb_neq; lia).
      + destruct (Z.eqb_spec (Z.abs (bval a)) (Z.abs v)); [apply Z.eqb_eq|apply Z.eqb_neq]; lia.
      + destruct (Z.eqb_spec (Z.abs (bval a)) (Z.abs v)); [apply Z.eqb_eq|apply Z.eqb_neq]; lia.
    - destruct (Nat.ltb_spec 1 (length (limbs a))); [|lia]. f_equal. symmetry. apply Z.eqb_neq. lia.
  Qed.
  Lemma lti_spec a v : canonical a -> fits 32 v = true -> v <> int_min 32 -> b_lti W strict a v = Ok (bval a <? v).
  Proof.
    intros Ha Hv Hm. assert (Hb := base_big W HW). assert (E1 := canonical_neg a Ha). assert (M1 := canonical_mag a Ha). unfold b_lti.
    rewrite (int_abs_ok v Hv Hm). apply fits32 in Hv. destruct (canonical_single a Ha) as [(x & El & Hx)|(Hl & Hm1)].
    - rewrite El. change (1 <? length [x])%nat with false. cbn iota. cbn [get nth_error bind].
      assert (Ex : x = Z.abs (bval a)) by (rewrite <- M1; unfold mag; rewrite El; cbn [lval]; lia).
      rewrite E1, Z.geb_leb. rewrite Ex, Z.gtb_ltb.
      destruct (Z.ltb_spec (bval a) 0), (Z.leb_spec 0 v); cbn [Bool.eqb negb]; f_equal; try rewrite wrap_small by lia; symmetry.
      + apply Z.ltb_lt. lia.
      + destruct (Z.ltb_spec (Z.abs v) (Z.abs (bval a))); [apply Z.ltb_lt|apply Z.ltb_ge]; lia.
      + destruct (Z.ltb_spec (Z.abs (bval a)) v); [apply Z.ltb_lt|apply Z.ltb_ge]; lia.
      + apply Z.ltb_ge. lia.
    - destruct (Nat.ltb_spec 1 (length (limbs a))); [|lia]. f_equal. rewrite E1. destruct (Z.ltb_spec (bval a) 0); symmetry; [apply Z.ltb_lt|apply Z.ltb_ge]; lia.
  Qed.
  Lemma gti_spec a v : canonical a -> fits 32 v = true -> v <> int_min 32 -> b_gti W strict a v = Ok (v <? bval a).
  Proof.
    intros Ha Hv Hm. assert (Hb := base_big W HW). assert (E1 := canonical_neg a Ha). assert (M1 := canonical_mag a Ha). unfold b_gti.
    rewrite (int_abs_ok v Hv Hm). apply fits32 in Hv. destruct (canonical_single a Ha) as [(x & El & Hx)|(Hl & Hm1)].
    - rewrite El. change (1 <? length [x])%nat with false. cbn iota. cbn [get nth_error bind].
      assert (Ex : x = Z.abs (bval a)) by (rewrite <- M1; unfold mag; rewrite El; cbn [lval]; lia).
      rewrite E1, Z.geb_leb. rewrite Ex, Z.gtb_ltb.
      destruct (Z.ltb_spec (bval a) 0), (Z.leb_spec 0 v); cbn [Bool.eqb negb]; f_equal; try rewrite wrap_small by lia; symmetry.
      + apply Z.ltb_ge. lia.
      + destruct (Z.ltb_spec (Z.abs (bval a)) (Z.abs v)); [apply Z.ltb_lt|apply Z.ltb_ge]; lia.
      + destruct (Z.ltb_spec v (Z.abs (bval a))); [apply Z.ltb_lt|apply Z.ltb_ge]; lia.
      + apply Z.ltb_lt. lia.
    - destruct (Nat.ltb_spec 1 (length (limbs a))); [|lia]. f_equal. rewrite E1. destruct (Z.ltb_spec (bval a) 0); cbn [negb]; symmetry; [apply Z.ltb_ge|apply Z.ltb_lt]; lia.
  Qed.

  (** ** Outcomes: an object that denotes [v], or -- if [strict] -- undefined behaviour under the condition [P]. *)
  Definition gives (P : Prop) (m : res big) (v : Z) : Prop :=
    match m with Ok r => canonical r /\ bval r = v | Throw => False | UB => strict = true /\ P end.
  Lemma gives_ok (P : Prop) r v : canonical r -> bval r = v -> gives P (Ok r) v.
  Proof. cbn. auto. Qed.
  Lemma gives_impl (P Q : Prop) m v : (P -> Q) -> gives P m v -> gives Q m v.
  Proof. intros H. destruct m; cbn; auto. intros (? & ?). auto. Qed.

  Lemma sub_mag_spec a s : canonical (mk_big (negative a) (limbs a)) \/ cmag W (limbs a) -> cmag W s -> lv s <= mag a ->
    exists r, b_sub_mag W a s = Ok r /\ canonical r /\ bval r = (if negative a then - (mag a - lv s) else mag a - lv s).
  Proof.
    intros Ha Hs Hle. assert (Hc : cmag W (limbs a)) by (destruct Ha as [Ha|Ha]; [apply Ha|auto]).
    destruct (sub_limbs_ok W HW (limbs a) s Hc Hs Hle) as (l & E & Hne & Hr & Hv). unfold b_sub_mag. rewrite E. cbn [bind].
    destruct (shrink_spec (mk_big (negative a) l) Hne Hr) as (H1 & H2). eexists. split; [reflexivity|]. split; auto. rewrite H2. unfold bval, mag. cbn [negative limbs].
    rewrite Hv. destruct (negative a); auto.
  Qed.

  (** Adding magnitudes of the same sign. *)
  Lemma add_mag_spec a b : cmag W (limbs a) -> cmag W (limbs b) -> 
    cmag W (limbs (b_add_mag W a (limbs b))) /\ mag (b_add_mag W a (limbs b)) = mag a + mag b /\ negative (b_add_mag W a (limbs b)) = negative a.
  Proof.
    intros Ha Hb. destruct (add_limbs_ok W HW (limbs a) (limbs b) Ha Hb) as (H1 & H2). unfold b_add_mag. cbn [limbs negative]. unfold mag. cbn [limbs]. auto.
  Qed.

  Lemma int_of_cases v : (int_of v = Throw /\ fits 32 v = false) \/ (int_of v = UB /\ strict = true /\ v = int_min 32) \/ (int_of v = Ok v /\ fits 32 v = true).
  Proof.
    unfold int_of. destruct (fits 32 v); auto. destruct strict; cbn [andb]; auto. destruct (Z.eqb_spec v (int_min 32)); auto.
  Qed.

  Lemma b_add_spec a b : canonical a -> canonical b -> gives (bval a = int_min 32 \/ bval b = int_min 32) (b_add W strict a b) (bval a + bval b).
  Proof.
    intros Ha Hb. unfold b_add. rewrite (is_zero_val b Hb). destruct (Z.eqb_spec (bval b) 0) as [E0|E0]; [apply gives_ok; auto; lia|].
    unfold fallback_add. rewrite !to_int_spec by auto.
    assert (Path : gives (bval a = int_min 32 \/ bval b = int_min 32)
      (if Bool.eqb (negative a) (negative b) then Ok (b_add_mag W a (limbs b))
       else if b_eq (mk_big (negative b) (limbs a)) b then Ok b_set_zero
       else if Bool.eqb (negb (negative b)) (b_gt (mk_big (negative b) (limbs a)) b) then b_sub_mag W a (limbs b)
       else b_sub_mag W (mk_big (negative b) (limbs b)) (limbs a)) (bval a + bval b)).
    { assert (Na := canonical_neg a Ha). assert (Nb := canonical_neg b Hb). assert (Ma := canonical_mag a Ha). assert (Mb := canonical_mag b Hb).
      destruct (Bool.eqb (negative a) (negative b)) eqn:Es.
      - apply Bool.eqb_prop in Es. destruct (add_mag_spec a b (proj1 Ha) (proj1 Hb)) as (H1 & H2 & H3). apply gives_ok.
        + split; auto. intros E. exfalso. apply (cmag_zero W HW) in E; auto. fold (mag (b_add_mag W a (limbs b))) in E. lia.
        + unfold bval at 1. rewrite H2, H3. unfold bval. rewrite <- Es. destruct (negative a); lia.
      - assert (Hs : canonical (mk_big (negative b) (limbs a)) \/ limbs a = [0]).
        { destruct (Z.eq_dec (bval a) 0) as [Ez|Ez].
          - right. apply (cmag_zero W HW); [apply Ha|]. fold (mag a). lia.
          - left. split; cbn [limbs negative]; [apply Ha|]. intros E. exfalso. apply (cmag_zero W HW) in E; [|apply Ha]. fold (mag a) in E. lia. }
        assert (Eq : b_eq (mk_big (negative b) (limbs a)) b = (mag a =? mag b)).
        { unfold b_eq. cbn [negative limbs]. rewrite Bool.eqb_reflx. cbn [negb orb].
          destruct (Nat.eqb_spec (length (limbs a)) (length (limbs b))) as [El|El]; cbn [negb].
          - destruct (equal_limbs (limbs a) (limbs b)) eqn:Ee.
            + apply (equal_limbs_spec W HW) in Ee; auto. unfold mag. rewrite Ee. symmetry. apply Z.eqb_refl.
            + symmetry. apply Z.eqb_neq. intros Em. apply (cmag_unique W HW) in Em; [|apply Ha|apply Hb]. apply (equal_limbs_spec W HW _ _ El) in Em. congruence.
          - symmetry. apply Z.eqb_neq. intros Em. apply (cmag_unique W HW) in Em; [|apply Ha|apply Hb]. congruence. }
        assert (Gt : b_gt (mk_big (negative b) (limbs a)) b = if negative b then mag a <? mag b else mag b <? mag a).
        { unfold b_gt, b_lt. cbn [negative]. rewrite Bool.eqb_reflx. cbn [negb]. rewrite mag_smaller_spec with (W := W), mag_greater_spec with (W := W) by (cbn [limbs]; auto; try apply Ha; try apply Hb).
          cbn [limbs]. fold (mag a) (mag b). destruct (negative b); reflexivity. }
        rewrite Eq, Gt. assert (Hna : negative a = negb (negative b)) by (destruct (negative a), (negative b); cbn in Es |- *; congruence).
        assert (Va : bval a = if negative b then mag a else - mag a) by (unfold bval at 1; rewrite Hna; destruct (negative b); reflexivity).
        assert (Vb : bval b = if negative b then - mag b else mag b) by reflexivity.
        assert (H0a := mag_nonneg a (proj1 Ha)). assert (H0b := mag_nonneg b (proj1 Hb)).
        destruct (Z.eqb_spec (mag a) (mag b)) as [Em|Em].
        + apply gives_ok; [apply zero_canonical|]. rewrite Va, Vb, (proj2 zero_canonical). destruct (negative b); lia.
        + assert (Hcase : Bool.eqb (negb (negative b)) (if negative b then mag a <? mag b else mag b <? mag a) = (mag b <? mag a)).
          { destruct (negative b); cbn [negb]; destruct (Z.ltb_spec (mag a) (mag b)), (Z.ltb_spec (mag b) (mag a)); cbn; auto; lia. }
          rewrite Hcase. destruct (Z.ltb_spec (mag b) (mag a)) as [Hlt|Hge].
          * destruct (sub_mag_spec a (limbs b)) as (r & Er & Hr & Hv); [right; apply Ha|apply Hb|unfold mag in *; lia|].
            rewrite Er. apply gives_ok; auto. rewrite Hv, Hna, Va, Vb. fold (mag b). destruct (negative b); cbn [negb]; lia.
          * destruct (sub_mag_spec (mk_big (negative b) (limbs b)) (limbs a)) as (r & Er & Hr & Hv); [right; apply Hb|apply Ha|unfold mag in *; cbn [limbs]; lia|].
            rewrite Er. apply gives_ok; auto. rewrite Hv, Va, Vb. cbn [negative limbs]. unfold mag. cbn [limbs]. destruct (negative b); lia. }
    destruct (int_of_cases (bval a)) as [(Ea & Fa)|[(Ea & Sa & Fa)|(Ea & Fa)]]; rewrite Ea; cbn [bind catching]; [exact Path|cbn; auto|].
    destruct (int_of_cases (bval b)) as [(Eb & Fb)|[(Eb & Sb & Fb)|(Eb & Fb)]]; rewrite Eb; cbn [bind catching]; [exact Path|cbn; auto|].
    apply fits32 in Fa. apply fits32 in Fb. unfold i_sub, i_add. rewrite max32, min32. rewrite !Z.gtb_ltb.
    assert (Over : (if (0 <? bval a) && (0 <? bval b) then do d <- ck 32 (2147483647 - bval a); Ok (d <? bval b) else Ok false) =
      Ok ((0 <? bval a) && (0 <? bval b) && (2147483647 <? bval a + bval b))).
    { destruct (Z.ltb_spec 0 (bval a)), (Z.ltb_spec 0 (bval b)); cbn [andb]; auto. rewrite ck32 by lia. cbn [bind]. f_equal.
      destruct (Z.ltb_spec (2147483647 - bval a) (bval b)); symmetry; [apply Z.ltb_lt|apply Z.ltb_ge]; lia. }
    assert (Over' : (if (0 <? bval a) && (0 <? bval b) then do d <- ck 32 (2147483647 - bval a); Ok (bval b >? d) else Ok false) =
      Ok ((0 <? bval a) && (0 <? bval b) && (2147483647 <? bval a + bval b))).
    { rewrite <- Over. destruct ((0 <? bval a) && (0 <? bval b)); auto. destruct (ck 32 (2147483647 - bval a)); cbn [bind]; auto. rewrite Z.gtb_ltb. reflexivity. }
    rewrite ?Over, ?Over'. cbn [bind].
    destruct ((0 <? bval a) && (0 <? bval b) && (2147483647 <? bval a + bval b)) eqn:Eo; cbn [bind catching]; [exact Path|].
    assert (Under : (if (bval a <? 0) && (bval b <? 0) then do d <- ck 32 (-2147483648 - bval a); Ok (bval b <? d) else Ok false) =
      Ok ((bval a <? 0) && (bval b <? 0) && (bval a + bval b <? -2147483648))).
    { destruct (Z.ltb_spec (bval a) 0), (Z.ltb_spec (bval b) 0); cbn [andb]; auto. rewrite ck32 by lia. cbn [bind]. f_equal.
      destruct (Z.ltb_spec (bval b) (-2147483648 - bval a)); symmetry; [apply Z.ltb_lt|apply Z.ltb_ge]; lia. }
    rewrite Under. cbn [bind].
    destruct ((bval a <? 0) && (bval b <? 0) && (bval a + bval b <? -2147483648)) eqn:Eu; cbn [bind catching]; [exact Path|].
    assert (Hin : -2147483648 <= bval a + bval b <= 2147483647).
    { destruct (Z.ltb_spec 0 (bval a)), (Z.ltb_spec 0 (bval b)), (Z.ltb_spec 2147483647 (bval a + bval b)),
        (Z.ltb_spec (bval a) 0), (Z.ltb_spec (bval b) 0), (Z.ltb_spec (bval a + bval b) (-2147483648)); cbn in Eo, Eu; try discriminate; lia. }
    rewrite ck32 by auto. cbn [bind catching]. destruct (of_int_spec (bval a + bval b)) as (H1 & H2); [apply fits32; auto|]. apply gives_ok; auto.
  Qed.

  Lemma b_sub_spec a b : canonical a -> canonical b -> gives (bval a = int_min 32 \/ bval b = int_min 32) (b_sub W strict a b) (bval a - bval b).
  Proof.
    intros Ha Hb. unfold b_sub. rewrite (is_zero_val b Hb). destruct (Z.eqb_spec (bval b) 0) as [E0|E0]; [apply gives_ok; auto; lia|].
    unfold fallback_sub. rewrite !to_int_spec by auto.
    assert (Path : gives (bval a = int_min 32 \/ bval b = int_min 32)
      (if negb (Bool.eqb (negative a) (negative b)) then Ok (b_add_mag W a (limbs b))
       else if Bool.eqb (negative a) (b_gt a b) then b_sub_mag W (b_flip (mk_big (negative a) (limbs b))) (limbs a)
       else b_sub_mag W a (limbs b)) (bval a - bval b)).
    { assert (Na := canonical_neg a Ha). assert (Nb := canonical_neg b Hb). assert (Ma := canonical_mag a Ha). assert (Mb := canonical_mag b Hb).
      assert (H0a := mag_nonneg a (proj1 Ha)). assert (H0b := mag_nonneg b (proj1 Hb)).
      assert (Vb : bval b = if negative b then - mag b else mag b) by reflexivity.
      assert (Va : bval a = if negative a then - mag a else mag a) by reflexivity.
      destruct (Bool.eqb (negative a) (negative b)) eqn:Es; cbn [negb].
      - apply Bool.eqb_prop in Es. unfold b_gt. rewrite lt_spec by auto.
        assert (Hcase : Bool.eqb (negative a) (bval b <? bval a) = if negative a then mag a <? mag b else negb (mag b <? mag a)).
        { rewrite Va, Vb, <- Es. destruct (negative a); cbn [Bool.eqb].
          - destruct (Z.ltb_spec (- mag b) (- mag a)), (Z.ltb_spec (mag a) (mag b)); auto; lia.
          - destruct (mag b <? mag a); reflexivity. }
        rewrite Hcase. destruct (if negative a then mag a <? mag b else negb (mag b <? mag a)) eqn:Ec.
        + assert (Hle : mag a <= mag b) by (destruct (negative a); [apply Z.ltb_lt in Ec; lia|apply negb_true_iff, Z.ltb_ge in Ec; lia]).
          assert (Hf : b_flip (mk_big (negative a) (limbs b)) = mk_big (negb (negative a)) (limbs b)).
          { unfold b_flip. cbn [negative limbs]. unfold b_is_zero. cbn [limbs]. destruct (limbs b) as [|x [|y l]] eqn:El; auto.
            destruct (Z.eqb_spec x 0); auto. exfalso. unfold mag in Mb. rewrite El in Mb. cbn [lval] in Mb. lia. }
          rewrite Hf. destruct (sub_mag_spec (mk_big (negb (negative a)) (limbs b)) (limbs a)) as (r & Er & Hr & Hv); [right; apply Hb|apply Ha|unfold mag in *; cbn [limbs]; lia|].
          rewrite Er. apply gives_ok; auto. rewrite Hv, Va, Vb, <- Es. cbn [negative limbs]. unfold mag. cbn [limbs]. destruct (negative a); cbn [negb]; lia.
        + assert (Hle : mag b <= mag a) by (destruct (negative a); [apply Z.ltb_ge in Ec; lia|apply negb_false_iff, Z.ltb_lt in Ec; lia]).
          destruct (sub_mag_spec a (limbs b)) as (r & Er & Hr & Hv); [right; apply Ha|apply Hb|unfold mag in *; lia|].
          rewrite Er. apply gives_ok; auto. rewrite Hv, Va, Vb, <- Es. fold (mag b). destruct (negative a); lia.
      - destruct (add_mag_spec a b (proj1 Ha) (proj1 Hb)) as (H1 & H2 & H3). apply gives_ok.
        + split; auto. intros E. exfalso. apply (cmag_zero W HW) in E; auto. fold (mag (b_add_mag W a (limbs b))) in E. lia.
        + unfold bval at 1. rewrite H2, H3, Va, Vb. destruct (negative a), (negative b); cbn in Es; try discriminate; lia. }
    destruct (int_of_cases (bval a)) as [(Ea & Fa)|[(Ea & Sa & Fa)|(Ea & Fa)]]; rewrite Ea; cbn [bind catching]; [exact Path|cbn; auto|].
    destruct (int_of_cases (bval b)) as [(Eb & Fb)|[(Eb & Sb & Fb)|(Eb & Fb)]]; rewrite Eb; cbn [bind catching]; [exact Path|cbn; auto|].
    apply fits32 in Fa. apply fits32 in Fb. unfold i_sub, i_add. rewrite max32, min32.
    assert (Over : (if bval b <? 0 then do d <- ck 32 (2147483647 + bval b); Ok (bval a >? d) else Ok false) =
      Ok ((bval b <? 0) && (2147483647 <? bval a - bval b))).
    { destruct (Z.ltb_spec (bval b) 0); cbn [andb]; auto. rewrite ck32 by lia. cbn [bind]. f_equal. rewrite Z.gtb_ltb.
      destruct (Z.ltb_spec (2147483647 + bval b) (bval a)); symmetry; [apply Z.ltb_lt|apply Z.ltb_ge]; lia. }
    rewrite Over. cbn [bind].
    destruct ((bval b <? 0) && (2147483647 <? bval a - bval b)) eqn:Eo; cbn [bind catching]; [exact Path|].
    assert (Under : (if bval b >? 0 then do d <- ck 32 (-2147483648 + bval b); Ok (bval a <? d) else Ok false) =
      Ok ((0 <? bval b) && (bval a - bval b <? -2147483648))).
    { rewrite Z.gtb_ltb. destruct (Z.ltb_spec 0 (bval b)); cbn [andb]; auto. rewrite ck32 by lia. cbn [bind]. f_equal.
      destruct (Z.ltb_spec (bval a) (-2147483648 + bval b)); symmetry; [apply Z.ltb_lt|apply Z.ltb_ge]; lia. }
    rewrite Under. cbn [bind].
    destruct ((0 <? bval b) && (bval a - bval b <? -2147483648)) eqn:Eu; cbn [bind catching]; [exact Path|].
    assert (Hin : -2147483648 <= bval a - bval b <= 2147483647).
    { destruct (Z.ltb_spec (bval b) 0), (Z.ltb_spec 0 (bval b)), (Z.ltb_spec 2147483647 (bval a - bval b)),
        (Z.ltb_spec (bval a - bval b) (-2147483648)); cbn in Eo, Eu; try discriminate; lia. }
    rewrite ck32 by auto. cbn [bind catching]. destruct (of_int_spec (bval a - bval b)) as (H1 & H2); [apply fits32; auto|]. apply gives_ok; auto.
  Qed.
End Big.
