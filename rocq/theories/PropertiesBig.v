(** * PropertiesBig: arbitrary precision integers (C14 - C19) and the runs that use them (C42). *)
From Coq Require Import List ZArith Bool Lia.
From Verif Require Import Base Spec ArithModel IntTypes FmeModel Samples FmeTheorems BigArith SafeIntModel BigIntModel BigIntLimbs BigIntProofs BigIntMul BigIntDiv.
Import ListNotations.
Open Scope Z_scope.

(** ** Specification *)
(** The number written with the digits [l] to the base 2^[W], least significant first. *)
Definition digits (W : nat) (l : list Z) : Z := fold_right (fun d rest => d + 2 ^ Z.of_nat W * rest) 0 l.
(** An object in canonical form: at least one digit, digits in range, no leading zero, no negative zero. *)
Definition well_formed (W : nat) (a : big) : Prop :=
  limbs a <> [] /\ (forall d, In d (limbs a) -> 0 <= d < 2 ^ Z.of_nat W) /\
  (length (limbs a) = 1%nat \/ last (limbs a) 0 <> 0) /\ (limbs a = [0] -> negative a = false).
(** [a] is the canonical object for the integer [z]. *)
Definition represents (W : nat) (a : big) (z : Z) : Prop :=
  well_formed W a /\ z = (if negative a then -1 else 1) * digits W (limbs a).
Definition INT_MIN : Z := - 2 ^ 31.
Definition INT_MAX : Z := 2 ^ 31 - 1.

Lemma digits_lval W l : digits W l = lval W l.
Proof. induction l as [|x l IH]; cbn [digits fold_right lval]; [reflexivity|]. fold (digits W l). rewrite IH. reflexivity. Qed.
Lemma represents_iff W a z : represents W a z <-> canonical W a /\ z = bval W a.
Proof.
  unfold represents, well_formed, canonical, cmag, in_range, bval, mag. rewrite digits_lval, Forall_forall. fold (base W).
  assert (E : forall n x, (if n : bool then -1 else 1) * x = if n then - x else x) by (intros [|] x; lia). rewrite E. intuition.
Qed.
Lemma min_eq : int_min 32 = INT_MIN. Proof. reflexivity. Qed.
Lemma gives_represents W strict (P : Prop) m v : (strict = false \/ ~ P) -> gives W strict P m v -> exists r, m = Ok r /\ represents W r v.
Proof.
  intros H. destruct m as [r| |]; cbn; intros G; [|contradiction|].
  - exists r. split; auto. apply represents_iff. destruct G. auto.
  - destruct G as (-> & G). destruct H; [discriminate|contradiction].
Qed.

(** (For the examples.) *)
Lemma represents_check W a z : negb (Nat.eqb (length (limbs a)) 0) && forallb (fun d => (0 <=? d) && (d <? 2 ^ Z.of_nat W)) (limbs a) &&
  (Nat.eqb (length (limbs a)) 1 || negb (last (limbs a) 0 =? 0)) && (negb (last (limbs a) 0 =? 0) || negb (negative a)) &&
  (z =? (if negative a then -1 else 1) * digits W (limbs a)) = true -> represents W a z.
Proof.
  rewrite !andb_true_iff, !orb_true_iff, !negb_true_iff, Nat.eqb_neq, forallb_forall, Nat.eqb_eq, !Z.eqb_neq, Z.eqb_eq.
  intros ((((H1 & H2) & H3) & H4) & H5). split; auto. split; [intros E; rewrite E in H1; auto|]. split; [|split; auto].
  - intros d Hd. apply H2 in Hd. rewrite andb_true_iff, Z.leb_le, Z.ltb_lt in Hd. auto.
  - intros E. rewrite E in H4. cbn in H4. destruct H4; [lia|auto].
Qed.

(** In all theorems [W] is the number of bits of a digit ([uint_fast32_t]); [strict = true]: [-INT_MIN] is undefined, [strict = false]: it wraps. *)

(** ** C14 *)
Theorem C14_add : forall W strict a b x y, (32 <= W)%nat -> represents W a x -> represents W b y ->
  (strict = false \/ (x <> INT_MIN /\ y <> INT_MIN)) ->
  exists r, b_add W strict a b = Ok r /\ represents W r (x + y).
Proof.
  intros W strict a b x y HW Ha Hb Hs. apply represents_iff in Ha, Hb. destruct Ha as (Ha & ->), Hb as (Hb & ->).
  eapply gives_represents; [|apply b_add_spec; auto]. rewrite min_eq. tauto.
Qed.
Print Assumptions C14_add.
Theorem C14_sub : forall W strict a b x y, (32 <= W)%nat -> represents W a x -> represents W b y ->
  (strict = false \/ (x <> INT_MIN /\ y <> INT_MIN)) ->
  exists r, b_sub W strict a b = Ok r /\ represents W r (x - y).
Proof.
  intros W strict a b x y HW Ha Hb Hs. apply represents_iff in Ha, Hb. destruct Ha as (Ha & ->), Hb as (Hb & ->).
  eapply gives_represents; [|apply b_sub_spec; auto]. rewrite min_eq. tauto.
Qed.
Print Assumptions C14_sub.
Theorem C14_negate_abs : forall W a x, (32 <= W)%nat -> represents W a x -> represents W (b_neg a) (- x) /\ represents W (b_abs a) (Z.abs x).
Proof.
  intros W a x HW Ha. apply represents_iff in Ha. destruct Ha as (Ha & ->). destruct (flip_spec W HW a Ha), (abs_spec W HW a Ha).
  split; apply represents_iff; auto.
Qed.
Print Assumptions C14_negate_abs.
(** The exclusion is needed: by the letter of the standard the operand -2^31 is undefined. *)
Theorem C14_int_min_undefined : b_add 64 true (b_of_signed 64 INT_MIN) (b_of_signed 64 1) = UB.
Proof. reflexivity. Qed.
Print Assumptions C14_int_min_undefined.
(** A carry through three digits, and back. *)
Example C14_instance :
  let a := mk_big false [2 ^ 64 - 1; 2 ^ 64 - 1; 2 ^ 64 - 1] in
  represents 64 a (2 ^ 192 - 1) /\ represents 64 (b_of_signed 64 1) 1 /\
  b_add 64 true a (b_of_signed 64 1) = Ok (mk_big false [0; 0; 0; 1]) /\
  b_sub 64 true (mk_big false [0; 0; 0; 1]) (b_of_signed 64 1) = Ok a.
Proof.
  split; [|split; [|split; reflexivity]]; apply represents_check; reflexivity.
Qed.

(** ** C15 *)
Theorem C15_mul : forall W strict a b x y, (32 <= W)%nat -> represents W a x -> represents W b y ->
  (strict = false \/ (y <> INT_MIN /\ ~ (x < 0 /\ (x | 2 ^ 31)))) ->
  exists r, b_mul W strict a b = Ok r /\ represents W r (x * y).
Proof.
  intros W strict a b x y HW Ha Hb Hs. apply represents_iff in Ha, Hb. destruct Ha as (Ha & ->), Hb as (Hb & ->).
  eapply gives_represents; [|apply b_mul_spec; auto]. unfold mul_undefined. rewrite min_eq. tauto.
Qed.
Print Assumptions C15_mul.
(** -2 * (2^31 + 2^30): the intermediate sum -2^31 is converted to [int]. *)
Theorem C15_int_min_undefined : b_mul 64 true (b_of_signed 64 (-2)) (b_of_unsigned 64 3221225472) = UB.
Proof. vm_compute. reflexivity. Qed.
Print Assumptions C15_int_min_undefined.
Example C15_instance :
  b_mul 64 true (mk_big true [5; 7]) (mk_big false [2 ^ 63; 3]) = Ok (mk_big true [2 ^ 63; 2 ^ 63 + 17; 24]) /\
  represents 64 (mk_big true [5; 7]) (- (5 + 7 * 2 ^ 64)) /\ ~ (- (5 + 7 * 2 ^ 64) < 0 /\ (- (5 + 7 * 2 ^ 64) | 2 ^ 31)).
Proof.
  split; [vm_compute; reflexivity|]. split.
  - apply represents_check. reflexivity.
  - intros (_ & H). apply Z.divide_abs_l, Z.divide_pos_le in H; [|reflexivity]. vm_compute in H. apply H. reflexivity.
Qed.

(** ** C16 *)
(** Truncation towards zero. *)
Definition truncated (x y q : Z) : Prop := Z.abs q = Z.abs x / Z.abs y /\ (q = 0 \/ Z.sgn q = Z.sgn x * Z.sgn y).
Lemma quot_truncated x y : y <> 0 -> truncated x y (Z.quot x y).
Proof.
  intros Hy. assert (Q := Z.quot_abs x y Hy). assert (D := quot_abs x y Hy). rewrite Z.quot_div_nonneg in Q by lia. split; [lia|].
  assert (0 <= Z.abs x / Z.abs y) by (apply Z.div_pos; lia). destruct (Z.eq_dec (Z.quot x y) 0) as [E|E]; [left; auto|right].
  assert (x <> 0) by (intros ->; apply E; apply Z.quot_0_l; auto).
  destruct (Z.ltb_spec x 0), (Z.ltb_spec y 0); cbn [Bool.eqb] in D; lia.
Qed.
(** The operands for which the program computes the wrong sign: a negative dividend, at least one operand outside [int], quotient
    neither 0 nor 1 by the shortcuts. *)
Definition wrong_sign (x y : Z) : Prop :=
  x < 0 /\ ~ (INT_MIN <= x <= INT_MAX /\ INT_MIN <= y <= INT_MAX) /\ Z.abs y <= Z.abs x /\ x <> y /\ y <> 1 /\ y <> -1.
Lemma wrong_sign_iff x y : bad_quotient x y = true <-> wrong_sign x y.
Proof.
  unfold bad_quotient, wrong_sign. rewrite !andb_true_iff, !negb_true_iff, Z.ltb_lt, Z.leb_le, !Z.eqb_neq, <- not_true_iff_false, andb_true_iff, !fits32.
  change INT_MIN with (-2147483648). change INT_MAX with 2147483647. tauto.
Qed.
Definition division_defined (strict : bool) (x y : Z) : Prop :=
  strict = false \/ (x <> INT_MIN /\ y <> INT_MIN /\ ~ (x < 0 /\ Z.abs x mod Z.abs y = 2 ^ 31)).

(** What is missing: the quotients with [wrong_sign]. *)
Theorem C16_div_partial : forall W strict a b x y, (32 <= W)%nat -> represents W a x -> represents W b y -> y <> 0 -> division_defined strict x y ->
  ~ wrong_sign x y -> exists r q, b_div W strict a b = Ok r /\ represents W r q /\ truncated x y q.
Proof.
  intros W strict a b x y HW Ha Hb Hy Hs Hw. apply represents_iff in Ha, Hb. destruct Ha as (Ha & ->), Hb as (Hb & ->).
  assert (G := b_div_spec W strict HW a b Ha Hb Hy). apply gives_represents in G; [|unfold div_undefined, division_defined in *; rewrite min_eq; tauto]. destruct G as (r & E & R).
  exists r. eexists. split; [exact E|]. split; [exact R|]. unfold quotient_of. rewrite <- wrong_sign_iff in Hw. destruct (bad_quotient _ _); [congruence|]. apply quot_truncated. auto.
Qed.
Print Assumptions C16_div_partial.
Theorem C16_div_by_zero : forall W strict a b, (32 <= W)%nat -> represents W b 0 -> b_div W strict a b = Throw.
Proof. intros W strict a b HW Hb. apply represents_iff in Hb. destruct Hb as (Hb & E). apply b_div_zero; auto. Qed.
Print Assumptions C16_div_by_zero.
(** The full statement is false: all quotients with [wrong_sign] are the negated quotients. *)
Theorem C16_wrong_sign : forall W strict a b x y, (32 <= W)%nat -> represents W a x -> represents W b y -> y <> 0 -> division_defined strict x y ->
  wrong_sign x y -> exists r q, b_div W strict a b = Ok r /\ represents W r (- q) /\ truncated x y q /\ q <> 0.
Proof.
  intros W strict a b x y HW Ha Hb Hy Hs Hw. apply represents_iff in Ha, Hb. destruct Ha as (Ha & ->), Hb as (Hb & ->).
  assert (G := b_div_spec W strict HW a b Ha Hb Hy). apply gives_represents in G; [|unfold div_undefined, division_defined in *; rewrite min_eq; tauto]. destruct G as (r & E & R).
  exists r, (Z.quot (bval W a) (bval W b)). split; [exact E|]. split.
  - unfold quotient_of in R. assert (Hb' := Hw). apply wrong_sign_iff in Hb'. rewrite Hb' in R. exact R.
  - split; [apply quot_truncated; auto|]. destruct Hw as (Hx & _ & Hle & _). intros E0. assert (Q := Z.quot_abs (bval W a) (bval W b) Hy).
    rewrite E0, Z.quot_div_nonneg in Q by lia. cbn in Q. assert (1 <= Z.abs (bval W a) / Z.abs (bval W b)) by (apply Z.div_le_lower_bound; lia). lia.
Qed.
Print Assumptions C16_wrong_sign.
(** (-2^70) / 2 = 2^69. *)
Theorem C16_refuted : ~ (forall a b x y, represents 64 a x -> represents 64 b y -> y <> 0 -> division_defined true x y ->
  exists r q, b_div 64 true a b = Ok r /\ represents 64 r q /\ truncated x y q).
Proof.
  intros H. destruct (H (mk_big true [0; 64]) (mk_big false [2]) (- 2 ^ 70) 2) as (r & q & E & R & T).
  - apply represents_check. reflexivity.
  - apply represents_check. reflexivity.
  - discriminate.
  - right. split; [discriminate|]. split; [discriminate|]. intros (_ & K). discriminate.
  - vm_compute in E. injection E as <-. destruct R as (_ & ->), T as (_ & [T|T]); discriminate.
Qed.
Print Assumptions C16_refuted.
Example C16_instance : b_div 64 true (mk_big false [5; 6; 8]) (mk_big true [3; 4]) = Ok (mk_big true [0; 2]) /\
  ~ wrong_sign (5 + 6 * 2 ^ 64 + 8 * 2 ^ 128) (- (3 + 4 * 2 ^ 64)).
Proof. split; [vm_compute; reflexivity|]. intros (H & _). discriminate. Qed.

(** ** C17 *)
Definition modulo_defined (strict : bool) (x y : Z) : Prop := strict = false \/ (x <> INT_MIN /\ ~ (x < 0 /\ Z.abs x mod y = 2 ^ 31)).
(** What is missing: in range for negative dividends.  The result is congruent, and in (-y, y]; it is y for multiples of y and
    it may be negative if an operand is outside [int]. *)
Theorem C17_mod_partial : forall W strict a b x y, (32 <= W)%nat -> represents W a x -> represents W b y -> 0 < y -> modulo_defined strict x y ->
  exists r z, b_mod W strict a b = Ok r /\ represents W r z /\ (y | x - z) /\ - y < z <= y /\
    (0 <= x -> 0 <= z < y) /\
    (x < 0 -> ~ (y | x) -> (INT_MIN <= x <= INT_MAX /\ INT_MIN <= y <= INT_MAX) \/ y <= - x -> 0 <= z < y).
Proof.
  intros W strict a b x y HW Ha Hb Hy Hs. apply represents_iff in Ha, Hb. destruct Ha as (Ha & ->), Hb as (Hb & ->).
  assert (G := b_mod_spec W strict HW a b Ha Hb Hy). apply gives_represents in G; [|unfold mod_undefined, modulo_defined in *; rewrite min_eq; tauto]. destruct G as (r & E & R).
  exists r, (remainder_of (bval W a) (bval W b)). split; [exact E|]. split; [exact R|]. clear E R Hs Ha Hb.
  remember (bval W a) as x. remember (bval W b) as y. clear Heqx Heqy. unfold remainder_of.
  assert (M1 := Z.mod_pos_bound x y Hy). assert (D1 := Z.div_mod x y ltac:(lia)). assert (M2 := Z.mod_pos_bound (Z.abs x) y Hy). assert (D2 := Z.div_mod (Z.abs x) y ltac:(lia)).
  destruct (Z.leb_spec 0 x) as [Hx|Hx].
  - split; [exists (x / y); lia|]. split; [lia|]. split; lia.
  - destruct (negb (fits 32 x && fits 32 y) && (Z.abs x <? y)) eqn:Ec.
    + apply andb_true_iff in Ec. destruct Ec as (Ec & El). apply Z.ltb_lt in El. apply negb_true_iff in Ec.
      split; [exists 0; lia|]. split; [lia|]. split; [lia|]. intros _ _ [(K1 & K2)|K]; [|lia]. exfalso. apply not_true_iff_false in Ec. apply Ec.
      apply andb_true_iff. rewrite !fits32. change INT_MIN with (-2147483648) in *. change INT_MAX with 2147483647 in *. lia.
    + split; [exists (- (Z.abs x / y) - 1); lia|]. split; [lia|]. split; [lia|]. intros _ Hnd _. split; [lia|]. assert (Z.abs x mod y <> 0); [|lia].
      intros E0. apply Hnd. exists (- (Z.abs x / y)). lia.
Qed.
Print Assumptions C17_mod_partial.
Theorem C17_not_positive : forall W strict a b y, (32 <= W)%nat -> represents W b y -> y <= 0 -> b_mod W strict a b = Throw.
Proof. intros W strict a b y HW Hb Hy. apply represents_iff in Hb. destruct Hb as (Hb & ->). apply b_mod_nonpositive; auto. Qed.
Print Assumptions C17_not_positive.
(** The full statement is false: (-6) % 3 = 3, and (-1) % 2^64 = -1. *)
Theorem C17_refuted : ~ (forall a b x y, represents 64 a x -> represents 64 b y -> 0 < y -> modulo_defined true x y ->
  exists r z, b_mod 64 true a b = Ok r /\ represents 64 r z /\ 0 <= z < y).
Proof.
  intros H. destruct (H (mk_big true [6]) (mk_big false [3]) (-6) 3) as (r & z & E & (_ & R) & T).
  - apply represents_check. reflexivity.
  - apply represents_check. reflexivity.
  - reflexivity.
  - right. split; [discriminate|]. intros (_ & K). discriminate.
  - vm_compute in E. injection E as <-. vm_compute in R. subst z. lia.
Qed.
Print Assumptions C17_refuted.
Theorem C17_negative_remainder : b_mod 64 true (mk_big true [1]) (mk_big false [0; 1]) = Ok (mk_big true [1]).
Proof. vm_compute. reflexivity. Qed.
Print Assumptions C17_negative_remainder.
Example C17_instance : b_mod 64 true (mk_big true [7; 9]) (mk_big false [2; 4]) = Ok (mk_big false [2 ^ 64 - 1; 2]) /\
  represents 64 (mk_big true [7; 9]) (- (7 + 9 * 2 ^ 64)) /\ modulo_defined true (- (7 + 9 * 2 ^ 64)) (2 + 4 * 2 ^ 64).
Proof.
  split; [vm_compute; reflexivity|]. split.
  - apply represents_check. reflexivity.
  - right. split; [discriminate|]. intros (_ & K). discriminate.
Qed.

(** ** C18 *)
Theorem C18_compare : forall W a b x y, (32 <= W)%nat -> represents W a x -> represents W b y ->
  (b_eq a b = true <-> x = y) /\ (b_ne a b = true <-> x <> y) /\ (b_lt a b = true <-> x < y) /\
  (b_gt a b = true <-> x > y) /\ (b_le a b = true <-> x <= y) /\ (b_ge a b = true <-> x >= y).
Proof.
  intros W a b x y HW Ha Hb. apply represents_iff in Ha, Hb. destruct Ha as (Ha & ->), Hb as (Hb & ->).
  unfold b_ne, b_le, b_ge, b_gt. rewrite !(eq_spec W HW), !(lt_spec W HW) by auto. rewrite !negb_true_iff, !Z.eqb_eq, !Z.eqb_neq, !Z.ltb_lt, !Z.ltb_ge. lia.
Qed.
Print Assumptions C18_compare.
(** What is missing: the comparison with [INT_MIN]. *)
Theorem C18_compare_int_partial : forall W strict a x v, (32 <= W)%nat -> represents W a x -> INT_MIN < v <= INT_MAX ->
  exists eq ne lt gt le ge,
    b_eqi W strict a v = Ok eq /\ b_nei W strict a v = Ok ne /\ b_lti W strict a v = Ok lt /\
    b_gti W strict a v = Ok gt /\ b_lei W strict a v = Ok le /\ b_gei W strict a v = Ok ge /\
    (eq = true <-> x = v) /\ (ne = true <-> x <> v) /\ (lt = true <-> x < v) /\ (gt = true <-> x > v) /\ (le = true <-> x <= v) /\ (ge = true <-> x >= v).
Proof.
  intros W strict a x v HW Ha Hv. apply represents_iff in Ha. destruct Ha as (Ha & ->).
  change INT_MIN with (-2147483648) in Hv. change INT_MAX with 2147483647 in Hv.
  assert (F : fits 32 v = true) by (apply fits32; lia). assert (M : v <> int_min 32) by (rewrite min32; lia).
  unfold b_nei, b_lei, b_gei. rewrite (eqi_spec W strict HW a v Ha F M), (lti_spec W strict HW a v Ha F M), (gti_spec W strict HW a v Ha F M). cbn [bind].
  do 6 eexists. do 6 (split; [reflexivity|]). rewrite !negb_true_iff, !Z.eqb_eq, !Z.eqb_neq, !Z.ltb_lt, !Z.ltb_ge. lia.
Qed.
Print Assumptions C18_compare_int_partial.
(** BigInteger(INT_MIN) == INT_MIN: undefined, and false on a machine that wraps, because |INT_MIN| is INT_MIN there. *)
Theorem C18_int_min_refuted : b_eqi 64 true (b_of_signed 64 INT_MIN) INT_MIN = UB /\ b_eqi 64 false (b_of_signed 64 INT_MIN) INT_MIN = Ok false /\
  represents 64 (b_of_signed 64 INT_MIN) INT_MIN.
Proof.
  split; [reflexivity|]. split; [reflexivity|]. apply represents_check. reflexivity.
Qed.
Print Assumptions C18_int_min_refuted.

(** ** C19 *)
(** Everything that can be computed from built-in integers (whose magnitude is less than 2^[W]). *)
Inductive built (W : nat) (strict : bool) : big -> Prop :=
| built_signed v : - 2 ^ Z.of_nat W < v < 2 ^ Z.of_nat W -> built W strict (b_of_signed W v)
| built_unsigned v : 0 <= v < 2 ^ Z.of_nat W -> built W strict (b_of_unsigned W v)
| built_neg a : built W strict a -> built W strict (b_neg a)
| built_abs a : built W strict a -> built W strict (b_abs a)
| built_add a b r : built W strict a -> built W strict b -> b_add W strict a b = Ok r -> built W strict r
| built_sub a b r : built W strict a -> built W strict b -> b_sub W strict a b = Ok r -> built W strict r
| built_mul a b r : built W strict a -> built W strict b -> b_mul W strict a b = Ok r -> built W strict r
| built_div a b r : built W strict a -> built W strict b -> b_div W strict a b = Ok r -> built W strict r
| built_mod a b r : built W strict a -> built W strict b -> b_mod W strict a b = Ok r -> built W strict r.
Lemma well_formed_iff W a : well_formed W a <-> canonical W a.
Proof.
  split; intros H.
  - apply (represents_iff W a ((if negative a then -1 else 1) * digits W (limbs a))). split; auto.
  - apply (represents_iff W a (bval W a)). auto.
Qed.
Theorem C19_canonical : forall W strict a, (32 <= W)%nat -> built W strict a -> well_formed W a.
Proof.
  intros W strict a HW H. apply well_formed_iff. induction H as [v H|v H|a H IH|a H IH|a b r Ha IHa Hb IHb E|a b r Ha IHa Hb IHb E|a b r Ha IHa Hb IHb E|a b r Ha IHa Hb IHb E|a b r Ha IHa Hb IHb E].
  - apply of_signed_spec; auto.
  - apply of_unsigned_spec; auto.
  - apply flip_spec; auto.
  - apply abs_spec; auto.
  - assert (G := b_add_spec W strict HW a b IHa IHb). rewrite E in G. apply G.
  - assert (G := b_sub_spec W strict HW a b IHa IHb). rewrite E in G. apply G.
  - assert (G := b_mul_spec W strict HW a b IHa IHb). rewrite E in G. apply G.
  - destruct (Z.eq_dec (bval W b) 0) as [E0|E0]; [rewrite (b_div_zero W strict HW a b IHb E0) in E; discriminate|].
    assert (G := b_div_spec W strict HW a b IHa IHb E0). rewrite E in G. apply G.
  - destruct (Z.le_gt_cases (bval W b) 0) as [E0|E0]; [rewrite (b_mod_nonpositive W strict HW a b IHb E0) in E; discriminate|].
    assert (G := b_mod_spec W strict HW a b IHa IHb ltac:(lia)). rewrite E in G. apply G.
Qed.
Print Assumptions C19_canonical.
(** Canonical objects with the same value are identical. *)
Theorem C19_unique : forall W a b z, (32 <= W)%nat -> represents W a z -> represents W b z -> a = b.
Proof. intros W a b z HW Ha Hb. apply represents_iff in Ha, Hb. apply (canonical_unique W HW); try tauto. destruct Ha, Hb. congruence. Qed.
Print Assumptions C19_unique.
Theorem C19_construct : forall W v, (32 <= W)%nat ->
  (- 2 ^ Z.of_nat W < v < 2 ^ Z.of_nat W -> represents W (b_of_signed W v) v) /\ (0 <= v < 2 ^ Z.of_nat W -> represents W (b_of_unsigned W v) v).
Proof.
  intros W v HW. split; intros Hv; apply represents_iff; [destruct (of_signed_spec W HW v Hv)|destruct (of_unsigned_spec W HW v Hv)]; auto.
Qed.
Print Assumptions C19_construct.
Theorem C19_convert : forall W strict a x, (32 <= W)%nat -> represents W a x ->
  (INT_MIN <= x <= INT_MAX -> strict = false \/ x <> INT_MIN -> b_to_int W strict a = Ok x) /\ (~ (INT_MIN <= x <= INT_MAX) -> b_to_int W strict a = Throw).
Proof.
  intros W strict a x HW Ha. apply represents_iff in Ha. destruct Ha as (Ha & ->). rewrite (to_int_spec W strict HW a Ha). unfold int_of. rewrite min_eq.
  assert (F := fits32 (bval W a)). change INT_MIN with (-2147483648). change INT_MAX with 2147483647. destruct (fits 32 (bval W a)); split; intros H; auto.
  - intros [->|Hn]; [reflexivity|]. replace (bval W a =? -2147483648) with false by (symmetry; apply Z.eqb_neq; auto). rewrite andb_false_r. reflexivity.
  - exfalso. apply H, F. reflexivity.
  - apply F in H. discriminate.
Qed.
Print Assumptions C19_convert.
Theorem C19_round_trip : forall W strict v, (32 <= W)%nat -> INT_MIN <= v <= INT_MAX -> strict = false \/ v <> INT_MIN -> b_to_int W strict (b_of_signed W v) = Ok v.
Proof.
  intros W strict v HW Hv Hs. apply (C19_convert W strict (b_of_signed W v) v HW); auto. apply C19_construct; auto. assert (B := base_big W HW). unfold base in B.
  change INT_MIN with (-2147483648) in *. change INT_MAX with 2147483647 in *. lia.
Qed.
Print Assumptions C19_round_trip.
Example C19_instance : built 64 true (mk_big true [0; 64]).
Proof.
  apply (built_mul 64 true (b_of_signed 64 (- 2 ^ 60)) (b_of_signed 64 1024)); [apply built_signed; lia|apply built_signed; lia|vm_compute; reflexivity].
Qed.

(** ** C42: facets with the option "-i inf" *)
(** False.  The triangle with the corners (0,0), (100000,0), (0,100000): the run ends normally and one of the printed inequalities,
    x + y <= -100000, is violated by all corners, although all numbers of the input and of the right output are small.  *)
Theorem C42_inf_refuted : exists V F f,
  rows_representable INT32 V /\ dims 3 V /\ homogenised 3 V /\
  m_fme BIG sorted_order (big_rows V) = Ok F /\ In f (rows_of F) /\ (forall v, In v V -> dot f v > 0) /\
  m_fme (arith EXACT) sorted_order V = Ok [[-1; 0; 0]; [0; -1; 0]; [1; 1; -100000]].
Proof.
  exists [[0; 0; 1]; [100000; 0; 1]; [0; 100000; 1]].
  exists [[mk_big true [1]; mk_big false [0]; mk_big false [0]]; [mk_big false [0]; mk_big true [1]; mk_big false [0]]; [mk_big false [1]; mk_big false [1]; mk_big false [100000]]].
  exists [1; 1; 100000].
  split; [solve_rows|]. split; [solve_rows|]. split.
  { split; [intros v Hv; cbn in Hv; intuition (subst; cbn; lia)|]. exists [0; 0; 1]. split; [cbn; tauto|cbn; lia]. }
  split; [vm_compute; reflexivity|]. split; [cbn; tauto|]. split; [|vm_compute; reflexivity].
  intros v Hv. cbn in Hv. intuition (subst; cbn; lia).
Qed.
Print Assumptions C42_inf_refuted.
