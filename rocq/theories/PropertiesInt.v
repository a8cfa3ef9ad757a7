(** * PropertiesInt: SafeInteger is exact or throws (C20). *)
From Coq Require Import ZArith Bool Lia.
From Verif Require Import Base SafeIntModel SafeIntProofs.
Open Scope Z_scope.

(** Values of [int64_t] and of [int]. *)
Definition in64 (z : Z) : Prop := - 2 ^ 63 <= z <= 2 ^ 63 - 1.
Definition in32 (z : Z) : Prop := - 2 ^ 31 <= z <= 2 ^ 31 - 1.

(** Outcome [r] of an operation whose mathematical result is [z]: exactly [z] if that is an [int64_t], else an exception
    (in particular never undefined behaviour). *)
Definition exactly (r : res Z) (z : Z) : Prop := (in64 z -> r = Ok z) /\ (~ in64 z -> r = Throw).

Lemma in64_fits z : in64 z <-> fits 64 z = true.
Proof. rewrite fits64. unfold in64. change (2 ^ 63) with 9223372036854775808. lia. Qed.
Lemma in32_fits z : in32 z <-> fits 32 z = true.
Proof.
  unfold in32, fits. change (int_min 32) with (-2147483648). change (int_max 32) with 2147483647.
  change (2 ^ 31) with 2147483648. rewrite andb_true_iff, !Z.leb_le. lia.
Qed.
Lemma exactly_spec r z : r = exact_or_throw z -> exactly r z.
Proof.
  intros ->. unfold exactly, exact_or_throw. rewrite in64_fits.
  destruct (fits 64 z); split; intros H; auto; try discriminate; exfalso; apply H; auto.
Qed.

Theorem C20_add : forall a b, in64 a -> in64 b -> exactly (si_add a b) (a + b).
Proof. intros a b Ha Hb. apply in64_fits in Ha, Hb. apply exactly_spec, si_add_spec; auto. Qed.
Print Assumptions C20_add.

Theorem C20_sub : forall a b, in64 a -> in64 b -> exactly (si_sub a b) (a - b).
Proof. intros a b Ha Hb. apply in64_fits in Ha, Hb. apply exactly_spec, si_sub_spec; auto. Qed.
Print Assumptions C20_sub.

Theorem C20_mul : forall a b, in64 a -> in64 b -> exactly (si_mul a b) (a * b).
Proof. intros a b Ha Hb. apply in64_fits in Ha, Hb. apply exactly_spec, si_mul_spec; auto. Qed.
Print Assumptions C20_mul.

(** Division truncates toward zero; dividing by zero throws. *)
Theorem C20_div : forall a b, in64 a -> in64 b ->
  (b = 0 -> si_div a b = Throw) /\ (b <> 0 -> exactly (si_div a b) (Z.sgn a * Z.sgn b * (Z.abs a / Z.abs b))).
Proof.
  intros a b Ha Hb. apply in64_fits in Ha. rewrite (si_div_spec a b Ha). split.
  - intros ->. reflexivity.
  - intros H. apply exactly_spec. destruct (Z.eqb_spec b 0); [lia|]. f_equal. rewrite Z.quot_div; auto.
Qed.
Print Assumptions C20_div.

(** The remainder is the one in [0, b); a modulus that is not positive throws. *)
Theorem C20_mod : forall a b, in64 a -> in64 b ->
  (b <= 0 -> si_mod a b = Throw) /\
  (0 < b -> exists r, si_mod a b = Ok r /\ 0 <= r < b /\ exists q, a = b * q + r).
Proof.
  intros a b Ha Hb. apply in64_fits in Ha, Hb. rewrite si_mod_spec by auto. split.
  - intros H. destruct (Z.ltb_spec 0 b); [lia|auto].
  - intros H. destruct (Z.ltb_spec 0 b); [|lia]. exists (a mod b). split; auto.
    split; [apply Z.mod_pos_bound; auto|]. exists (a / b). apply Z.div_mod. lia.
Qed.
Print Assumptions C20_mod.

Theorem C20_neg_abs : forall a, in64 a -> exactly (si_neg a) (- a) /\ exactly (si_abs a) (Z.abs a).
Proof. intros a Ha. apply in64_fits in Ha. split; apply exactly_spec; [apply si_neg_spec|apply si_abs_spec]; auto. Qed.
Print Assumptions C20_neg_abs.

Theorem C20_compare : forall a b,
  (si_eq a b = true <-> a = b) /\ (si_ne a b = true <-> a <> b) /\ (si_lt a b = true <-> a < b) /\
  (si_gt a b = true <-> a > b) /\ (si_le a b = true <-> a <= b) /\ (si_ge a b = true <-> a >= b) /\
  (si_eqi a b = true <-> a = b) /\ (si_nei a b = true <-> a <> b) /\ (si_lti a b = true <-> a < b) /\
  (si_gti a b = true <-> a > b) /\ (si_lei a b = true <-> a <= b) /\ (si_gei a b = true <-> a >= b).
Proof.
  intros a b. destruct (si_compare_spec a b) as (-> & -> & -> & -> & -> & -> & -> & -> & -> & -> & -> & ->).
  rewrite ?negb_true_iff, ?Z.eqb_eq, ?Z.eqb_neq, ?Z.ltb_lt, ?Z.leb_le, ?Z.gtb_lt, ?Z.geb_le. lia.
Qed.
Print Assumptions C20_compare.

(** Construction from any built-in type of at most 64 bits, and conversion to [int]. *)
Theorem C20_convert : forall v,
  exactly (si_of_signed v) v /\
  (0 <= v < 2 ^ 64 -> exactly (si_of_unsigned v) v) /\
  (in32 v -> si_to_int v = Ok v) /\ (~ in32 v -> si_to_int v = Throw).
Proof.
  intros v. split; [apply exactly_spec, si_of_signed_spec|]. split; [intros H; apply exactly_spec, si_of_unsigned_spec; auto|].
  rewrite si_to_int_spec, in32_fits. destruct (fits 32 v); split; intros H; auto; try discriminate; exfalso; apply H; auto.
Qed.
Print Assumptions C20_convert.

(** The limits: the smallest value has no negative, and the products at the edge are decided correctly. *)
Example C20_example :
  in64 (- 2 ^ 63) /\ si_neg (- 2 ^ 63) = Throw /\ si_mul (- 2 ^ 63) (-1) = Throw /\ si_mul (- 2 ^ 62) 2 = Ok (- 2 ^ 63) /\
  si_div (- 2 ^ 63) (-1) = Throw /\ si_add (2 ^ 63 - 1) 1 = Throw /\ si_sub (-1) (2 ^ 63 - 1) = Ok (- 2 ^ 63) /\
  si_mod (-7) 3 = Ok 2.
Proof. repeat split; try reflexivity; unfold in64; lia. Qed.
