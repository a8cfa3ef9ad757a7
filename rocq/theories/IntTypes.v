(** * IntTypes: the built-in integer types, SafeInteger and ideal integers as instances of [Arith].

    integer_type_selection.tpp offers int16_t, int (the default and "-i 32"), int64_t, SafeInteger and BigInteger.  The first four are
    here, with [EXACT] as an idealised type without bounds; BigInteger is modelled in BigIntModel. *)
From Coq Require Import List ZArith Bool Lia.
From Verif Require Import Base Spec ArithModel Refine SafeIntModel SafeIntProofs.
Import ListNotations.
Open Scope Z_scope.

(** All of them are represented by the integer they denote. *)
Record zops := mk_zops {
  z_lit : Z -> Z;
  z_neg : Z -> res Z;
  z_add : Z -> Z -> res Z;
  z_sub : Z -> Z -> res Z;
  z_mul : Z -> Z -> res Z;
  z_div : Z -> Z -> res Z;
  z_mod : Z -> Z -> res Z;
  z_abs : Z -> res Z
}.
Definition arith_of (o : zops) : Arith :=
  mk_arith Z (z_lit o) (z_neg o) (z_add o) (z_sub o) (z_mul o) (z_div o) (z_mod o) (z_abs o)
    Z.gtb Z.eqb Z.ltb Z.gtb Z.leb (fun z => Z.to_nat (Z.log2 (Z.abs z) + 1)).

(** int (32 bits) and int64_t: overflow is undefined; [std::abs] of the smallest value is undefined. *)
Definition machine (w : Z) : zops :=
  mk_zops (fun z => z) (i_neg w) (i_add w) (i_sub w) (i_mul w) (i_div w) (i_mod w) (fun a => ck w (Z.abs a)).

(** int16_t: operands are promoted to int (no overflow is possible there), the result is converted back, which keeps
    the value modulo 2^16. *)
Definition wrap16 (z : Z) : Z := wrap_signed 16 z.
Definition short : zops :=
  mk_zops wrap16 (fun a => Ok (wrap16 (- a))) (fun a b => Ok (wrap16 (a + b))) (fun a b => Ok (wrap16 (a - b)))
    (fun a b => Ok (wrap16 (a * b)))
    (fun a b => if b =? 0 then UB else Ok (wrap16 (Z.quot a b)))
    (fun a b => if b =? 0 then UB else Ok (wrap16 (Z.rem a b)))
    (fun a => Ok (wrap16 (Z.abs a))).

Definition safe : zops := mk_zops (fun z => z) si_neg si_add si_sub si_mul si_div si_mod si_abs.

(** Ideal integers: division by zero is undefined. *)
Definition ideal : zops :=
  mk_zops (fun z => z) (fun a => Ok (- a)) (fun a b => Ok (a + b)) (fun a b => Ok (a - b)) (fun a b => Ok (a * b))
    (fun a b => if b =? 0 then UB else Ok (Z.quot a b))
    (fun a b => if b =? 0 then UB else Ok (Z.rem a b))
    (fun a => Ok (Z.abs a)).

Inductive int_type := INT16 | INT32 | INT64 | SAFE | EXACT.
Definition ops (t : int_type) : zops :=
  match t with INT16 => short | INT32 => machine 32 | INT64 => machine 64 | SAFE => safe | EXACT => ideal end.
Definition arith (t : int_type) : Arith := arith_of (ops t).

(** The values of the type. *)
Definition representable (t : int_type) (z : Z) : Prop :=
  match t with
  | INT16 => fits 16 z = true
  | INT32 => fits 32 z = true
  | INT64 | SAFE => fits 64 z = true
  | EXACT => True
  end.
Definition rows_representable (t : int_type) (V : list vec) : Prop := Forall (Forall (representable t)) V.

(** Which failures the type may produce. *)
Definition may_throw (t : int_type) : bool := match t with SAFE => true | _ => false end.
Definition may_be_undefined (t : int_type) : bool := match t with INT32 | INT64 | INT16 => true | _ => false end.

Lemma ck_rel T w z : rel T true (fun r z => fits w r = true /\ r = z) (ck w z) z.
Proof. unfold ck. destruct (fits w z) eqn:E; cbn [rel]; auto. Qed.

Lemma rem_fits w a b : fits w a = true -> 0 <= a -> 0 < b -> fits w (a mod b) = true.
Proof.
  unfold fits. rewrite !andb_true_iff, !Z.leb_le. intros [H1 H2] Ha Hb.
  pose proof (Z.mod_pos_bound a b Hb). pose proof (Z.mod_le a b Ha Hb).
  assert (int_min w <= 0) by (unfold int_min; pose proof (Z.pow_nonneg 2 (w - 1)); lia). lia.
Qed.

Lemma fits_wider w z : 32 <= w -> fits 32 z = true -> fits w z = true.
Proof.
  intros Hw. unfold fits, int_min, int_max. assert (2 ^ (32 - 1) <= 2 ^ (w - 1)) by (apply Z.pow_le_mono_r; lia).
  rewrite !andb_true_iff, !Z.leb_le. lia.
Qed.

Lemma size_ok x : (Z.to_nat (Z.log2 (Z.abs x) + 1) <= Z.to_nat (Z.log2 (Z.abs x) + 1))%nat.
Proof. auto. Qed.

Definition sound_machine (w : Z) (Hw : 32 <= w) : Sound false true (arith_of (machine w)).
Proof.
  refine (mk_sound false true (arith_of (machine w)) (fun z => z) (fun z => fits w z = true) _ _ _ _ _ _ _ _ _ _ _ _ _ _);
    cbn [arith_of num a_lit a_neg a_add a_sub a_mul a_div a_mod a_abs a_gt a_eqi a_lti a_gti a_lei a_size machine
         z_lit z_neg z_add z_sub z_mul z_div z_mod z_abs]; auto.
  - intros z Hz. split; auto. apply fits_wider; auto.
  - intros. apply ck_rel.
  - intros. apply ck_rel.
  - intros. apply ck_rel.
  - intros. apply ck_rel.
  - intros x y _ _ Hy. unfold i_div. destruct (Z.eqb_spec y 0); [lia|]. apply ck_rel.
  - intros x y Hx _ Hx0 Hy. unfold i_mod. destruct (Z.eqb_spec y 0); [lia|].
    destruct (fits w (Z.quot x y)); cbn [rel]; auto. rewrite Z.rem_mod_nonneg by lia. split; auto. apply rem_fits; auto.
  - intros. apply ck_rel.
Defined.

Lemma eot_rel U z : rel true U (fun r z => fits 64 r = true /\ r = z) (exact_or_throw z) z.
Proof. unfold exact_or_throw. destruct (fits 64 z) eqn:E; cbn [rel]; auto. Qed.

Definition sound_safe : Sound true false (arith_of safe).
Proof.
  refine (mk_sound true false (arith_of safe) (fun z => z) (fun z => fits 64 z = true) _ _ _ _ _ _ _ _ _ _ _ _ _ _);
    cbn [arith_of num a_lit a_neg a_add a_sub a_mul a_div a_mod a_abs a_gt a_eqi a_lti a_gti a_lei a_size safe
         z_lit z_neg z_add z_sub z_mul z_div z_mod z_abs]; auto.
  - intros z Hz. split; auto. apply fits_wider; auto. lia.
  - intros. rewrite si_neg_spec by auto. apply eot_rel.
  - intros. rewrite si_add_spec by auto. apply eot_rel.
  - intros. rewrite si_sub_spec by auto. apply eot_rel.
  - intros. rewrite si_mul_spec by auto. apply eot_rel.
  - intros x y Hx _ Hy. rewrite si_div_spec by auto. destruct (Z.eqb_spec y 0); [lia|]. apply eot_rel.
  - intros x y Hx Hy0 Hx0 Hy. rewrite si_mod_spec by auto. destruct (Z.ltb_spec 0 y); [|lia].
    cbn [rel]. split; auto. apply rem_fits; auto.
  - intros. rewrite si_abs_spec by auto. apply eot_rel.
Defined.

Definition sound_ideal : Sound false false (arith_of ideal).
Proof.
  refine (mk_sound false false (arith_of ideal) (fun z => z) (fun z => True) _ _ _ _ _ _ _ _ _ _ _ _ _ _);
    cbn [arith_of num a_lit a_neg a_add a_sub a_mul a_div a_mod a_abs a_gt a_eqi a_lti a_gti a_lei a_size ideal
         z_lit z_neg z_add z_sub z_mul z_div z_mod z_abs rel]; auto.
  - intros x y _ _ Hy. destruct (Z.eqb_spec y 0); [lia|]. cbn [rel]. auto.
  - intros x y _ _ Hx Hy. destruct (Z.eqb_spec y 0); [lia|]. cbn [rel]. split; auto. apply Z.rem_mod_nonneg; lia.
Defined.

(** Every type but int16_t is sound, with its own failures. *)
Definition sound_type (t : int_type) : t <> INT16 -> Sound (may_throw t) (may_be_undefined t) (arith t).
Proof.
  destruct t; intros H.
  - exfalso. apply H. reflexivity.
  - apply (sound_machine 32). lia.
  - apply (sound_machine 64). lia.
  - apply sound_safe.
  - apply sound_ideal.
Defined.

(** [arith t] works on integers. *)
Lemma vec_rel t (H : t <> INT16) (v : vec) : Forall (representable t) v -> rowr (sound_type t H) v v.
Proof.
  intros Hv. unfold rowr. destruct t; [exfalso; auto|..];
    (induction Hv as [|x v Hx _ IH]; constructor; [split; [exact Hx|reflexivity]|exact IH]).
Qed.
Lemma rows_rel t (H : t <> INT16) (V : list vec) : rows_representable t V -> matr (sound_type t H) V V.
Proof. induction 1 as [|v V Hv _ IH]; constructor; auto. apply vec_rel. auto. Qed.

Lemma rel_vec t (H : t <> INT16) (v : vec) (w : vec) : rowr (sound_type t H) v w -> v = w /\ Forall (representable t) v.
Proof.
  unfold rowr. destruct t; [exfalso; auto|..];
    (induction 1 as [|x y v w [Hx Hy] _ [IH1 IH2]]; [split; constructor|];
     change (x = y) in Hy; subst y; split; [f_equal; auto|constructor; auto]).
Qed.
Lemma rel_rows t (H : t <> INT16) (V W : list vec) : matr (sound_type t H) V W -> V = W /\ rows_representable t V.
Proof.
  induction 1 as [|v w V W Hv _ [IH1 IH2]]; [split; constructor|].
  destruct (rel_vec t H v w Hv). split; [f_equal; auto|constructor; auto].
Qed.
