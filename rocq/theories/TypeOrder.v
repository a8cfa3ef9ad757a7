(** * TypeOrder: which integer types correspond to each other in the sense of Param. *)
From Coq Require Import List ZArith Arith Lia Bool.
From Verif Require Import Base Spec ListUtil ArithModel SafeIntModel SafeIntProofs IntTypes BigIntModel BigIntLimbs BigIntProofs BigIntMul BigIntDiv BigArith Param.
Import ListNotations.
Open Scope Z_scope.

(** What an operation of the type [t] whose exact result is [z] does: it returns [z] if that is a value of the type, and nothing else otherwise. *)
Definition exactly (t : int_type) (m : res Z) (z : Z) : Prop := match m with Ok r => r = z /\ representable t z | _ => ~ representable t z end.
Lemma ck_exactly w t z : (representable t z <-> fits w z = true) -> exactly t (ck w z) z.
Proof. intros H. unfold ck. destruct (fits w z) eqn:E; cbn [exactly]; rewrite H; auto; congruence. Qed.
Lemma eot_exactly z : exactly SAFE (exact_or_throw z) z.
Proof. unfold exact_or_throw. destruct (fits 64 z) eqn:E; cbn [exactly representable]; auto; congruence. Qed.
Ltac ops := cbn [ops machine safe ideal z_lit z_neg z_add z_sub z_mul z_div z_mod z_abs exactly representable] in *.
Lemma neg_exactly t x : t <> INT16 -> representable t x -> exactly t (z_neg (ops t) x) (- x).
Proof. intros H Hx. destruct t; ops; auto; [congruence|apply (ck_exactly 32); ops; tauto|apply (ck_exactly 64); ops; tauto|]. rewrite si_neg_spec by auto. apply eot_exactly. Qed.
Lemma abs_exactly t x : t <> INT16 -> representable t x -> exactly t (z_abs (ops t) x) (Z.abs x).
Proof. intros H Hx. destruct t; ops; auto; [congruence|apply (ck_exactly 32); ops; tauto|apply (ck_exactly 64); ops; tauto|]. rewrite si_abs_spec by auto. apply eot_exactly. Qed.
Lemma add_exactly t x y : t <> INT16 -> representable t x -> representable t y -> exactly t (z_add (ops t) x y) (x + y).
Proof. intros H Hx Hy. destruct t; ops; auto; [congruence|apply (ck_exactly 32); ops; tauto|apply (ck_exactly 64); ops; tauto|]. rewrite si_add_spec by auto. apply eot_exactly. Qed.
Lemma sub_exactly t x y : t <> INT16 -> representable t x -> representable t y -> exactly t (z_sub (ops t) x y) (x - y).
Proof. intros H Hx Hy. destruct t; ops; auto; [congruence|apply (ck_exactly 32); ops; tauto|apply (ck_exactly 64); ops; tauto|]. rewrite si_sub_spec by auto. apply eot_exactly. Qed.
Lemma mul_exactly t x y : t <> INT16 -> representable t x -> representable t y -> exactly t (z_mul (ops t) x y) (x * y).
Proof. intros H Hx Hy. destruct t; ops; auto; [congruence|apply (ck_exactly 32); ops; tauto|apply (ck_exactly 64); ops; tauto|]. rewrite si_mul_spec by auto. apply eot_exactly. Qed.
Lemma div_exactly t x y : t <> INT16 -> representable t x -> representable t y -> y <> 0 -> exactly t (z_div (ops t) x y) (Z.quot x y).
Proof.
  intros H Hx Hy H0. destruct t; ops; [congruence|unfold i_div; destruct (Z.eqb_spec y 0); [lia|]; apply (ck_exactly 32); ops; tauto|unfold i_div; destruct (Z.eqb_spec y 0); [lia|]; apply (ck_exactly 64); ops; tauto| |].
  - rewrite si_div_spec by auto. destruct (Z.eqb_spec y 0); [lia|]. apply eot_exactly.
  - destruct (Z.eqb_spec y 0); [lia|]. cbn [exactly]. auto.
Qed.
Lemma div_zero t x z : t <> INT16 -> representable t x -> z_div (ops t) x 0 <> Ok z.
Proof. intros H Hx. destruct t; ops; [congruence|unfold i_div; cbn; congruence..|rewrite si_div_spec by auto; cbn; congruence|cbn; congruence]. Qed.
Lemma quot_small w x y : fits w x = true -> 0 <= x -> 0 < y -> fits w (Z.quot x y) = true.
Proof.
  unfold fits. rewrite !andb_true_iff, !Z.leb_le. intros [H1 H2] Hx Hy. assert (int_min w <= 0) by (unfold int_min; pose proof (Z.pow_nonneg 2 (w - 1)); lia).
  rewrite Z.quot_div_nonneg by lia. assert (0 <= x / y) by (apply Z.div_pos; lia). assert (x / y <= x) by (apply Z.div_le_upper_bound; nia). lia.
Qed.
Lemma mod_exactly t x y : t <> INT16 -> representable t x -> representable t y -> 0 <= x -> 0 < y -> z_mod (ops t) x y = Ok (x mod y) /\ representable t (x mod y).
Proof.
  intros H Hx Hy H0 H1. destruct t; ops; [congruence| | | |].
  - unfold i_mod. destruct (Z.eqb_spec y 0); [lia|]. rewrite (quot_small 32), Z.rem_mod_nonneg by (auto; lia). split; auto. apply rem_fits; auto.
  - unfold i_mod. destruct (Z.eqb_spec y 0); [lia|]. rewrite (quot_small 64), Z.rem_mod_nonneg by (auto; lia). split; auto. apply rem_fits; auto.
  - rewrite si_mod_spec by auto. destruct (Z.ltb_spec 0 y); [|lia]. split; auto. apply rem_fits; auto.
  - destruct (Z.eqb_spec y 0); [lia|]. rewrite Z.rem_mod_nonneg by lia. auto.
Qed.
Lemma mod_zero t x z : t <> INT16 -> representable t x -> z_mod (ops t) x 0 <> Ok z.
Proof. intros H Hx. destruct t; ops; [congruence|unfold i_mod; cbn; congruence..|unfold si_mod; cbn; congruence|cbn; congruence]. Qed.
Lemma lit_ok t z : t <> INT16 -> fits 32 z = true -> z_lit (ops t) z = z /\ representable t z.
Proof. intros H Hz. destruct t; ops; auto; [congruence|..]; split; auto; apply fits_wider; auto; lia. Qed.

(** [t'] represents at least the values of [t]. *)
Definition at_least (t t' : int_type) : Prop := t <> INT16 /\ t' <> INT16 /\ forall z, representable t z -> representable t' z.
Definition agrees (t : int_type) (x y : Z) : Prop := x = y /\ representable t x.
Lemma agrees_sim t t' m m' z : (forall z, representable t z -> representable t' z) -> exactly t m z -> exactly t' m' z -> sim (agrees t) m m'.
Proof.
  intros H E E'. destruct m as [r| |]; cbn [sim]; auto. destruct E as (-> & E). destruct m' as [r'| |]; cbn [exactly] in E'; [|exfalso; auto..]. destruct E' as (-> & _). exists z. repeat split; auto.
Qed.
Ltac types := cbn [arith arith_of num a_lit a_neg a_add a_sub a_mul a_div a_mod a_abs a_gt a_eqi a_lti a_gti a_lei a_size].
Definition wider (t t' : int_type) (H : at_least t t') : corresponds (arith t) (arith t').
Proof.
  destruct H as (H & H' & K). refine (mk_corresponds (arith t) (arith t') (agrees t) (fun z => 0 <= z) _ _ _ _ _ _ _ _ _ _ _ _ _ _); types.
  - intros z Hz. destruct (lit_ok t z H Hz) as (E & R). destruct (lit_ok t' z H' Hz) as (E' & R'). rewrite E, E'. split; auto.
  - intros x y (<- & Hx). eapply agrees_sim; [exact K|apply neg_exactly; auto|apply neg_exactly; auto].
  - intros x y x' y' (<- & Hx) (<- & Hy). eapply agrees_sim; [exact K|apply add_exactly; auto|apply add_exactly; auto].
  - intros x y x' y' (<- & Hx) (<- & Hy). eapply agrees_sim; [exact K|apply sub_exactly; auto|apply sub_exactly; auto].
  - intros x y x' y' (<- & Hx) (<- & Hy). eapply agrees_sim; [exact K|apply mul_exactly; auto|apply mul_exactly; auto].
  - intros x y x' y' (<- & Hx) (<- & Hy). destruct (Z.eq_dec y 0) as [E|E]; [|eapply agrees_sim; [exact K|apply div_exactly; auto|apply div_exactly; auto]].
    rewrite E in *. destruct (z_div (ops t) x 0) as [r| |] eqn:Ed; cbn [sim]; auto. exfalso. apply (div_zero t x r); auto.
  - intros x y x' y' (<- & Hx) (<- & Hy) Nx Ny. destruct (Z.eq_dec y 0) as [E|E].
    + rewrite E in *. destruct (z_mod (ops t) x 0) as [r| |] eqn:Ed; cbn [sim]; auto. exfalso. apply (mod_zero t x r); auto.
    + destruct (mod_exactly t x y) as (-> & R); auto; [lia|]. destruct (mod_exactly t' x y) as (-> & R'); auto; [lia|]. apply sim_ok. split; [split; auto|]. apply Z.mod_pos_bound. lia.
  - intros x y (<- & Hx). assert (G := abs_exactly t x H Hx). assert (G' := abs_exactly t' x H' (K x Hx)). destruct (z_abs (ops t) x) as [r| |]; cbn [sim]; auto. cbn [exactly] in G. destruct G as (-> & G).
    destruct (z_abs (ops t') x) as [r'| |]; cbn [exactly] in G'; [|exfalso; auto..]. destruct G' as (-> & _). exists (Z.abs x). split; auto. split; [split; auto|lia].
  - intros x y x' y' (<- & Hx) (<- & Hy). reflexivity.
  - intros x y z (<- & Hx) _. reflexivity.
  - intros x y (<- & Hx). reflexivity.
  - intros x y (<- & Hx). reflexivity.
  - intros x y (<- & Hx). reflexivity.
  - intros x y (<- & Hx). reflexivity.
Defined.
Lemma wider_rel t t' H : c_rel (wider t t' H) = agrees t.
Proof. destruct H as (? & ? & ?). reflexivity. Qed.

(** ** BigInteger *)
(** The integers without the quotients which BigInteger gets wrong (C16): such a division is taken as undefined. *)
Definition guarded : zops :=
  mk_zops (fun z => z) (fun a => Ok (- a)) (fun a b => Ok (a + b)) (fun a b => Ok (a - b)) (fun a b => Ok (a * b))
    (fun a b => if b =? 0 then UB else if bad_quotient a b then UB else Ok (Z.quot a b))
    (fun a b => if b =? 0 then UB else Ok (Z.rem a b))
    (fun a => Ok (Z.abs a)).
Definition GUARDED : Arith := arith_of guarded.
Definition stands (z : Z) (a : big) : Prop := canonical 64 a /\ bval 64 a = z.
Lemma w64 : (32 <= 64)%nat. Proof. lia. Qed.
Lemma gives_sim (P : Prop) m z : gives 64 false P m z -> exists r, m = Ok r /\ stands z r.
Proof. destruct m as [r| |]; cbn; [|contradiction|intros (? & ?); discriminate]. intros (H1 & H2). exists r. split; auto. split; auto. Qed.
Lemma small_literal z : z = 0 \/ z = 1 \/ z = -1 -> fits 32 z = true /\ z <> int_min 32.
Proof. intros [-> | [-> | ->]]; split; try reflexivity; discriminate. Qed.
Definition big_wider : corresponds GUARDED BIG.
Proof.
  refine (mk_corresponds GUARDED BIG stands (fun z => 0 <= z) _ _ _ _ _ _ _ _ _ _ _ _ _ _);
    cbn [GUARDED BIG arith_of guarded num a_lit a_neg a_add a_sub a_mul a_div a_mod a_abs a_gt a_eqi a_lti a_gti a_lei a_size z_lit z_neg z_add z_sub z_mul z_div z_mod z_abs].
  - intros z Hz. apply (of_int_spec 64 w64 z Hz).
  - intros x y (Hy & <-). apply sim_ok. destruct (flip_spec 64 w64 y Hy). split; auto.
  - intros x y x' y' (Hx & <-) (Hy & <-). apply (gives_sim _ _ _ (b_add_spec 64 false w64 x' y' Hx Hy)).
  - intros x y x' y' (Hx & <-) (Hy & <-). apply (gives_sim _ _ _ (b_sub_spec 64 false w64 x' y' Hx Hy)).
  - intros x y x' y' (Hx & <-) (Hy & <-). apply (gives_sim _ _ _ (b_mul_spec 64 false w64 x' y' Hx Hy)).
  - intros x y x' y' (Hx & <-) (Hy & <-). destruct (Z.eqb_spec (bval 64 y') 0) as [E|E]; [apply sim_ub|]. destruct (bad_quotient _ _) eqn:Eb; [apply sim_ub|].
    assert (G := b_div_spec 64 false w64 x' y' Hx Hy E). unfold quotient_of in G. rewrite Eb in G. apply (gives_sim _ _ _ G).
  - intros x y x' y' (Hx & <-) (Hy & <-) Nx Ny. destruct (Z.eqb_spec (bval 64 y') 0) as [E|E]; [apply sim_ub|].
    assert (G := b_mod_spec 64 false w64 x' y' Hx Hy ltac:(lia)). unfold remainder_of in G. destruct (Z.leb_spec 0 (bval 64 x')); [|lia]. rewrite Z.rem_mod_nonneg by lia.
    apply gives_sim in G. destruct G as (r & E1 & E2). exists r. split; [exact E1|]. split; auto. apply Z.mod_pos_bound. lia.
  - intros x y (Hy & <-). apply sim_ok. destruct (abs_spec 64 w64 y Hy). split; [split; auto|lia].
  - intros x y x' y' (Hx & <-) (Hy & <-). unfold b_gt. rewrite (lt_spec 64 w64) by auto. apply Z.gtb_ltb.
  - intros x y z (Hy & <-) Hz. destruct (small_literal z Hz) as (F & M). rewrite (eqi_spec 64 false w64 y z Hy F M). reflexivity.
  - intros x y (Hy & <-). rewrite (lti_spec 64 false w64 y 0 Hy) by (reflexivity || discriminate). reflexivity.
  - intros x y (Hy & <-). rewrite (gti_spec 64 false w64 y 1 Hy) by (reflexivity || discriminate). apply Z.gtb_ltb.
  - intros x y (Hy & <-). unfold b_lei. rewrite (gti_spec 64 false w64 y 0 Hy) by (reflexivity || discriminate). cbn [bind returned]. rewrite Z.leb_antisym. reflexivity.
  - intros x y (Hy & <-). destruct Hy as (Hm & _). assert (L := lval_bound 64 w64 _ (cmag_range 64 _ Hm)). assert (N := cmag_nonneg 64 w64 _ Hm).
    assert (E : Z.abs (bval 64 y) = lval 64 (limbs y)) by (unfold bval, mag in *; destruct (negative y); lia). rewrite E. unfold base in L. rewrite <- Z.pow_mul_r in L by lia.
    assert (0 < length (limbs y))%nat by (destruct (limbs y); [destruct Hm; congruence|cbn; lia]).
    apply Nat2Z.inj_le. rewrite Z2Nat.id by (pose proof (Z.log2_nonneg (lval 64 (limbs y))); lia). rewrite Nat2Z.inj_mul.
    destruct (Z.eq_dec (lval 64 (limbs y)) 0) as [E0|E0]; [rewrite E0; change (Z.log2 0) with 0; lia|]. assert (K := proj1 (Z.log2_lt_pow2 (lval 64 (limbs y)) (Z.of_nat 64 * Z.of_nat (length (limbs y))) ltac:(lia)) L). lia.
Defined.
Lemma guarded_fits a b : fits 32 a = true -> fits 32 b = true -> bad_quotient a b = false.
Proof. intros Ha Hb. unfold bad_quotient. rewrite Ha, Hb. cbn [andb negb]. destruct (a <? 0); reflexivity. Qed.
(** Values of int. *)
Definition int_guarded : corresponds (arith INT32) GUARDED.
Proof.
  refine (mk_corresponds (arith INT32) GUARDED (agrees INT32) (fun z => 0 <= z) _ _ _ _ _ _ _ _ _ _ _ _ _ _);
    cbn [GUARDED arith ops machine arith_of guarded num a_lit a_neg a_add a_sub a_mul a_div a_mod a_abs a_gt a_eqi a_lti a_gti a_lei a_size z_lit z_neg z_add z_sub z_mul z_div z_mod z_abs].
  - intros z Hz. split; auto.
  - intros x y (<- & Hx). unfold i_neg, ck. destruct (fits 32 _) eqn:E; [|apply sim_ub]. apply sim_ok. split; auto.
  - intros x y x' y' (<- & Hx) (<- & Hy). unfold i_add, ck. destruct (fits 32 _) eqn:E; [|apply sim_ub]. apply sim_ok. split; auto.
  - intros x y x' y' (<- & Hx) (<- & Hy). unfold i_sub, ck. destruct (fits 32 _) eqn:E; [|apply sim_ub]. apply sim_ok. split; auto.
  - intros x y x' y' (<- & Hx) (<- & Hy). unfold i_mul, ck. destruct (fits 32 _) eqn:E; [|apply sim_ub]. apply sim_ok. split; auto.
  - intros x y x' y' (<- & Hx) (<- & Hy). rewrite guarded_fits by auto. unfold i_div, ck. destruct (y =? 0); [apply sim_ub|]. destruct (fits 32 _) eqn:E; [|apply sim_ub]. apply sim_ok. split; auto.
  - intros x y x' y' (<- & Hx) (<- & Hy) Nx Ny. unfold i_mod. destruct (Z.eqb_spec y 0); [apply sim_ub|]. destruct (fits 32 _) eqn:E; [|apply sim_ub]. apply sim_ok.
    assert (R := Z.rem_bound_pos x y Nx ltac:(lia)). split; [|lia]. split; auto. cbn [representable]. rewrite Z.rem_mod_nonneg by lia. apply rem_fits; auto; lia.
  - intros x y (<- & Hx). unfold ck. destruct (fits 32 _) eqn:E; [|apply sim_ub]. apply sim_ok. split; [split; auto|lia].
  - intros x y x' y' (<- & Hx) (<- & Hy). reflexivity.
  - intros x y z (<- & Hx) _. reflexivity.
  - intros x y (<- & Hx). reflexivity.
  - intros x y (<- & Hx). reflexivity.
  - intros x y (<- & Hx). reflexivity.
  - intros x y (<- & Hx). reflexivity.
Defined.
Definition guarded_exact : corresponds GUARDED (arith EXACT).
Proof.
  refine (mk_corresponds GUARDED (arith EXACT) (fun x y => x = y) (fun z => 0 <= z) _ _ _ _ _ _ _ _ _ _ _ _ _ _);
    cbn [GUARDED arith ops ideal arith_of guarded num a_lit a_neg a_add a_sub a_mul a_div a_mod a_abs a_gt a_eqi a_lti a_gti a_lei a_size z_lit z_neg z_add z_sub z_mul z_div z_mod z_abs];
    try (intros x y x' y' <- <-; apply sim_ok; auto; fail); try (intros x y <-; apply sim_ok; auto; fail); try (intros; subst; reflexivity).
  - intros x y x' y' <- <-. destruct (y =? 0); [apply sim_ub|]. destruct (bad_quotient x y); [apply sim_ub|]. apply sim_ok. reflexivity.
  - intros x y x' y' <- <- Nx Ny. destruct (Z.eqb_spec y 0); [apply sim_ub|]. apply sim_ok. split; auto. assert (R := Z.rem_bound_pos x y Nx ltac:(lia)). lia.
  - intros x y <-. apply sim_ok. split; auto. lia.
Defined.
