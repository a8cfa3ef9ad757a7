(** * IntLcm: the least common multiple of a row of [int]s is computed without overflow when it fits. *)
From Coq Require Import List ZArith Arith Bool Lia.
From Verif Require Import Base Spec ListUtil FmeCore ArithModel Refine SafeIntModel IntTypes RowLcm StreamModel StreamProofs.
Import ListNotations.
Open Scope Z_scope.

Lemma fits_int z : fits 32 z = true <-> int_range z.
Proof. unfold fits, int_range. rewrite andb_true_iff, !Z.leb_le. reflexivity. Qed.
Lemma ck_int z : int_range z -> ck 32 z = Ok z.
Proof. intros H. unfold ck. apply fits_int in H. rewrite H. reflexivity. Qed.
Lemma ck_int_inv z r : ck 32 z = Ok r -> r = z /\ int_range z.
Proof. unfold ck. destruct (fits 32 z) eqn:E; [|discriminate]. intros H. injection H as <-. split; auto. apply fits_int; auto. Qed.
Lemma int_range_quot a b : 0 <= a -> 0 < b -> int_range a -> int_range (Z.quot a b).
Proof.
  intros Ha Hb [H1 H2]. rewrite Z.quot_div_nonneg by lia. assert (0 <= a / b) by (apply Z.div_pos; lia). assert (a / b <= a) by (apply Z.div_le_upper_bound; nia).
  unfold int_range, StreamModel.int_min in *. lia.
Qed.
Lemma int_range_rem a b : 0 <= a -> 0 < b -> int_range a -> int_range (Z.rem a b) /\ 0 <= Z.rem a b.
Proof.
  intros Ha Hb [H1 H2]. rewrite Z.rem_mod_nonneg by lia. pose proof (Z.mod_pos_bound a b Hb). pose proof (Z.mod_le a b Ha Hb). unfold int_range, StreamModel.int_min in *. lia.
Qed.
Lemma unsigned_gcd_int fuel (a b : Z) : 0 <= a -> 0 <= b -> int_range a -> int_range b -> m_unsigned_gcd (arith INT32) fuel a b = m_unsigned_gcd (arith EXACT) fuel a b.
Proof.
  revert a b. induction fuel as [|fuel IH]; intros a b Ha Hb Ra Rb; [reflexivity|]. cbn [m_unsigned_gcd].
  change (a_eqi (arith INT32)) with Z.eqb. change (a_eqi (arith EXACT)) with Z.eqb. change (a_gt (arith INT32)) with Z.gtb. change (a_gt (arith EXACT)) with Z.gtb.
  change (a_mod (arith INT32)) with (i_mod 32). change (a_mod (arith EXACT)) with (fun a b => if b =? 0 then UB else Ok (Z.rem a b)). cbv beta.
  assert (K : forall a b, 0 <= a -> 0 < b -> int_range a -> i_mod 32 a b = Ok (Z.rem a b)).
  { intros x y Hx Hy Rx. unfold i_mod. destruct (Z.eqb_spec y 0); [lia|]. assert (Q := int_range_quot x y Hx Hy Rx). apply fits_int in Q. rewrite Q. reflexivity. }
  destruct (Z.eqb_spec a 0); cbn [negb andb]; [reflexivity|]. destruct (Z.eqb_spec b 0); cbn [negb andb]; [reflexivity|].
  destruct (Z.gtb_spec a b).
  - rewrite K by (auto; lia). cbn [bind]. destruct (int_range_rem a b Ha ltac:(lia) Ra). apply IH; auto.
  - rewrite K by (auto; lia). cbn [bind]. destruct (int_range_rem b a Hb ltac:(lia) Rb). apply IH; auto.
Qed.
(** Values whose absolute value is an [int]. *)
Definition small (z : Z) : Prop := int_range (Z.abs z).
Lemma gcd_int a b : small a -> small b -> m_gcd (arith INT32) a b = Ok (Z.gcd a b).
Proof.
  intros Ha Hb. assert (H := gcd_rel _ _ (arith EXACT) sound_ideal a b a b (conj I eq_refl) (conj I eq_refl)).
  destruct (m_gcd (arith EXACT) a b) as [g| |] eqn:E; cbn [rel] in H; try discriminate. destruct H as [_ H]. cbn in H. subst g. refine (eq_trans _ E). clear E.
  unfold m_gcd. change (a_abs (arith INT32)) with (fun a => ck 32 (Z.abs a)). cbv beta. rewrite !ck_int by auto. cbn [bind]. apply unsigned_gcd_int; auto; lia.
Qed.
Lemma lcm_int a b : small a -> small b -> a <> 0 -> b <> 0 -> int_range (Z.lcm a b) -> m_lcm (arith INT32) a b = Ok (Z.lcm a b).
Proof.
  intros Ha Hb Na Nb Hl. unfold m_lcm. rewrite gcd_int by auto. cbn [bind].
  change (a_abs (arith INT32)) with (fun a => ck 32 (Z.abs a)). cbv beta. rewrite !ck_int by auto. cbn [bind].
  change (a_div (arith INT32)) with (i_div 32). change (a_mul (arith INT32)) with (i_mul 32).
  assert (Hg : 0 < Z.gcd a b). { assert (0 <= Z.gcd a b) by apply Z.gcd_nonneg. destruct (Z.eq_dec (Z.gcd a b) 0) as [E|]; [apply Z.gcd_eq_0 in E; lia|lia]. }
  assert (Hd : (Z.gcd a b | Z.abs b)) by (apply Z.divide_abs_r, Z.gcd_divide_r).
  unfold i_div. destruct (Z.eqb_spec (Z.gcd a b) 0); [lia|]. rewrite ck_int by (apply int_range_quot; auto; lia). cbn [bind]. unfold i_mul.
  assert (E : Z.abs a * Z.quot (Z.abs b) (Z.gcd a b) = Z.lcm a b).
  { rewrite Z.quot_div_nonneg by lia. unfold Z.lcm. rewrite Z.abs_mul. f_equal. destruct Hd as [q Hq]. rewrite Hq, Z.div_mul by lia.
    assert (Hb' : (Z.gcd a b | b)) by apply Z.gcd_divide_r. destruct Hb' as [q' Hq']. rewrite Hq' at 1. rewrite Z.div_mul by lia.
    rewrite Hq' in Hq. rewrite Z.abs_mul in Hq at 1. rewrite (Z.abs_eq (Z.gcd a b)) in Hq by lia. rewrite <- Hq' in Hq. nia. }
  rewrite E. apply ck_int; auto.
Qed.
Lemma divide_range a b : (a | b) -> 0 < b -> int_range b -> small a.
Proof.
  intros Hd Hb [_ H]. unfold small, int_range, StreamModel.int_min in *. apply Z.divide_abs_l in Hd. apply Z.divide_pos_le in Hd; auto. lia.
Qed.
Lemma lcm_rest_int r (v : Z) : 0 < v -> (forall x, In x r -> x <> 0) -> int_range (Z.lcm v (rlcm r)) -> m_lcm_rest (arith INT32) v r = Ok (Z.lcm v (rlcm r)).
Proof.
  revert v. induction r as [|x r IH]; intros v Hv Hnz Hl; cbn [m_lcm_rest].
  - cbn [rlcm fold_right]. rewrite Z.lcm_1_r_nonneg by lia. reflexivity.
  - assert (Hx : x <> 0) by (apply Hnz; left; auto). assert (Hr : forall y, In y r -> y <> 0) by (intros; apply Hnz; right; auto).
    assert (E : Z.lcm v (rlcm (x :: r)) = Z.lcm (Z.lcm x v) (rlcm r)). { cbn [rlcm fold_right]. fold (rlcm r). rewrite Z.lcm_assoc, (Z.lcm_comm v x). reflexivity. }
    rewrite E in *. assert (Hp : 0 < Z.lcm x v).
    { assert (0 <= Z.lcm x v) by apply Z.lcm_nonneg. destruct (Z.eq_dec (Z.lcm x v) 0) as [E0|]; [apply Z.lcm_eq_0 in E0; lia|lia]. }
    assert (Ht : 0 < Z.lcm (Z.lcm x v) (rlcm r)).
    { assert (0 <= Z.lcm (Z.lcm x v) (rlcm r)) by apply Z.lcm_nonneg. assert (Hq := rlcm_pos r Hr).
      destruct (Z.eq_dec (Z.lcm (Z.lcm x v) (rlcm r)) 0) as [E0|]; [apply Z.lcm_eq_0 in E0; lia|lia]. }
    assert (D : (Z.lcm x v | Z.lcm (Z.lcm x v) (rlcm r))) by apply Z.divide_lcm_l.
    assert (Hl' : int_range (Z.lcm x v)). { assert (Q := divide_range _ _ D Ht Hl). unfold small in Q. rewrite Z.abs_eq in Q by lia. exact Q. }
    rewrite lcm_int; auto; [|..].
    + cbn [bind]. apply IH; auto.
    + apply (divide_range x (Z.lcm x v)); auto. apply Z.divide_lcm_l.
    + apply (divide_range v (Z.lcm x v)); auto. apply Z.divide_lcm_r.
    + lia.
Qed.
Lemma row_lcm_int r : (forall x, In x r -> x <> 0) -> int_range (rlcm r) -> m_row_lcm (arith INT32) r = Ok (rlcm r).
Proof.
  induction r as [|x r IH]; intros Hnz Hl; cbn [m_row_lcm]; [reflexivity|].
  assert (Hx : x <> 0) by (apply Hnz; left; auto). assert (Hr : forall y, In y r -> y <> 0) by (intros; apply Hnz; right; auto).
  change (a_eqi (arith INT32) x 1) with (x =? 1). destruct (Z.eqb_spec x 1) as [->|N].
  - cbn [rlcm fold_right] in *. fold (rlcm r) in *. rewrite Z.lcm_1_l_nonneg in * by apply rlcm_nonneg. auto.
  - assert (Hp := rlcm_pos (x :: r) Hnz). assert (D : (x | rlcm (x :: r))) by (apply rlcm_divide; left; auto).
    change (a_abs (arith INT32) x) with (ck 32 (Z.abs x)). rewrite ck_int by (apply (divide_range _ _ D Hp Hl)). cbn [bind].
    cbn [rlcm fold_right] in *. fold (rlcm r) in *. rewrite <- (Z.lcm_abs_l x) in Hl |- *. apply lcm_rest_int; auto. lia.
Qed.
(** Whenever a value is returned it is the least common multiple. *)
Lemma row_lcm_int_inv r l : Forall int_range r -> (forall x, In x r -> x <> 0) -> m_row_lcm (arith INT32) r = Ok l -> l = rlcm r /\ int_range l.
Proof.
  intros HR Hnz E.
  assert (HR' : Forall (representable INT32) r) by (eapply Forall_impl; [|exact HR]; intros a Ha; apply fits_int; auto).
  assert (H := row_lcm_rel (sound_type INT32 ltac:(discriminate)) r r (vec_rel INT32 ltac:(discriminate) r HR') Hnz).
  rewrite E in H. cbn [rel] in H. destruct H as [H1 H2]. cbn in H1, H2. split; auto. apply fits_int; auto.
Qed.
Lemma row_lcm_int_no_throw r : (forall x, In x r -> x <> 0) -> Forall int_range r -> m_row_lcm (arith INT32) r <> Throw.
Proof.
  intros Hnz HR E.
  assert (HR' : Forall (representable INT32) r) by (eapply Forall_impl; [|exact HR]; intros a Ha; apply fits_int; auto).
  assert (H := row_lcm_rel (sound_type INT32 ltac:(discriminate)) r r (vec_rel INT32 ltac:(discriminate) r HR') Hnz). rewrite E in H. discriminate H.
Qed.
