(** * PropertiesLcm: gcd and lcm of rows for every integer type (C22, continued). *)
From Coq Require Import List ZArith Arith Lia Bool.
From Verif Require Import Base Spec ListUtil FmeCore ArithModel Refine SafeIntModel IntTypes RowLcm.
Import ListNotations.
Open Scope Z_scope.

(** [l] is the least common multiple of the entries of [r]. *)
Definition least_common_multiple (l : Z) (r : vec) : Prop :=
  0 <= l /\ (forall x, In x r -> (x | l)) /\ forall m, (forall x, In x r -> (x | m)) -> (l | m).
(** [g] is the greatest common divisor of the entries of [r]. *)
Definition greatest_common_divisor (g : Z) (r : vec) : Prop :=
  0 <= g /\ (forall x, In x r -> (g | x)) /\ forall d, (forall x, In x r -> (d | x)) -> (d | g).

Theorem C22_row_lcm_all_types : forall t (r : vec) (l : Z),
  t <> INT16 -> Forall (representable t) r -> (forall x, In x r -> x <> 0) -> m_row_lcm (arith t) r = Ok l -> 0 < l /\ least_common_multiple l r.
Proof.
  intros t r l Ht HR Hnz E. assert (H := row_lcm_rel (sound_type t Ht) r r (vec_rel t Ht r HR) Hnz).
  rewrite E in H. cbn [rel] in H. assert (l = rlcm r) as -> by (destruct H as [_ H]; destruct t; [exfalso; auto|..]; exact H).
  split; [apply rlcm_pos; auto|]. split; [apply rlcm_nonneg|]. split; [intros x; apply rlcm_divide|intros m; apply rlcm_least].
Qed.
Print Assumptions C22_row_lcm_all_types.

Theorem C22_row_lcm_exact : forall r : vec, (forall x, In x r -> x <> 0) -> exists l, m_row_lcm (arith EXACT) r = Ok l /\ least_common_multiple l r.
Proof.
  intros r Hnz. assert (HR : Forall (representable EXACT) r) by (apply Forall_forall; intros; exact I).
  assert (H := row_lcm_rel (sound_type EXACT ltac:(discriminate)) r r (vec_rel EXACT ltac:(discriminate) r HR) Hnz).
  destruct (m_row_lcm (arith EXACT) r) as [l| |] eqn:E; cbn [rel] in H; try discriminate. exists l. split; auto.
  apply (C22_row_lcm_all_types EXACT r l ltac:(discriminate) HR Hnz E).
Qed.
Print Assumptions C22_row_lcm_exact.

Theorem C22_row_gcd_all_types : forall t (r : vec) (g : Z),
  t <> INT16 -> Forall (representable t) r -> m_row_gcd (arith t) r = Ok g -> greatest_common_divisor g r.
Proof.
  intros t r g Ht HR E. assert (H := row_gcd_rel _ _ _ (sound_type t Ht) r r (vec_rel t Ht r HR)).
  rewrite E in H. cbn [rel] in H. assert (g = rgcd r) as -> by (destruct H as [_ H]; destruct t; [exfalso; auto|..]; exact H).
  clear. split; [apply rgcd_nonneg|]. split.
  - intros x Hx. induction r as [|y r IH]; [destruct Hx|]. cbn [rgcd fold_right]. destruct Hx as [->|Hx]; [apply Z.gcd_divide_l|].
    eapply Z.divide_trans; [apply Z.gcd_divide_r|apply IH; auto].
  - intros d Hd. induction r as [|y r IH]; cbn [rgcd fold_right]; [apply Z.divide_0_r|]. apply Z.gcd_greatest; [apply Hd; left; auto|].
    apply IH. intros x Hx. apply Hd. right. auto.
Qed.
Print Assumptions C22_row_gcd_all_types.

Theorem C22_lcm_all_types : forall t (a b l : Z),
  t <> INT16 -> representable t a -> representable t b -> a <> 0 -> b <> 0 -> m_lcm (arith t) a b = Ok l ->
  0 < l /\ least_common_multiple l [a; b].
Proof.
  intros t a b l Ht Ha Hb Na Nb E.
  assert (Hva : vr (sound_type t Ht) a a) by (destruct t; [exfalso; auto|..]; split; auto).
  assert (Hvb : vr (sound_type t Ht) b b) by (destruct t; [exfalso; auto|..]; split; auto).
  assert (H := lcm_rel _ _ (arith t) (sound_type t Ht) a b a b Hva Hvb (or_introl Na)). rewrite E in H. cbn [rel] in H.
  assert (l = Z.lcm a b) as -> by (destruct H as [_ H]; destruct t; [exfalso; auto|..]; exact H).
  assert (H0 := Z.lcm_nonneg a b).
  split; [destruct (Z.eq_dec (Z.lcm a b) 0) as [E0|]; [apply Z.lcm_eq_0 in E0; lia|lia]|]. split; [auto|]. split.
  - intros x [->|[->|[]]]; [apply Z.divide_lcm_l|apply Z.divide_lcm_r].
  - intros m Hm. apply Z.lcm_least; apply Hm; cbn; auto.
Qed.
Print Assumptions C22_lcm_all_types.

Example C22_row_lcm_example : m_row_lcm (arith INT32) [1; -4; 6; 1] = Ok 12 /\ m_row_lcm (arith INT32) [1; -3] = Ok 3 /\ m_row_gcd (arith INT64) [0; -6; 9] = Ok 3.
Proof. repeat split; reflexivity. Qed.
