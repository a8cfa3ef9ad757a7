(** * RowLcm: lcm of a row. *)
From Coq Require Import List ZArith Arith Lia Bool.
From Verif Require Import Base Spec ListUtil FmeCore ArithModel Refine SafeIntModel IntTypes.
Import ListNotations.
Open Scope Z_scope.

Definition rlcm (r : vec) : Z := fold_right Z.lcm 1 r.
Lemma rlcm_nonneg r : 0 <= rlcm r.
Proof. destruct r; cbn; [lia|apply Z.lcm_nonneg]. Qed.
Lemma rlcm_divide x r : In x r -> (x | rlcm r).
Proof.
  induction r as [|y r IH]; [intros []|]. cbn [rlcm fold_right]. intros [->|H]; [apply Z.divide_lcm_l|].
  eapply Z.divide_trans; [apply IH; auto|apply Z.divide_lcm_r].
Qed.
Lemma rlcm_least m r : (forall x, In x r -> (x | m)) -> (rlcm r | m).
Proof.
  induction r as [|y r IH]; intros H; cbn [rlcm fold_right]; [apply Z.divide_1_l|].
  apply Z.lcm_least; [apply H; left; auto|apply IH; intros; apply H; right; auto].
Qed.
Lemma rlcm_pos r : (forall x, In x r -> x <> 0) -> 0 < rlcm r.
Proof.
  induction r as [|y r IH]; intros H; cbn [rlcm fold_right]; [lia|]. fold (rlcm r).
  assert (0 < rlcm r) by (apply IH; intros; apply H; right; auto). assert (Hn := Z.lcm_nonneg y (rlcm r)).
  assert (y <> 0) by (apply H; left; auto). destruct (Z.eq_dec (Z.lcm y (rlcm r)) 0) as [E|]; [|lia]. apply Z.lcm_eq_0 in E. lia.
Qed.

Section Rel.
  Context {aT aU : bool} {A : Arith} (S : Sound aT aU A).
  Notation vr := (vr S). Notation rowr := (rowr S). Notation rl := (rel aT aU).

  Lemma lcm_rest_rel r r' : rowr r r' -> forall y a, vr y a -> (forall x, In x r' -> x <> 0) -> 0 <= a -> rl vr (m_lcm_rest A y r) (Z.lcm a (rlcm r')).
  Proof.
    induction 1 as [|x b r r' Hx _ IH]; intros y a Hy Hnz Ha; cbn [m_lcm_rest rlcm fold_right].
    - cbn [rel]. rewrite Z.lcm_1_r_nonneg by auto. exact Hy.
    - apply (rel_bind _ _ vr _ _ _ (Z.lcm b a)); [apply lcm_rel; auto; left; apply Hnz; left; auto|]. intros v Hv.
      apply (rel_eq _ _ _ _ (Z.lcm (Z.lcm b a) (rlcm r'))); [apply IH; auto|].
      + intros z Hz. apply Hnz; right; auto.
      + apply Z.lcm_nonneg.
      + fold (rlcm r'). rewrite (Z.lcm_comm b a), <- Z.lcm_assoc. reflexivity.
  Qed.
  Lemma row_lcm_rel r r' : rowr r r' -> (forall x, In x r' -> x <> 0) -> rl vr (m_row_lcm A r) (rlcm r').
  Proof.
    induction 1 as [|x b r r' Hx Hr IH]; intros Hnz; cbn [m_row_lcm rlcm fold_right]; [apply vr_lit; auto|].
    fold (rlcm r'). rewrite (vr_eqi _ _ _ S x b 1 Hx) by auto. destruct (Z.eqb_spec b 1) as [->|Hne].
    - rewrite Z.lcm_1_l_nonneg by apply rlcm_nonneg. apply IH. intros z Hz. apply Hnz; right; auto.
    - apply (rel_bind _ _ vr _ _ _ (Z.abs b)); [apply vr_abs; auto|]. intros y Hy.
      apply (rel_eq _ _ _ _ (Z.lcm (Z.abs b) (rlcm r'))); [|apply Z.lcm_abs_l]. apply lcm_rest_rel; auto; [|lia].
      intros z Hz. apply Hnz; right; auto.
  Qed.
End Rel.
