(** * OrbitTheorems: classes under maps that act as permutations of a finite set. *)
From Coq Require Import List ZArith Arith Lia Bool Permutation.
From Verif Require Import Base Spec ListUtil ArithModel IntTypes ClassesModel ClassesProofs.
Import ListNotations.
Open Scope Z_scope.

Fixpoint iter {X} (k : nat) (f : X -> X) (x : X) : X := match k with O => x | S k' => f (iter k' f x) end.
Lemma iter_add {X} a b (f : X -> X) x : iter (a + b) f x = iter a f (iter b f x).
Proof. induction a as [|a IH]; cbn [Nat.add iter]; congruence. Qed.
Lemma iter_comm {X} k (f : X -> X) x : iter k f (f x) = f (iter k f x).
Proof. induction k as [|k IH]; cbn [iter]; congruence. Qed.

Lemma not_NoDup {X} (dec : forall a b : X, {a = b} + {a <> b}) (l : list X) : ~ NoDup l -> exists a l1 l2 l3, l = l1 ++ a :: l2 ++ a :: l3.
Proof.
  induction l as [|x l IH]; intros H; [exfalso; apply H; constructor|].
  destruct (in_dec dec x l) as [Hx|Hx].
  - apply in_split in Hx. destruct Hx as (l2 & l3 & ->). exists x, [], l2, l3. reflexivity.
  - destruct IH as (a & l1 & l2 & l3 & ->); [intros Hn; apply H; constructor; auto|]. exists a, (x :: l1), l2, l3. reflexivity.
Qed.

(** Among the first [length L + 1] iterates in a finite list two agree. *)
Lemma iter_repeats {X} (dec : forall a b : X, {a = b} + {a <> b}) (f : X -> X) (x : X) (L : list X) :
  (forall k, In (iter k f x) L) -> exists i j, (i < j)%nat /\ iter i f x = iter j f x.
Proof.
  intros HL. set (l := map (fun k => iter k f x) (seq 0 (S (length L)))).
  assert (Hn : ~ NoDup l).
  { intros Hn. assert (length l <= length L)%nat.
    { apply NoDup_incl_length; auto. intros y Hy. unfold l in Hy. apply in_map_iff in Hy. destruct Hy as (k & <- & _). apply HL. }
    unfold l in H. rewrite map_length, seq_length in H. lia. }
  apply (not_NoDup dec) in Hn. destruct Hn as (a & l1 & l2 & l3 & E).
  exists (length l1), (length l1 + S (length l2))%nat. split; [lia|].
  assert (Hlen : length l = S (length L)) by (unfold l; rewrite map_length, seq_length; auto).
  assert (Hnth : forall k, (k < S (length L))%nat -> nth_error l k = Some (iter k f x)).
  { intros k Hk. unfold l. rewrite (map_nth_error (fun k => iter k f x) k (seq 0 (S (length L))) (d := k)); auto.
    rewrite (nth_error_nth' _ 0%nat) by (rewrite seq_length; auto). rewrite seq_nth by auto. reflexivity. }
  rewrite E in Hlen. repeat (rewrite app_length in Hlen; cbn [length] in Hlen).
  assert (H1 := Hnth (length l1) ltac:(lia)). assert (H2 := Hnth (length l1 + S (length l2))%nat ltac:(lia)).
  rewrite E in H1, H2. rewrite nth_error_app2 in H1, H2 by lia. rewrite Nat.sub_diag in H1. cbn [nth_error] in H1.
  replace (length l1 + S (length l2) - length l1)%nat with (S (length l2)) in H2 by lia. cbn [nth_error] in H2.
  rewrite nth_error_app2, Nat.sub_diag in H2 by lia. cbn [nth_error] in H2. congruence.
Qed.

Lemma iter_cycle {X} (dec : forall a b : X, {a = b} + {a <> b}) (P : X -> Prop) (f : X -> X) (x : X) (L : list X) :
  P x -> (forall y, P y -> P (f y)) -> (forall y, P y -> In y L) -> (forall y z, P y -> P z -> f y = f z -> y = z) ->
  exists k, iter (S k) f x = x.
Proof.
  intros Hx Hf HL Hinj. assert (HP : forall k, P (iter k f x)) by (induction k as [|k IH]; cbn [iter]; auto).
  destruct (iter_repeats dec f x L) as (i & j & Hij & E); [intros; apply HL; auto|].
  assert (G : forall i d, iter i f x = iter (i + d) f x -> x = iter d f x).
  { clear i j Hij E. induction i as [|i IH]; intros d E; [exact E|]. apply IH. apply Hinj; auto. }
  exists (j - i - 1)%nat. symmetry. apply (G i). replace (i + S (j - i - 1))%nat with j by lia. exact E.
Qed.

Section Types.
  Variable t : int_type.

  (** The maps are defined on the class of [r] and no two of its rows have the same image under one of them. *)
  Definition acts_injectively (tg : tag) (maps : list lmap) (r : vec) : Prop :=
    forall m, In m maps ->
      (forall x, orbit t tg maps r x -> exists y, m_apply (arith t) tg m x = Ok y) /\
      (forall x x' y, orbit t tg maps r x -> orbit t tg maps r x' ->
        m_apply (arith t) tg m x = Ok y -> m_apply (arith t) tg m x' = Ok y -> x = x').

  Lemma injective_reversible tg maps r (L : list vec) : acts_injectively tg maps r -> (forall x, orbit t tg maps r x -> In x L) -> reversible t tg maps r.
  Proof.
    intros Hi HL x y Hx Hy. revert Hx. induction Hy as [|z m y Hz IH Hm E]; intros Hx; [constructor|].
    specialize (IH Hx). assert (Hz' : orbit t tg maps r z) by (apply (orbit_trans t tg maps r x); auto).
    apply (orbit_trans t tg maps y z x); auto. clear IH.
    destruct (Hi m Hm) as (Htot & Hinj).
    set (f := fun u : vec => match m_apply (arith t) tg m u with Ok v => (v : vec) | _ => u end).
    assert (Hf : forall u, orbit t tg maps r u -> m_apply (arith t) tg m u = Ok (f u)).
    { intros u Hu. destruct (Htot u Hu) as (v & Ev). unfold f. cbn in Ev |- *. rewrite Ev. reflexivity. }
    assert (Hfo : forall u, orbit t tg maps r u -> orbit t tg maps r (f u)) by (intros u Hu; apply (orbit_apply t tg maps r u m); auto).
    destruct (iter_cycle (list_eq_dec Z.eq_dec) (orbit t tg maps r) f z L Hz' Hfo HL) as (k & Ek).
    { intros u v Hu Hv Euv. assert (Ev := Hf v Hv). rewrite <- Euv in Ev. exact (Hinj u v (f u) Hu Hv (Hf u Hu) Ev). }
    assert (Ey : y = f z) by (assert (Q := Hf z Hz'); cbn in Q, E; congruence).
    cbn [iter] in Ek. rewrite <- iter_comm, <- Ey in Ek.
    assert (G : forall j, orbit t tg maps y (iter j f y) /\ orbit t tg maps r (iter j f y)).
    { assert (Hy' : orbit t tg maps r y) by (rewrite Ey; auto).
      induction j as [|j (I1 & I2)]; cbn [iter]; [split; [constructor|auto]|]. split; [|auto].
      apply (orbit_apply t tg maps y (iter j f y) m); auto. }
    rewrite <- Ek. apply G.
  Qed.
End Types.
