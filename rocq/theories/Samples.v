(** * Samples: concrete inputs used to show that hypotheses are satisfiable, and for refutations. *)
From Coq Require Import List ZArith Arith Lia Permutation Bool.
From Verif Require Import Base Spec LinAlg FmeRefine SafeIntModel IntTypes FmeTheorems.
Import ListNotations.
Open Scope Z_scope.

(** Stable sorting of positions by increasing key: one behaviour of [std::sort]. *)
Fixpoint insert_pos (ks : list nat) (i : nat) (l : list nat) : list nat :=
  match l with
  | [] => [i]
  | j :: l' => if (nth j ks 0 <=? nth i ks 0)%nat then j :: insert_pos ks i l' else i :: l
  end.
Definition sorted_order (ks : list nat) : list nat := fold_left (fun l i => insert_pos ks i l) (seq 0 (length ks)) [].

Lemma insert_pos_perm ks i l : Permutation (insert_pos ks i l) (i :: l).
Proof.
  induction l as [|j l IH]; cbn [insert_pos]; auto. destruct (_ <=? _)%nat; auto.
  rewrite IH. apply perm_swap.
Qed.
Lemma sorted_order_ok : sort_order sorted_order.
Proof.
  intros ks. unfold sorted_order. 
  assert (H : forall l acc, Permutation (fold_left (fun l i => insert_pos ks i l) l acc) (acc ++ l)).
  { induction l as [|i l IH]; intros acc; cbn [fold_left]; [rewrite app_nil_r; auto|].
    rewrite IH, insert_pos_perm. cbn [app]. apply Permutation_middle. }
  rewrite H. reflexivity.
Qed.

(** The unit square (vertices in homogenised form). *)
Definition square : list vec := [[0; 0; 1]; [1; 0; 1]; [0; 1; 1]; [1; 1; 1]].
(** A triangle in the plane x1 + x2 + x3 = 1 with an additional ray. *)
Definition tilted : list vec := [[1; 0; 0; 1]; [0; 1; 0; 1]; [0; 0; 1; 1]; [2; -1; -1; 0]].
(** Two rays only. *)
Definition two_rays : list vec := [[1; 0; 0]; [0; 1; 0]].
(** A triangle whose facets do not fit into 16 bits. *)
Definition big_triangle : list vec := [[0; 0; 1]; [200; 1; 1]; [3; 199; 1]].
(** The inequalities of the unit square, with the homogenising one. *)
Definition square_ineqs : list vec := [[-1; 0; 0]; [0; -1; 0]; [1; 0; -1]; [0; 1; -1]; [0; 0; -1]].

Ltac solve_rows := repeat (constructor; [repeat constructor|]); try constructor.

Lemma square_dims : dims 3 square. Proof. solve_rows. Qed.
Lemma tilted_dims : dims 4 tilted. Proof. solve_rows. Qed.
Lemma square_ineqs_dims : dims 3 square_ineqs. Proof. solve_rows. Qed.
Lemma big_triangle_dims : dims 3 big_triangle. Proof. solve_rows. Qed.
Lemma square_hom : homogenised 3 square.
Proof.
  split; [intros v Hv; cbn in Hv; intuition (subst; cbn; lia)|]. exists [1; 1; 1]. split; [cbn; tauto|cbn; lia].
Qed.
Lemma tilted_hom : homogenised 4 tilted.
Proof.
  split; [intros v Hv; cbn in Hv; intuition (subst; cbn; lia)|]. exists [1; 0; 0; 1]. split; [cbn; tauto|cbn; lia].
Qed.
Lemma square_rep t : rows_representable t square. Proof. destruct t; solve_rows. Qed.
Lemma tilted_rep t : rows_representable t tilted. Proof. destruct t; solve_rows. Qed.
Lemma square_ineqs_rep t : rows_representable t square_ineqs. Proof. destruct t; solve_rows. Qed.
Lemma big_triangle_rep t : rows_representable t big_triangle. Proof. destruct t; solve_rows. Qed.
