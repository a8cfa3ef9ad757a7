(** * ConeSame: generators of the same cone have the same facets, and double description returns the same rows for them. *)
From Coq Require Import List ZArith Lia Bool Arith Permutation Sorted.
From Verif Require Import Samples Spec LinAlg Cone ListUtil FmeCore Gauss FmePure FmeReduce FmePrepare FmeCorrect Span ArithModel IntTypes DimTheorems FmeTheorems NormTheorems Adjacency NormalForm GaussSame ClassesModel ClassesProofs.
Import ListNotations.
Open Scope Z_scope.

Lemma cone_form n V v : dims n V -> in_cone n V v -> exists k cs, 0 < k /\ length cs = length V /\ Forall (fun c => 0 <= c) cs /\ forall a, k * dot a v = dot cs (map (fun w => dot a w) V).
Proof.
  intros HV (k & cs & Hk & Hl & Hp & E). exists k, cs. split; auto. split; auto. split; auto. intros a.
  rewrite (dot_comm a v), <- dot_vscale_l, E, dot_lincomb_l by auto. f_equal. apply map_ext. intros w. apply dot_comm.
Qed.
Lemma comb_valid (f : vec -> Z) V cs : length cs = length V -> Forall (fun c => 0 <= c) cs -> (forall w, In w V -> f w <= 0) -> dot cs (map f V) <= 0.
Proof.
  revert cs. induction V as [|w V IH]; intros [|c cs] Hl Hp Hf; cbn [length] in *; try discriminate; try (cbn; lia); cbn [map dot].
  apply Forall_cons_iff in Hp as [Hc Hp]. assert (dot cs (map f V) <= 0) by (apply IH; auto; intros; apply Hf; right; auto). specialize (Hf w (or_introl eq_refl)). nia.
Qed.
Lemma comb_zero (f g : vec -> Z) V cs : length cs = length V -> Forall (fun c => 0 <= c) cs -> (forall w, In w V -> f w <= 0) -> dot cs (map f V) = 0 -> (forall w, In w V -> f w = 0 -> g w = 0) -> dot cs (map g V) = 0.
Proof.
  revert cs. induction V as [|w V IH]; intros [|c cs] Hl Hp Hf E Hg; cbn [length] in *; try discriminate; try (cbn; lia); cbn [map dot] in *.
  apply Forall_cons_iff in Hp as [Hc Hp]. assert (D : dot cs (map f V) <= 0) by (apply comb_valid; auto; intros; apply Hf; right; auto). assert (Fw := Hf w (or_introl eq_refl)).
  assert (D0 : dot cs (map f V) = 0) by nia. rewrite (IH cs); auto; try (intros; apply Hf; right; auto); try (intros; apply Hg; auto; right; auto).
  destruct (Z.eq_dec c 0) as [->|Hc0]; [lia|]. rewrite (Hg w (or_introl eq_refl)) by nia. lia.
Qed.

(** Every inequality that holds for [V] holds for [x]: then [x] is in the cone. *)
Lemma farkas n V x : dims n V -> length x = n -> (forall a, length a = n -> valid V a -> dot a x <= 0) -> in_cone n V x.
Proof.
  intros HV Hx H. assert (P := prepare_ok n V HV). assert (O : forall ks, Permutation (sorted_order ks) (seq 0 (length ks))) by (intros ks; apply sorted_order_ok).
  apply (all_rows_describe sorted_order O n V HV x Hx). split.
  - intros e He. assert (Le : length e = n) by (apply (dims_in n (p_eqs (prepare n V))); auto; apply (po_eqs_dim _ _ _ P)). assert (Ve := po_eqs_van _ _ _ P e He).
    assert (A := H e Le ltac:(intros v Hv; rewrite (Ve v Hv); lia)). assert (B := H (vscale (-1) e) ltac:(rewrite vscale_length; auto) ltac:(intros v Hv; rewrite dot_vscale_l, (Ve v Hv); lia)). rewrite dot_vscale_l in B. lia.
  - intros r Hr. destruct (all_rows_facet sorted_order O n V HV r Hr) as ((L & Vr & _) & _). auto.
Qed.

Definition included (n : nat) (V1 V2 : list vec) : Prop := forall v, In v V1 -> in_cone n V2 v.

Section Included.
  Variables (n : nat) (V1 V2 : list vec).
  Hypotheses (H1 : dims n V1) (H2 : dims n V2) (I12 : included n V1 V2) (I21 : included n V2 V1).

  Lemma valid_included W W' a : dims n W' -> included n W W' -> valid W' a -> valid W a.
  Proof. intros HW HI Ha v Hv. destruct (cone_form n W' v HW (HI v Hv)) as (k & cs & Hk & Hl & Hp & E). assert (D := comb_valid (fun w => dot a w) W' cs Hl Hp Ha). rewrite <- E in D. nia. Qed.
  Lemma vanishes_included W W' a : dims n W' -> included n W W' -> vanishes W' a -> vanishes W a.
  Proof.
    intros HW HI Ha v Hv. destruct (cone_form n W' v HW (HI v Hv)) as (k & cs & Hk & Hl & Hp & E).
    assert (D := comb_zero (fun _ => 0) (fun w => dot a w) W' cs Hl Hp ltac:(intros; lia)). rewrite <- E in D. assert (k * dot a v = 0); [|nia]. apply D; [|intros w Hw _; apply Ha; auto].
    clear. revert cs. induction W' as [|w W' IH]; intros [|c cs]; cbn [map dot]; auto. rewrite IH. lia.
  Qed.
  Lemma simn_included W W' a b : dims n W' -> included n W W' -> simn W' a b -> length a = length b -> simn W a b.
  Proof.
    intros HW HI Hs Hl. apply sim_equiv in Hs; auto. apply sim_equiv; auto. destruct Hs as (k & s & Hk & Hs & E). exists k, s. split; auto. split; auto. apply (vanishes_included W W'); auto.
  Qed.
  Lemma facet_included a : facet n V1 a -> facet n V2 a.
  Proof.
    intros (L & A1 & A2 & A3). split; auto. split; [apply (valid_included V2 V1); auto|]. split; [intros A; apply A2, (vanishes_included V1 V2); auto|].
    intros b Hb Ht. destruct (A3 b Hb) as (k & s & Hk & Hv).
    - intros v Hv Av. destruct (cone_form n V2 v H2 (I12 v Hv)) as (k & cs & Hk & Hl & Hp & E).
      assert (Va := valid_included V2 V1 a H1 I21 A1). assert (D : k * dot b v = 0); [|nia]. rewrite E. apply (comb_zero (fun w => dot a w) (fun w => dot b w)); auto. rewrite <- E, Av. lia.
    - exists k, s. split; auto. apply (vanishes_included V2 V1); auto.
  Qed.
  Lemma eqs_included : eqs n V1 = eqs n V2.
  Proof. apply eqs_same; auto. intros x _. split; [apply (vanishes_included V2 V1)|apply (vanishes_included V1 V2)]; auto. Qed.
End Included.

Lemma rows_included n V1 V2 o1 o2 : dims n V1 -> dims n V2 -> sort_order o1 -> sort_order o2 -> included n V1 V2 -> included n V2 V1 -> (exists v, In v V1 /\ nth (n - 1) v 0 <> 0) -> (exists v, In v V2 /\ nth (n - 1) v 0 <> 0) ->
  forall f, In f (fme o1 n V1) -> In f (fme o2 n V2).
Proof.
  intros H1 H2 O1 O2 I12 I21 X1 X2 f Hf. apply (fme_iff n V1 o1 H1 O1 X1) in Hf as (F1 & F2 & F3). apply (fme_iff n V2 o2 H2 O2 X2).
  split; [apply (facet_included n V1 V2); auto|]. split.
  - unfold nform in *. rewrite <- (eqs_included n V1 V2); auto.
  - intros Hs. apply F3. apply (simn_included n V1 V2); auto. rewrite unit_vec_length. apply F1.
Qed.

(** ** Sets of rows *)
Lemma sorted_same t (s s' : list vec) : sorted_rows t s -> sorted_rows t s' -> (forall x, In x s <-> In x s') -> s = s'.
Proof.
  revert s'. induction s as [|x s IH]; intros [|y s'] Hs Hs' H; auto.
  - exfalso. apply (proj2 (H y)). left. auto.
  - exfalso. apply (proj1 (H x)). left. auto.
  - apply sorted_tail in Hs as [Hs X]. apply sorted_tail in Hs' as [Hs' Y].
    assert (E : x = y).
    { destruct (proj1 (H x) (or_introl eq_refl)) as [E|K]; auto. destruct (proj2 (H y) (or_introl eq_refl)) as [E|K']; auto. exfalso. specialize (X y K'). specialize (Y x K). apply lt_asym in X. congruence. }
    subst y. f_equal. apply IH; auto. intros z. specialize (H z). cbn [In] in H. split; intros K.
    + destruct (proj1 H (or_intror K)) as [E|K']; auto. subst z. specialize (X x K). rewrite lt_irrefl in X. discriminate.
    + destruct (proj2 H (or_intror K)) as [E|K']; auto. subst z. specialize (Y x K). rewrite lt_irrefl in Y. discriminate.
Qed.
Lemma classes_of_same t fuel tg maps (F F' : list vec) : (forall x, In x F <-> In x F') -> m_classes_of (arith t) fuel tg maps F = m_classes_of (arith t) fuel tg maps F'.
Proof.
  intros H. unfold m_classes_of. f_equal. destruct (set_of_spec t F) as (S1 & E1). destruct (set_of_spec t F') as (S2 & E2). apply (sorted_same t); auto. intros x. rewrite E1, E2. apply H.
Qed.
