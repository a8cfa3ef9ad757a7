(** * VertexTheorems: exploring the vertices of a polyhedron given by inequalities. *)
From Coq Require Import List ZArith Arith Lia Bool Permutation.
From Verif Require Import Base Spec LinAlg ListUtil Cone FmeCore FmeReduce FmePure FmePrepare FmeCorrect Span
  ArithModel MatrixModel FmeModel Refine MatrixRefine FmeRefine SafeIntModel IntTypes FmeTheorems DimTheorems NormTheorems HeuristicTheorems
  ClassesModel RotationModel Adjacency RotatePure RotateRefine Climb NormalForm RotationTheorems.
Import ListNotations.
Open Scope Z_scope.

Section Vertices.
  Variables (t : int_type) (order : list nat -> list nat) (n : nat) (V : list vec).
  Hypothesis Ht : t <> INT16.
  Hypothesis Ho : sort_order order.
  Hypothesis HR : rows_representable t V.
  Hypothesis HV : dims n V.
  Hypothesis Hle : forall v, In v V -> nth (n - 1) v 0 <= 0.
  Hypothesis Hlt : exists v, In v V /\ nth (n - 1) v 0 < 0.
  Hypothesis Horigin : ~ facet n V (unit_vec n (n - 1) 1).
  Variables a b : vec.
  Hypothesis Fa : facet n V a.
  Hypothesis Fb : facet n V b.
  Hypothesis Dab : ~ equivalent_ineq V a b.
  Notation e := (unit_vec n (n - 1) (-1)).

  Lemma v_pos : (0 < n)%nat.
  Proof. destruct Hlt as (v & Hv & H). assert (L := dims_in n V v HV Hv). destruct n; [|lia]. destruct v; [cbn in H; lia|discriminate]. Qed.
  Lemma v_ex : exists v, In v V /\ nth (n - 1) v 0 <> 0.
  Proof. destruct Hlt as (v & Hv & H). exists v. split; auto. lia. Qed.
  Lemma v_tight f : facet n V f -> exists v, In v (tight V f) /\ nth (n - 1) v 0 < 0.
  Proof.
    intros Hf. assert (Hp := v_pos). destruct (existsb (fun v => nth (n - 1) v 0 <? 0) (tight V f)) eqn:E.
    - apply existsb_exists in E. destruct E as (v & Hv & E). exists v. split; auto. apply Z.ltb_lt; auto.
    - exfalso. apply Horigin.
      assert (Hd : forall v, In v V -> dot (unit_vec n (n - 1) 1) v = nth (n - 1) v 0).
      { intros v Hv. rewrite dot_unit by (try lia; eapply dims_in; eauto). lia. }
      apply (facet_sim n V f); auto; [apply unit_vec_length|].
      assert (Hval : valid V (unit_vec n (n - 1) 1)) by (intros v Hv; rewrite Hd by auto; auto).
      assert (Hz : forall v, In v V -> dot f v = 0 -> dot (unit_vec n (n - 1) 1) v = 0).
      { intros v Hv Ev. rewrite Hd by auto. assert (Q := Hle v Hv). destruct (Z.eq_dec (nth (n - 1) v 0) 0); auto. exfalso.
        apply not_true_iff_false in E. apply E. apply existsb_exists. exists v. split; [apply in_tight; auto|]. apply Z.ltb_lt. lia. }
      destruct (facet_form n V f _ Hf (unit_vec_length n (n - 1) 1) Hz) as (m & s & Hm & Hms).
      destruct Hlt as (w & Hw & Hwl). assert (Q := Hms w Hw). rewrite Hd in Q by auto.
      assert (Vf := proj1 (proj2 Hf) w Hw). exists s, m. split; [nia|]. split; [auto|]. intros v Hv. specialize (Hms v Hv). lia.
  Qed.
  Lemma v_not_e T : incl T V -> (exists v, In v T /\ nth (n - 1) v 0 < 0) -> ~ valid T e.
  Proof.
    intros Hi (v & Hv & Hn) H. specialize (H v Hv). rewrite unit_dot in H; [lia| |eapply dims_in; eauto]. assert (Hp := v_pos). lia.
  Qed.
  Lemma v_all_fme f : In f (fme order n V) <-> In f (all_rows order n V).
  Proof.
    rewrite (fme_in_iff order Ho n V HV f v_ex). split; [tauto|]. intros H. split; auto. intros ->.
    apply (v_not_e V (incl_refl V) Hlt). apply (all_rows_facet order Ho n V HV _ H).
  Qed.
  Lemma v_ridges f r : facet n V f -> In r (all_rows order n (tight V f)) -> In r (ridges_of order n V f).
  Proof.
    intros Hf Hr. assert (HT := dims_tight n V f HV). destruct (v_tight f Hf) as (v & Hv & Hn). unfold ridges_of.
    apply (fme_in_iff order Ho n (tight V f) HT r); [exists v; split; auto; lia|]. split; auto. intros ->.
    apply (v_not_e (tight V f) (tight_incl V f)); [exists v; auto|]. apply (all_rows_facet order Ho n _ HT _ Hr).
  Qed.
  Lemma v_rotated f f' : facet n V f -> ridge_adj n V f f' -> exists g, In g (rotated_of order n V f) /\ simn V g f'.
  Proof.
    intros Hf Ha. assert (HT := dims_tight n V f HV).
    destruct (all_rows_complete order Ho n (tight V f) HT f' (proj2 (proj2 Ha))) as (r & Hr & Er).
    assert (Fr := proj1 (all_rows_facet order Ho n _ HT r Hr)).
    apply sim_equiv in Er; [|destruct Fr as (F1 & _), Ha as (_ & (F2 & _) & _); congruence].
    destruct (rotate_adj n V order HV Ho f r Hf Hr) as (Hrot & _ & Ha').
    exists (rotate V f r). split.
    - unfold rotated_of. apply in_map. apply v_ridges; auto.
    - apply (neighbour_unique n V f); auto. apply (sim_trans _ _ r); auto. apply (rotates_tight n V HV); auto.
  Qed.

  Lemma v_explored (start : list vec) f0 g : incl start (all_rows order n V) -> rows_representable t start -> In f0 start ->
    (forall f, explored t order V start f -> exists R : list vec, m_rotated (arith t) order V f = Ok R) ->
    In g (all_rows order n V) <-> explored t order V start g.
  Proof.
    intros Hs Hsr Hf0 Hok. assert (Hall := explored_all t order n V Ht Ho HR HV start Hs Hsr a b Fa Fb Dab).
    assert (Nz := any_nonzero order n V Ho HV a b Fa Fb Dab).
    split; [|intros Hg; apply (Hall g Hg)]. intros Hg. apply (all_rows_iff order n V Ho HV) in Hg. destruct Hg as (Fg & Ng).
    assert (Ff0 := proj1 (all_rows_facet order Ho n V HV f0 (Hs f0 Hf0))).
    destruct (all_connected n V order HV Ho f0 g Ff0 Fg) as (h & Sh & Hreach).
    assert (Hpath : forall x y, reaches (ridge_adj n V) x y -> forall x1, explored t order V start x1 -> simn V x1 x ->
      exists y1, explored t order V start y1 /\ simn V y1 y).
    { intros x y. induction 1 as [x|x y z _ IH Hst]; intros x1 Ex Sx; [exists x1; auto|].
      destruct (IH x1 Ex Sx) as (y1 & Ey & Sy). destruct (Hall y1 Ey) as (Hy1 & Hy1r). apply (all_rows_iff order n V Ho HV) in Hy1. destruct Hy1 as (Fy1 & Ny1).
      destruct (Hok y1 Ey) as (R & HRR). destruct (rotated_representable t order n V Ht Ho HR HV y1 R Fy1 Hy1r (Nz y1 Fy1) HRR) as (ER & _).
      assert (Fz : facet n V z) by apply Hst.
      destruct (v_rotated y1 z Fy1) as (z1 & Hz1 & Sz).
      { apply (ridge_adj_sim n V y y1 z z); auto; [apply Fy1|apply Fz|apply sim_sym; auto|apply sim_refl]. }
      exists z1. split; auto. apply (explored_rotated t order V start y1 R); auto. rewrite ER. auto. }
    destruct (Hpath f0 h Hreach f0 (explored_start t order V start f0 Hf0) (sim_refl V f0)) as (h1 & Eh & Sh1).
    destruct (Hall h1 Eh) as (Hh1 & _). apply (all_rows_iff order n V Ho HV) in Hh1. destruct Hh1 as (Fh1 & Nh1).
    assert (h1 = g) as <-; [|exact Eh]. apply (nform_unique n V); auto. apply (sim_trans V h1 h); auto.
  Qed.
End Vertices.
