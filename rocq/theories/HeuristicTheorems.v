(** * HeuristicTheorems: the abortable elimination returns something whenever there is a facet. *)
From Coq Require Import List ZArith Arith Lia Bool Permutation.
From Verif Require Import Base Spec LinAlg ListUtil Cone Gauss FmeCore FmeReduce FmeFacets FmePure FmePrepare FmeCorrect Span
  ArithModel MatrixModel FmeModel Refine MatrixRefine FmeRefine SafeIntModel IntTypes FmeTheorems.
Import ListNotations.
Open Scope Z_scope.

Lemma heuristic_loop_cases order d ws : forall i sys,
  heuristic_loop order d i sys ws = map fst (projects (zsort_of order) d i sys ws) \/ heuristic_loop order d i sys ws <> [].
Proof.
  induction ws as [|w ws IH]; intros i sys; cbn [heuristic_loop projects]; auto.
  destruct (detect_bad_row _) as [|f fs]; [apply IH|]. right. discriminate.
Qed.

Lemma heuristic_empty order n V : sort_order order -> dims n V -> fme_heuristic order n V = [] -> all_rows order n V = [].
Proof.
  intros Ho HV. unfold fme_heuristic, all_rows, fme_rows. rewrite reinsert_spec. intros H.
  assert (H0 := map_eq_nil _ _ H).
  destruct (heuristic_loop_cases order (length (p_matrix (prepare n V))) (skipn (length (p_matrix (prepare n V))) (p_vertices (prepare n V)))
    (length (p_matrix (prepare n V))) (initial_system (p_matrix (prepare n V)) (p_vertices (prepare n V)))) as [E|E].
  - rewrite <- E, H0. reflexivity.
  - contradiction.
Qed.

(** Unless the cone is a linear space. *)
Lemma heuristic_nonempty order n V v : sort_order order -> dims n V -> In v V -> ~ in_cone n V (vscale (-1) v) ->
  fme_heuristic order n V <> [].
Proof.
  intros Ho HV Hv Hn H. apply Hn. assert (Hl := dims_in n V v HV Hv).
  apply (all_rows_describe order Ho n V HV); [rewrite vscale_length; auto|].
  rewrite (heuristic_empty order n V Ho HV H). split; [|intros r []].
  intros e He. rewrite dot_vscale_r. rewrite (po_eqs_van _ _ _ (prepare_ok n V HV) e He v Hv). lia.
Qed.

Lemma homogenised_nonlinear n V : dims n V -> homogenised n V -> exists v, In v V /\ ~ in_cone n V (vscale (-1) v).
Proof.
  intros HV Hh. destruct (homogenised_pos n V HV Hh) as (Hn & _). destruct Hh as (Hge & v & Hv & Hpos). exists v. split; auto. intros Hc.
  assert (Hl := dims_in n V v HV Hv).
  assert (H : dot (unit_vec n (n - 1) (-1)) (vscale (-1) v) <= 0).
  { apply (in_cone_valid n V); auto. intros u Hu. rewrite unit_dot by (try lia; eapply dims_in; eauto). specialize (Hge u Hu). lia. }
  rewrite unit_dot, nth_vscale in H by (rewrite ?vscale_length; lia). lia.
Qed.

Section Results.
  Variables (t : int_type) (order : list nat -> list nat) (n : nat) (V : list vec).
  Hypothesis Ht : t <> INT16.
  Hypothesis Ho : sort_order order.
  Hypothesis HR : rows_representable t V.
  Hypothesis HV : dims n V.

  Lemma heuristic_facets_result (F : list vec) f : nonzero n V -> m_fme_heuristic (arith t) order V = Ok F -> In f F -> facet n V f.
  Proof. intros H HF Hf. rewrite (result_heuristic t order n V Ht Ho HR HV F H HF) in Hf. apply (fme_heuristic_facet order Ho n V HV f Hf). Qed.

  Lemma heuristic_nonempty_result (F : list vec) : homogenised n V -> m_fme_heuristic (arith t) order V = Ok F -> F <> [].
  Proof.
    intros Hh HF. destruct (homogenised_pos n V HV Hh) as (_ & _ & Hnz).
    rewrite (result_heuristic t order n V Ht Ho HR HV F Hnz HF).
    destruct (homogenised_nonlinear n V HV Hh) as (v & Hv & Hc). apply (heuristic_nonempty order n V v); auto.
  Qed.

  (** ** Equations *)
  Lemma equations_result (E : list vec) : (0 < length V)%nat -> (0 < n)%nat -> m_extract_equations (arith t) V = Ok E ->
    dims n E /\ (forall e, In e E -> vanishes V e /\ primitive e) /\ independent n E /\
    (forall b, length b = n -> vanishes V b -> in_span n E b) /\
    (forall i, (i < length E)%nat -> exists z, (z < n)%nat /\ 0 < nth z (nth i E []) 0 /\
        (forall c, (c < z)%nat -> nth c (nth i E []) 0 = 0) /\
        (forall j, (j < length E)%nat -> j <> i -> nth z (nth j E []) 0 = 0)).
  Proof.
    intros H1 H2 HE. rewrite (result_equations t n V Ht HR HV E H1 H2 HE). assert (P := prepare_ok n V HV).
    assert (Hlead : forall i, (i < length (p_eqs (prepare n V)))%nat -> exists z, (z < n)%nat /\ 0 < nth z (nth i (p_eqs (prepare n V)) []) 0 /\
        (forall c, (c < z)%nat -> nth c (nth i (p_eqs (prepare n V)) []) 0 = 0) /\
        (forall j, (j < length (p_eqs (prepare n V)))%nat -> j <> i -> nth z (nth j (p_eqs (prepare n V)) []) 0 = 0)).
    { intros i Hi. destruct (po_eqs_lead _ _ _ P i Hi) as (z & Hz & Hr). exists z. split; auto. apply (po_zero _ _ _ P z Hz). }
    split; [apply (po_eqs_dim _ _ _ P)|]. split.
    { intros e He. split; [apply (po_eqs_van _ _ _ P e He)|apply (po_eqs_prim _ _ _ P e He)]. }
    split; [|split; [apply (po_eqs_span _ _ _ P)|exact Hlead]].
    apply independent_private; [apply (po_eqs_dim _ _ _ P)|]. intros i Hi.
    destruct (Hlead i Hi) as (z & Hz & Hp & _ & Ho'). exists z. split; [lia|auto].
  Qed.
End Results.
