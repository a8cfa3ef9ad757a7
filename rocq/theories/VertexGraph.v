(** * VertexGraph: exploring the vertices of a polyhedron given by inequalities, for all polyhedra.
    The elimination drops one row, -x_k <= 0 for the last column k it works with; here this is followed into the neighbours. *)
From Coq Require Import List ZArith Arith Lia Bool Permutation.
From Verif Require Import Base Spec LinAlg ListUtil Cone FmeCore FmeReduce FmePure FmePrepare FmeCorrect Span
  ArithModel MatrixModel FmeModel Refine MatrixRefine FmeRefine SafeIntModel IntTypes FmeTheorems DimTheorems NormTheorems HeuristicTheorems
  ClassesModel RotationModel Adjacency RotatePure RotateRefine Climb NormalForm RotationTheorems.
Import ListNotations.
Open Scope Z_scope.

(** ** The row the elimination drops *)
Lemma er_last : forall z v k m, desc z -> (forall c, In c z -> (c <= m)%nat) -> ~ In k z -> (k <= m)%nat -> (forall c, (k < c <= m)%nat -> In c z) -> length v = S m ->
  nth (length (er z v) - 1) (er z v) 0 = nth k v 0.
Proof.
  induction z as [|x z IH]; intros v k m Hd Hb Hk Hkm Hall Hl.
  - cbn [er fold_left]. rewrite Hl. f_equal. destruct (Nat.eq_dec k m); [lia|]. exfalso. apply (Hall m). lia.
  - destruct Hd as (H1 & H2). change (er (x :: z) v) with (er z (erase x v)). assert (Hx := Hb x (or_introl eq_refl)).
    assert (Hxk : x <> k) by (intros ->; apply Hk; left; auto). assert (Hkz : ~ In k z) by (intros H; apply Hk; right; auto).
    destruct (Nat.lt_ge_cases k x) as [Hlt|Hge].
    + assert (x = m). { destruct (Hall m ltac:(lia)) as [E|E]; auto. specialize (H1 m E). lia. } subst x. destruct m as [|m]; [lia|].
      rewrite (IH (erase (S m) v) k m); auto; try lia.
      * rewrite nth_erase. destruct (Nat.ltb_spec k (S m)); [reflexivity|lia].
      * intros c Hc. specialize (H1 c Hc). lia.
      * intros c Hc. destruct (Hall c ltac:(lia)) as [E|E]; auto. lia.
      * rewrite erase_length; lia.
    + assert (k = m). { destruct (Nat.eq_dec k m); auto. destruct (Hall m ltac:(lia)) as [E|E]; [lia|]. specialize (H1 m E). lia. } subst m. destruct k as [|k]; [lia|].
      rewrite (IH (erase x v) k k); auto; try lia.
      * rewrite nth_erase. destruct (Nat.ltb_spec k x); [lia|reflexivity].
      * intros c Hc. specialize (H1 c Hc). lia.
      * intros Hc. specialize (H1 k Hc). lia.
      * rewrite erase_length; lia.
Qed.
Section Dropped.
  Variables (order : list nat -> list nat) (n : nat) (V : list vec).
  Hypothesis Ho : sort_order order.
  Hypothesis HV : dims n V.
  Notation zc := (p_zero (prepare n V)).
  Notation d := (length (p_matrix (prepare n V))).
  Let P := prepare_ok n V HV.

  Lemma dropped_row k r : (k < n)%nat -> ~ In k zc -> (forall c, (k < c < n)%nat -> In c zc) ->
    In r (fme order n V) <-> In r (all_rows order n V) /\ r <> unit_vec n k (-1).
  Proof.
    intros Hkn Hk Hall.
    assert (Hd : (0 < d)%nat).
    { destruct (Nat.eq_dec d 0) as [E|E]; [|lia]. exfalso. assert (Hdim := po_dim _ _ _ P). rewrite E in Hdim. apply Hk.
      assert (Hi : incl (seq 0 n) zc).
      { apply NoDup_length_incl.
        - apply desc_NoDup. apply (po_desc _ _ _ P).
        - rewrite seq_length. lia.
        - intros c Hc. apply in_seq. apply (po_zero _ _ _ P) in Hc. lia. }
      apply Hi, in_seq. lia. }
    assert (Hib : ins zc (unit_vec d (d - 1) (-1)) = unit_vec n k (-1)).
    { apply (vec_ext n).
      - apply ins_len; auto. apply unit_vec_length.
      - apply unit_vec_length.
      - intros c Hc. rewrite dot_lift by (rewrite ?unit_vec_length; auto). rewrite !dot_unit by (try lia; rewrite ?er_len; auto). f_equal.
        assert (EL := er_len n V HV c Hc). rewrite <- EL. apply (er_last zc c k (n - 1)%nat).
        + apply (po_desc _ _ _ P).
        + intros x Hx. assert (H1 := po_zero _ _ _ P x Hx). lia.
        + exact Hk.
        + lia.
        + intros x Hx. apply Hall. lia.
        + lia. }
    rewrite (fme_filter order Ho n V HV Hd). unfold all_rows. rewrite !in_map_iff.
    assert (Hdims := fme_rows_dims order Ho n V HV). 
    assert (BR : forall r', In r' (fme_rows order (prepare n V)) -> bad_row r' = true <-> r' = unit_vec d (d - 1) (-1)).
    { intros r' Hr'. assert (L := dims_in d _ _ Hdims Hr'). destruct d as [|d'] eqn:E; [lia|]. replace (S d' - 1)%nat with d' by lia. apply bad_row_spec. auto. }
    split.
    - intros (r' & <- & Hr). apply filter_In in Hr. destruct Hr as (Hr & Hb). split; [eauto|].
      intros Ei. rewrite <- Hib in Ei. apply ins_inj in Ei.
      + apply (BR r' Hr) in Ei. rewrite Ei in Hb. discriminate.
      + apply (dims_in d _ _ Hdims); auto.
      + apply unit_vec_length.
    - intros ((r' & <- & Hr) & Hneq). exists r'. split; auto. apply filter_In. split; auto.
      destruct (bad_row r') eqn:Eb; auto. exfalso. apply Hneq. apply (BR r' Hr) in Eb. rewrite Eb. exact Hib.
  Qed.
  (** Only the last column vanishes: the row -x_{n-2} <= 0 is dropped. *)
  Lemma dropped_at_infinity r : (2 <= n)%nat -> (forall v, In v V -> nth (n - 1) v 0 = 0) ->
    (forall b, length b = n -> vanishes V b -> forall c, (c < n - 1)%nat -> nth c b 0 = 0) ->
    In r (fme order n V) <-> In r (all_rows order n V) /\ r <> unit_vec n (n - 2) (-1).
  Proof.
    intros Hn H0 H1.
    assert (EL := po_eqs_len _ _ _ P). set (eqs := p_eqs (prepare n V)) in *.
    assert (Lead : forall i, (i < length eqs)%nat -> In (n - 1)%nat zc /\ 0 < nth (n - 1) (nth i eqs []) 0 /\ forall j, (j < length eqs)%nat -> j <> i -> nth (n - 1) (nth j eqs []) 0 = 0).
    { intros i Hi. destruct (po_eqs_lead _ _ _ P i Hi) as (z & Hz & Hp & _ & Hj). assert (Hin : In (nth i eqs []) eqs) by (apply nth_In; auto).
      assert (Hzn := po_zero _ _ _ P z Hz). assert (z = (n - 1)%nat); [|subst z; auto].
      destruct (Nat.eq_dec z (n - 1)) as [|Hne]; auto. assert (Q := H1 _ (dims_in n _ _ (po_eqs_dim _ _ _ P) Hin) (po_eqs_van _ _ _ P _ Hin) z ltac:(lia)). fold eqs in Hp. rewrite Q in Hp. lia. }
    assert (One : (length eqs = 1)%nat).
    { destruct eqs as [|e0 [|e1 eqs']] eqn:E; auto.
      - exfalso. assert (Hv : vanishes V (unit_vec n (n - 1) 1)) by (intros v Hv; rewrite dot_unit by (try lia; apply (dims_in n V); auto); rewrite H0; auto; lia).
        destruct (po_eqs_span _ _ _ P _ (unit_vec_length n (n - 1) 1) Hv) as (q & cs & Hq & Hcs & EQ). fold eqs in Hcs, EQ. rewrite E in Hcs, EQ. destruct cs; [|discriminate]. cbn [lincomb] in EQ.
        assert (X : nth (n - 1) (vscale q (unit_vec n (n - 1) 1)) 0 = 0) by (rewrite EQ; apply nth_vzero). rewrite nth_vscale in X. unfold unit_vec in X. rewrite nth_upd, vzero_length, Nat.eqb_refl in X.
        destruct (Nat.ltb_spec (n - 1) n); [|lia]. cbn in X. lia.
      - exfalso. destruct (Lead 0%nat ltac:(cbn; lia)) as (_ & _ & L0). destruct (Lead 1%nat ltac:(cbn; lia)) as (_ & L1 & _). rewrite (L0 1%nat ltac:(cbn; lia) ltac:(lia)) in L1. lia. }
    assert (Z2 : In (n - 1)%nat zc) by (apply (Lead 0%nat); lia).
    assert (Z1 : forall c, In c zc -> c = (n - 1)%nat) by (rewrite One in EL; destruct zc as [|c0 [|c1 zs]]; try discriminate; intros c [<-|[]]; destruct Z2 as [Z2|[]]; auto).
    apply dropped_row; [lia| |].
    - intros Hc. apply Z1 in Hc. lia.
    - intros c Hc. replace c with (n - 1)%nat by lia. auto.
  Qed.
End Dropped.

(** ** Exploration *)
Section Graph.
  Variables (t : int_type) (order : list nat -> list nat) (n : nat) (V : list vec).
  Hypothesis Ht : t <> INT16.
  Hypothesis Ho : sort_order order.
  Hypothesis HR : rows_representable t V.
  Hypothesis HV : dims n V.
  Hypothesis Hlt : exists v, In v V /\ nth (n - 1) v 0 < 0.
  Hypothesis Hpt : forall b, length b = n -> vanishes V b -> b = vzero n.
  Hypothesis Nz : forall f, facet n V f -> nonzero n (tight V f).
  Notation e := (unit_vec n (n - 1) (-1)).
  (** The two kinds of ridges that would be dropped. *)
  Hypothesis Hedge : forall f, facet n V f -> ~ facet n (tight V f) e.
  Hypothesis Hedge0 : forall f, facet n V f -> (forall v, In v (tight V f) -> nth (n - 1) v 0 = 0) -> ~ facet n (tight V f) (unit_vec n (n - 2) (-1)).

  Lemma g_pos : (0 < n)%nat.
  Proof. destruct Hlt as (v & Hv & H). assert (L := dims_in n V v HV Hv). destruct (Nat.eq_dec n 0) as [E|]; [|lia]. rewrite E in L. destruct v; [exfalso; rewrite nth_overflow in H by (cbn; lia); lia|discriminate]. Qed.
  Lemma g_ex : exists v, In v V /\ nth (n - 1) v 0 <> 0.
  Proof. destruct Hlt as (v & Hv & H). exists v. split; auto. lia. Qed.
  Lemma g_all_fme f : In f (fme order n V) <-> In f (all_rows order n V).
  Proof.
    rewrite (fme_in_iff order Ho n V HV f g_ex). split; [tauto|]. intros H. split; auto. intros ->.
    assert (Hv := proj1 (proj2 (proj1 (all_rows_facet order Ho n V HV _ H)))). destruct Hlt as (v & Hin & Hn). specialize (Hv v Hin). rewrite unit_dot in Hv; [lia|assert (Hp := g_pos); lia|apply (dims_in n V); auto].
  Qed.
  (** At the origin only the last column vanishes. *)
  Lemma g_origin f : facet n V f -> (forall v, In v (tight V f) -> nth (n - 1) v 0 = 0) ->
    forall x, length x = n -> vanishes (tight V f) x -> forall c, (c < n - 1)%nat -> nth c x 0 = 0.
  Proof.
    intros Hf H0 x Hx Hz c Hc. assert (Hp := g_pos).
    destruct (facet_form n V f x Hf Hx) as (k & s & Hk & E1); [intros v Hv Ev; apply Hz; apply in_tight; auto|].
    destruct (facet_form n V f (unit_vec n (n - 1) 1) Hf (unit_vec_length n (n - 1) 1)) as (k' & s' & Hk' & E2).
    { intros v Hv Ev. rewrite dot_unit by (try lia; apply (dims_in n V); auto). rewrite H0; [lia|apply in_tight; auto]. }
    assert (Hs' : s' <> 0). { intros ->. destruct Hlt as (v & Hv & Hn). specialize (E2 v Hv). rewrite dot_unit in E2 by (try lia; apply (dims_in n V); auto). nia. }
    assert (Q : vadd (vscale (s' * k) x) (vscale (- (s * k')) (unit_vec n (n - 1) 1)) = vzero n).
    { apply Hpt; [rewrite vadd_length, !vscale_length, unit_vec_length; lia|]. intros v Hv. rewrite dot_vadd_l by (rewrite !vscale_length, unit_vec_length; auto). rewrite !dot_vscale_l. specialize (E1 v Hv). specialize (E2 v Hv).
      replace (s' * k * dot x v) with (s' * (k * dot x v)) by ring. replace (- (s * k') * dot (unit_vec n (n - 1) 1) v) with (- (s * (k' * dot (unit_vec n (n - 1) 1) v))) by ring. rewrite E1, E2. ring. }
    assert (Q' : nth c (vadd (vscale (s' * k) x) (vscale (- (s * k')) (unit_vec n (n - 1) 1))) 0 = 0) by (rewrite Q; apply nth_vzero).
    rewrite nth_vadd, !nth_vscale in Q' by (rewrite !vscale_length, unit_vec_length; auto). unfold unit_vec in Q'. rewrite nth_upd, nth_vzero, vzero_length in Q'. destruct (Nat.eqb_spec c (n - 1)); [lia|]. cbn [andb] in Q'. nia.
  Qed.
  Lemma g_ridges f r : facet n V f -> In r (all_rows order n (tight V f)) -> In r (ridges_of order n V f).
  Proof.
    intros Hf Hr. assert (HT := dims_tight n V f HV). assert (Hp := g_pos). assert (Fr := proj1 (all_rows_facet order Ho n _ HT r Hr)). unfold ridges_of.
    destruct (existsb (fun v => negb (nth (n - 1) v 0 =? 0)) (tight V f)) eqn:E.
    - apply existsb_exists in E. destruct E as (v & Hv & E). apply negb_true_iff, Z.eqb_neq in E.
      apply (fme_in_iff order Ho n (tight V f) HT r); [exists v; auto|]. split; auto. intros ->. apply (Hedge f Hf). auto.
    - assert (H0 : forall v, In v (tight V f) -> nth (n - 1) v 0 = 0).
      { intros v Hv. destruct (Z.eq_dec (nth (n - 1) v 0) 0); auto. exfalso. apply not_true_iff_false in E. apply E. apply existsb_exists. exists v. split; auto. apply negb_true_iff, Z.eqb_neq. auto. }
      assert (Hn : (2 <= n)%nat).
      { destruct (Nat.eq_dec n 1) as [E1|]; [|lia]. exfalso. apply (proj1 (proj2 (proj2 Fr))). intros v Hv. assert (L := dims_in n _ v HT Hv). specialize (H0 v Hv). rewrite E1 in *. destruct v as [|x [|]]; try discriminate L. cbn in H0. subst x.
        assert (Lr := proj1 Fr). destruct r as [|y [|y2 r]]; try discriminate Lr. cbn [dot]. lia. }
      apply (dropped_at_infinity order n (tight V f) Ho HT r Hn H0 (g_origin f Hf H0)). split; auto. intros ->. apply (Hedge0 f Hf H0). auto.
  Qed.
  Lemma g_rotated f f' : facet n V f -> ridge_adj n V f f' -> exists g, In g (rotated_of order n V f) /\ simn V g f'.
  Proof.
    intros Hf Ha. assert (HT := dims_tight n V f HV).
    destruct (all_rows_complete order Ho n (tight V f) HT f' (proj2 (proj2 Ha))) as (r & Hr & Er).
    assert (Fr := proj1 (all_rows_facet order Ho n _ HT r Hr)).
    apply sim_equiv in Er; [|destruct Fr as (F1 & _), Ha as (_ & (F2 & _) & _); congruence].
    destruct (rotate_adj n V order HV Ho f r Hf Hr) as (Hrot & _ & Ha').
    exists (rotate V f r). split.
    - unfold rotated_of. apply in_map. apply g_ridges; auto.
    - apply (neighbour_unique n V f); auto. apply (sim_trans _ _ r); auto. apply (rotates_tight n V HV); auto.
  Qed.
  Lemma g_explored_all (start : list vec) : incl start (all_rows order n V) -> rows_representable t start -> forall f, explored t order V start f -> In f (all_rows order n V) /\ Forall (representable t) f.
  Proof.
    intros Hs Hsr f. induction 1 as [f Hf|f R g _ (IH & IHr) HRR Hg].
    - split; auto. apply (proj1 (Forall_forall _ _) Hsr); auto.
    - apply (all_rows_iff order n V Ho HV) in IH. destruct IH as (Ff & Nf).
      destruct (rotated_representable t order n V Ht Ho HR HV f R Ff IHr (Nz f Ff) HRR) as (-> & Hrep).
      split; [|apply (proj1 (Forall_forall _ _) Hrep); auto].
      apply (all_rows_iff order n V Ho HV). split; [|apply (rotated_nform n V order HV Ho f); auto].
      destruct (rotated_ridge n V order HV Ho f g Ff Hg) as (r & _ & _ & _ & _ & _ & Ha). apply Ha.
  Qed.
  Lemma g_explored (start : list vec) f0 g : incl start (all_rows order n V) -> rows_representable t start -> In f0 start ->
    (forall f, explored t order V start f -> exists R : list vec, m_rotated (arith t) order V f = Ok R) ->
    In g (all_rows order n V) <-> explored t order V start g.
  Proof.
    intros Hs Hsr Hf0 Hok. assert (Hall := g_explored_all start Hs Hsr).
    split; [|intros Hg; apply (Hall g Hg)]. intros Hg. apply (all_rows_iff order n V Ho HV) in Hg. destruct Hg as (Fg & Ng).
    assert (Ff0 := proj1 (all_rows_facet order Ho n V HV f0 (Hs f0 Hf0))).
    destruct (all_connected n V order HV Ho f0 g Ff0 Fg) as (h & Sh & Hreach).
    assert (Hpath : forall x y, reaches (ridge_adj n V) x y -> forall x1, explored t order V start x1 -> simn V x1 x ->
      exists y1, explored t order V start y1 /\ simn V y1 y).
    { intros x y. induction 1 as [x|x y z _ IH Hst]; intros x1 Ex Sx; [exists x1; auto|].
      destruct (IH x1 Ex Sx) as (y1 & Ey & Sy). destruct (Hall y1 Ey) as (Hy1 & Hy1r). apply (all_rows_iff order n V Ho HV) in Hy1. destruct Hy1 as (Fy1 & Ny1).
      destruct (Hok y1 Ey) as (R & HRR). destruct (rotated_representable t order n V Ht Ho HR HV y1 R Fy1 Hy1r (Nz y1 Fy1) HRR) as (ER & _).
      assert (Fz : facet n V z) by apply Hst.
      destruct (g_rotated y1 z Fy1) as (z1 & Hz1 & Sz).
      { apply (ridge_adj_sim n V y y1 z z); auto; [apply Fy1|apply Fz|apply sim_sym; auto|apply sim_refl]. }
      exists z1. split; auto. apply (explored_rotated t order V start y1 R); auto. rewrite ER. auto. }
    destruct (Hpath f0 h Hreach f0 (explored_start t order V start f0 Hf0) (sim_refl V f0)) as (h1 & Eh & Sh1).
    destruct (Hall h1 Eh) as (Hh1 & _). apply (all_rows_iff order n V Ho HV) in Hh1. destruct Hh1 as (Fh1 & Nh1).
    assert (h1 = g) as <-; [|exact Eh]. apply (nform_unique n V); auto. apply (sim_trans V h1 h); auto.
  Qed.
End Graph.
