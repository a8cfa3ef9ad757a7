(** * RotationTheorems: what rotating a facet returns and which rows are found by repeating it. *)
From Coq Require Import List ZArith Arith Lia Bool Permutation.
From Verif Require Import Base Spec LinAlg ListUtil Cone FmeCore FmeReduce FmePure FmePrepare FmeCorrect Span
  ArithModel MatrixModel FmeModel Refine MatrixRefine FmeRefine SafeIntModel IntTypes FmeTheorems DimTheorems NormTheorems HeuristicTheorems
  ClassesModel RotationModel Adjacency RotatePure RotateRefine Climb NormalForm.
Import ListNotations.
Open Scope Z_scope.

Section Pure.
  Variables (n : nat) (V : list vec) (order : list nat -> list nat).
  Hypothesis HV : dims n V.
  Hypothesis Ho : sort_order order.

  Lemma rotated_ridge f g : facet n V f -> In g (rotated_of order n V f) ->
    exists r, In r (ridges_of order n V f) /\ g = rotate V f r /\ In r (all_rows order n (tight V f)) /\ rotates n V f r g /\ primitive g /\ ridge_adj n V f g.
  Proof.
    intros Hf Hg. unfold rotated_of in Hg. apply in_map_iff in Hg. destruct Hg as (r & <- & Hr).
    assert (Hr' := fme_incl order n (tight V f) r Hr). exists r. split; auto. split; auto. split; auto.
    apply (rotate_adj n V order HV Ho f r Hf Hr').
  Qed.
  Lemma rotated_nform f g : facet n V f -> nform n V f -> In g (rotated_of order n V f) -> nform n V g.
  Proof.
    intros Hf (Lf & Pf & Zf) Hg. destruct (rotated_ridge f g Hf Hg) as (r & _ & _ & Hr & Hrot & Hp & Ha).
    assert (HT := dims_tight n V f HV). assert (Hrn := all_rows_nform n _ order HT Ho r Hr).
    apply (nform_incl n V (tight V f)) in Hrn; [|auto|apply tight_incl]. destruct Hrn as (Lr & _ & Zr).
    destruct Hrot as (Lg & _ & (k & al & be & Hk & Hal & H) & _). split; auto. split; auto. intros e He.
    assert (Hz := proj1 (leads_in n (eqs n V) (extracted_leads n V HV) e He)).
    specialize (H (unit_vec n (first_nz e) 1) (unit_vec_length _ _ _)).
    rewrite !(dot_comm _ (unit_vec _ _ _)), !dot_unit in H by auto. rewrite Zr, Zf in H by auto. nia.
  Qed.

  Section Hom.
    Hypothesis Hh : homogenised n V.
    Notation e := (unit_vec n (n - 1) (-1)).

    Lemma hom_ex : exists v, In v V /\ nth (n - 1) v 0 <> 0.
    Proof. destruct Hh as (_ & v & Hv & Hp). exists v. split; auto. lia. Qed.

    Lemma facet_vertex f : nfacet n V f -> exists v, In v (tight V f) /\ nth (n - 1) v 0 <> 0.
    Proof.
      intros (Hf & Hne).
      destruct (existsb (fun v => negb (nth (n - 1) v 0 =? 0)) (tight V f)) eqn:E.
      - apply existsb_exists in E. destruct E as (v & Hv & E). exists v. split; auto.
        destruct (Z.eqb_spec (nth (n - 1) v 0) 0); [discriminate|auto].
      - exfalso. apply Hne.
        assert (Hz : forall v, In v V -> dot f v = 0 -> dot e v = 0).
        { intros v Hv Ev. rewrite (e_dot n V HV Hh v Hv). destruct (Z.eq_dec (nth (n - 1) v 0) 0) as [->|Hnz]; [lia|].
          exfalso. assert (existsb (fun v => negb (nth (n - 1) v 0 =? 0)) (tight V f) = true); [|congruence].
          apply existsb_exists. exists v. split; [apply in_tight; auto|]. destruct (Z.eqb_spec (nth (n - 1) v 0) 0); [contradiction|reflexivity]. }
        destruct (facet_form n V f e Hf (unit_vec_length _ _ _) Hz) as (k & t & Hk & H).
        exists t, k. split; [|split; [auto|intros v Hv; symmetry; auto]].
        destruct Hh as (_ & w & Hw & Hp). assert (Q := H w Hw). rewrite (e_dot n V HV Hh w Hw) in Q.
        assert (Hv := proj1 (proj2 Hf) w Hw). nia.
    Qed.
    Lemma tight_nonzero f : nfacet n V f -> nonzero n (tight V f).
    Proof.
      intros Hf. destruct (facet_vertex f Hf) as (v & Hv & Hne). exists v. split; auto. intros ->. apply Hne. apply nth_vzero.
    Qed.

    Lemma rotated_nfacet f g : nfacet n V f -> In g (rotated_of order n V f) -> nfacet n V g.
    Proof.
      intros Hn Hg. assert (Hf := proj1 Hn). unfold rotated_of in Hg. apply in_map_iff in Hg. destruct Hg as (r & <- & Hr).
      assert (HT := dims_tight n V f HV). unfold ridges_of in Hr.
      apply (fme_iff n (tight V f) order HT Ho (facet_vertex f Hn)) in Hr. destruct Hr as (Fr & Nr & Dr).
      assert (Hra : In r (all_rows order n (tight V f))).
      { apply (fme_incl order n). apply (fme_iff n (tight V f) order HT Ho (facet_vertex f Hn)). auto. }
      destruct (rotate_adj n V order HV Ho f r Hf Hra) as (Hrot & _ & Ha). split; [apply Ha|].
      intros Hs. apply Dr. apply (sim_trans _ r (rotate V f r)).
      - apply sim_sym. apply (rotates_tight n V HV); auto.
      - apply (sim_incl V); auto. apply tight_incl.
    Qed.
    Lemma rotated_complete f f' : nfacet n V f -> nstep n V f f' -> exists g, In g (rotated_of order n V f) /\ simn V g f'.
    Proof.
      intros Hn (Ha & Hd). assert (HT := dims_tight n V f HV). assert (Hf := proj1 Hn).
      destruct (all_rows_complete order Ho n (tight V f) HT f' (proj2 (proj2 Ha))) as (r & Hr & Er).
      assert (Fr := proj1 (all_rows_facet order Ho n _ HT r Hr)).
      apply sim_equiv in Er; [|destruct Fr as (F1 & _), Ha as (_ & (F2 & _) & _); congruence].
      destruct (rotate_adj n V order HV Ho f r Hf Hr) as (Hrot & _ & Ha').
      exists (rotate V f r). split.
      - unfold rotated_of. apply in_map. unfold ridges_of. apply (fme_iff n (tight V f) order HT Ho (facet_vertex f Hn)).
        split; auto. split; [apply (all_rows_nform n _ order); auto|]. intros Hs. apply Hd. apply (sim_trans _ f' r); auto. apply sim_sym; auto.
      - apply (neighbour_unique n V f); auto. apply (sim_trans _ _ r); auto. apply (rotates_tight n V HV); auto.
    Qed.
  End Hom.
End Pure.

(** ** The modelled code *)
(** The rows found by rotating start rows, and then found rows, around all their ridges. *)
Inductive explored (t : int_type) (order : list nat -> list nat) (V start : list vec) : vec -> Prop :=
| explored_start f : In f start -> explored t order V start f
| explored_rotated f (R : list vec) g : explored t order V start f -> m_rotated (arith t) order V f = Ok R -> In g R -> explored t order V start g.

Section Results.
  Variables (t : int_type) (order : list nat -> list nat) (n : nat) (V : list vec).
  Hypothesis Ht : t <> INT16.
  Hypothesis Ho : sort_order order.
  Hypothesis HR : rows_representable t V.
  Hypothesis HV : dims n V.

  Lemma facet_ne f : facet n V f -> V <> [].
  Proof. intros Hf ->. destruct (facet_neg n [] f Hf) as (v & [] & _). Qed.

  Lemma rotated_outcome f : facet n V f -> Forall (representable t) f -> nonzero n (tight V f) ->
    outcome t (m_rotated (arith t) order V f) (rotated_of order n V f).
  Proof.
    intros Hf Hrep Hnz. apply (outcome_of t Ht).
    apply (rotated_rel _ _ (arith t) (sound_type t Ht) order Ho n V V f f); auto.
    - apply rows_rel; auto.
    - apply (facet_ne f); auto.
    - apply vec_rel; auto.
    - apply Hf.
    - apply Hf.
    - apply (facet_neg n); auto.
  Qed.
  Lemma rotated_representable f (R : list vec) : facet n V f -> Forall (representable t) f -> nonzero n (tight V f) ->
    m_rotated (arith t) order V f = Ok R -> R = rotated_of order n V f /\ rows_representable t R.
  Proof.
    intros Hf Hrep Hnz HRR.
    assert (H := rotated_rel _ _ (arith t) (sound_type t Ht) order Ho n V V f f (rows_rel t Ht V HR) HV (facet_ne f Hf) (vec_rel t Ht f Hrep)
      (proj1 Hf) (proj1 (proj2 Hf)) (facet_neg n V f Hf) Hnz).
    rewrite HRR in H. cbn [rel] in H. apply rel_rows in H. exact H.
  Qed.
  Lemma ridges_result f (Rs : list vec) : facet n V f -> Forall (representable t) f -> nonzero n (tight V f) ->
    m_ridges (arith t) order V f = Ok Rs -> Rs = ridges_of order n V f.
  Proof.
    intros Hf Hrep Hnz HRs.
    assert (H := ridges_rel _ _ (arith t) (sound_type t Ht) order Ho n V V f f (rows_rel t Ht V HR) HV (vec_rel t Ht f Hrep) (proj1 Hf) Hnz).
    rewrite HRs in H. cbn [rel] in H. apply rel_rows in H. tauto.
  Qed.

  Lemma rotation_result f (Rs R : list vec) : facet n V f -> Forall (representable t) f -> nonzero n (tight V f) ->
    m_ridges (arith t) order V f = Ok Rs -> m_rotated (arith t) order V f = Ok R ->
    Forall2 (fun r g => facet n (tight V f) r /\ facet n V g /\ primitive g /\ valid V g /\
      (forall v, In v V -> dot f v = 0 -> dot r v = 0 -> dot g v = 0) /\
      (exists w, In w V /\ dot g w = 0 /\ dot f w < 0) /\
      ~ equivalent_ineq V f g) Rs R.
  Proof.
    intros Hf Hrep Hnz HRs HRR. rewrite (ridges_result f Rs Hf Hrep Hnz HRs). destruct (rotated_representable f R Hf Hrep Hnz HRR) as (-> & _).
    unfold rotated_of. assert (HT := dims_tight n V f HV).
    assert (Hall : forall r, In r (ridges_of order n V f) -> In r (all_rows order n (tight V f))) by (intros r; apply fme_incl).
    induction (ridges_of order n V f) as [|r l IH]; cbn [map]; constructor; [|apply IH; intros; apply Hall; right; auto].
    assert (Hr := Hall r (or_introl eq_refl)).
    destruct (rotate_adj n V order HV Ho f r Hf Hr) as (Hrot & Hp & Ha).
    split; [apply (all_rows_facet order Ho n _ HT r Hr)|]. split; [apply Ha|]. split; auto. split; [apply Hrot|]. split; [|split].
    - intros v Hv E1 E2. destruct Hrot as (_ & _ & (k & al & be & Hk & Hal & H) & _). specialize (H v (dims_in _ _ _ HV Hv)).
      rewrite E1, E2 in H. nia.
    - apply Hrot.
    - intros He. apply (ridge_adj_differ n V f _ Ha). apply sim_equiv; auto.
      destruct Ha as ((H1 & _) & (H2 & _) & _). congruence.
  Qed.

  Lemma dot_zero_r a v : (forall x, In x v -> x = 0) -> dot a v = 0.
  Proof.
    revert v. induction a as [|x a IH]; intros [|y v] H; cbn [dot]; auto. rewrite IH by (intros z Hz; apply H; right; auto).
    rewrite (H y) by (left; auto). lia.
  Qed.
  (** A facet contains a non-zero generator as soon as there is another facet. *)
  Lemma facet_nonzero f g : facet n V f -> facet n V g -> ~ equivalent_ineq V f g -> nonzero n (tight V f).
  Proof.
    intros Hf Hg Hd. destruct (existsb (fun v => existsb (fun x => negb (x =? 0)) v) (tight V f)) eqn:E.
    - apply existsb_exists in E. destruct E as (v & Hv & E). apply existsb_exists in E. destruct E as (x & Hx & E).
      exists v. split; auto. intros ->. apply repeat_spec in Hx. subst x. discriminate.
    - exfalso. apply Hd. assert (Lf := proj1 Hf). assert (Lg := proj1 Hg). apply sim_equiv; [congruence|].
      apply (facet_tight_incl n V f g Hf Hg). intros v Hv Ev. apply dot_zero_r. intros x Hx.
      destruct (Z.eq_dec x 0) as [|Hne]; auto. exfalso. assert (Q : existsb (fun v => existsb (fun x => negb (x =? 0)) v) (tight V f) = true); [|congruence].
      apply existsb_exists. exists v. split; [apply in_tight; auto|]. apply existsb_exists. exists x. split; auto.
      destruct (Z.eqb_spec x 0); [contradiction|reflexivity].
  Qed.
  Lemma all_rows_iff f : In f (all_rows order n V) <-> facet n V f /\ nform n V f.
  Proof.
    split.
    - intros Hf. split; [apply (all_rows_facet order Ho n V HV f Hf)|apply (all_rows_nform n V order); auto].
    - intros (Hf & Hn). destruct (all_rows_complete order Ho n V HV f Hf) as (r & Hr & He).
      assert (Hrf := proj1 (all_rows_facet order Ho n V HV r Hr)).
      apply sim_equiv in He; [|destruct Hf, Hrf; congruence].
      assert (r = f) as <- by (apply (nform_unique n V); auto; apply (all_rows_nform n V order); auto). auto.
  Qed.

  Section Explore.
    Hypothesis Hh : homogenised n V.
    Variable start : list vec.
    Hypothesis Hs : incl start (all_rows order n V).
    Hypothesis Hsr : rows_representable t start.
    Variables a b c : vec.
    Hypothesis Fa : facet n V a.
    Hypothesis Fb : facet n V b.
    Hypothesis Fc : facet n V c.
    Hypothesis Dab : ~ equivalent_ineq V a b.
    Hypothesis Dac : ~ equivalent_ineq V a c.
    Hypothesis Dbc : ~ equivalent_ineq V b c.
    Notation e := (unit_vec n (n - 1) (-1)).

    Let Hex := hom_ex n V Hh.

    Lemma any_nonzero f : facet n V f -> nonzero n (tight V f).
    Proof.
      intros Ff. assert (L : forall x y, facet n V x -> facet n V y -> equivalent_ineq V x y <-> simn V x y).
      { intros x y (Hx & _) (Hy & _). apply sim_equiv. congruence. }
      destruct (all_rows_complete order Ho n V HV f Ff) as (rf & Hrf & Ef).
      destruct (all_rows_complete order Ho n V HV a Fa) as (ra & Hra & Ea).
      destruct (all_rows_complete order Ho n V HV b Fb) as (rb & Hrb & Eb).
      assert (Frf := proj1 (all_rows_facet order Ho n V HV rf Hrf)). assert (Fra := proj1 (all_rows_facet order Ho n V HV ra Hra)).
      assert (Frb := proj1 (all_rows_facet order Ho n V HV rb Hrb)).
      apply L in Ef; auto. apply L in Ea; auto. apply L in Eb; auto.
      destruct (list_eq_dec Z.eq_dec ra rf) as [->|Hne].
      - apply (facet_nonzero f b); auto. intros Q. apply L in Q; auto. apply Dab. apply L; auto.
        apply (sim_trans V a f); auto. apply (sim_trans V a rf); auto. apply sim_sym; auto.
      - apply (facet_nonzero f a); auto. intros Q. apply L in Q; auto. apply Hne.
        apply (all_rows_inequivalent order Ho n V HV ra rf Hra Hrf). apply L; auto.
        apply (sim_trans V ra a); auto. apply (sim_trans V a f); [apply sim_sym; auto|]. apply sim_sym; auto.
    Qed.

    Lemma explored_all f : explored t order V start f -> In f (all_rows order n V) /\ Forall (representable t) f.
    Proof.
      induction 1 as [f Hf|f R g _ (IH & IHr) HRR Hg].
      - split; auto. apply (proj1 (Forall_forall _ _) Hsr); auto.
      - apply all_rows_iff in IH. destruct IH as (Ff & Nf).
        destruct (rotated_representable f R Ff IHr (any_nonzero f Ff) HRR) as (-> & Hrep).
        split; [|apply (proj1 (Forall_forall _ _) Hrep); auto].
        apply all_rows_iff. split; [|apply (rotated_nform n V order HV Ho f); auto].
        destruct (rotated_ridge n V order HV Ho f g Ff Hg) as (r & _ & _ & _ & _ & _ & Ha). apply Ha.
    Qed.
    Lemma all_rows_fme f : In f (all_rows order n V) -> In f (fme order n V) \/ f = e.
    Proof.
      intros Hf. destruct (list_eq_dec Z.eq_dec f e) as [|Hne]; [right; auto|left]. apply (fme_in_iff order Ho n V HV f Hex). auto.
    Qed.
    Lemma fme_all_rows f : In f (fme order n V) -> In f (all_rows order n V).
    Proof. intros Hf. apply (fme_in_iff order Ho n V HV f Hex) in Hf. tauto. Qed.

    Lemma explored_complete f0 g : In f0 start -> In f0 (fme order n V) ->
      (forall f, explored t order V start f -> exists R, m_rotated (arith t) order V f = Ok R) ->
      facet n V g -> ~ equivalent_ineq V g e -> exists h, explored t order V start h /\ equivalent_ineq V h g /\ In h (fme order n V).
    Proof.
      intros Hf0 Hf1 Hok Fg Dg.
      assert (L : forall x y, facet n V x -> facet n V y -> ~ equivalent_ineq V x y -> ~ simn V x y).
      { intros x y (Hx & _) (Hy & _) H Hsim. apply H. apply sim_equiv; auto. congruence. }
      assert (Ff0 := proj1 (fme_iff n V order HV Ho Hex f0) Hf1). destruct Ff0 as (Ff0 & _ & Df0).
      destruct (connected n V order HV Ho Hh f0 g a b c) as (g' & Sg & Fg' & Hreach); auto.
      - split; auto.
      - split; auto. intros Hsim. apply Dg. apply sim_equiv; auto. rewrite unit_vec_length. apply Fg.
      - assert (Hpath : forall x y, reaches (nstep n V) x y -> forall x1, explored t order V start x1 -> In x1 (fme order n V) -> simn V x1 x ->
          exists y1, explored t order V start y1 /\ In y1 (fme order n V) /\ simn V y1 y).
        { intros x y. induction 1 as [x|x y z _ IH Hst]; intros x1 Ex Fx Sx; [exists x1; auto|].
          destruct (IH x1 Ex Fx Sx) as (y1 & Ey & Hy1 & Sy). destruct (explored_all y1 Ey) as (_ & Hy1r).
          apply (fme_iff n V order HV Ho Hex) in Hy1. destruct Hy1 as (Fy1 & Ny1 & Dy1).
          destruct (Hok y1 Ey) as (R & HRR).
          destruct (rotated_representable y1 R Fy1 Hy1r (tight_nonzero n V HV Hh y1 (conj Fy1 Dy1)) HRR) as (ER & _).
          assert (Fz : facet n V z) by apply Hst.
          destruct (rotated_complete n V order HV Ho Hh y1 z (conj Fy1 Dy1)) as (z1 & Hz1 & Sz).
          { apply (nstep_sim n V y y1 z z); auto; [apply Fy1|apply Fz|apply sim_sym; auto|apply sim_refl]. }
          exists z1. split; [|split; auto].
          - apply (explored_rotated t order V start y1 R); auto. rewrite ER. auto.
          - destruct (rotated_nfacet n V order HV Ho Hh y1 z1 (conj Fy1 Dy1) Hz1) as (Fz1 & Dz1).
            apply (fme_iff n V order HV Ho Hex). split; auto. split; auto. apply (rotated_nform n V order HV Ho y1); auto. }
        destruct (Hpath f0 g' Hreach f0 (explored_start t order V start f0 Hf0) Hf1 (sim_refl V f0)) as (h & Eh & Hh' & Sh).
        exists h. split; auto. split; auto. apply (fme_iff n V order HV Ho Hex) in Hh'. destruct Hh' as (Fh & _).
        apply sim_equiv; [destruct Fh, Fg; congruence|]. apply (sim_trans V h g'); auto. apply sim_sym; auto.
    Qed.

    Lemma explored_iff f0 g : In f0 start -> In f0 (fme order n V) ->
      (forall f, explored t order V start f -> exists R, m_rotated (arith t) order V f = Ok R) ->
      (In g (fme order n V) -> explored t order V start g) /\ (explored t order V start g -> In g (fme order n V) \/ g = e).
    Proof.
      intros Hf0 Hf1 Hok. split; [|intros Hg; apply all_rows_fme; apply explored_all; auto].
      intros Hg. assert (Hg' := Hg). apply (fme_iff n V order HV Ho Hex) in Hg. destruct Hg as (Fg & Ng & Dg).
      destruct (explored_complete f0 g) as (h & Eh & Sh & Hh'); auto.
      - intros He. apply Dg. apply sim_equiv; auto. rewrite unit_vec_length. apply Fg.
      - apply (fme_iff n V order HV Ho Hex) in Hh'. destruct Hh' as (Fh & Nh & _).
        assert (h = g) as <- by (apply (nform_unique n V); auto; apply sim_equiv; auto; destruct Fh, Fg; congruence). exact Eh.
    Qed.

    (** With exact integers rotation never fails. *)
    Lemma explored_ok f : t = EXACT -> explored t order V start f -> exists R, m_rotated (arith t) order V f = Ok R.
    Proof.
      intros Et Hf. destruct (explored_all f Hf) as (Hf' & Hfr). apply all_rows_iff in Hf'. destruct Hf' as (Ff & _).
      assert (O := rotated_outcome f Ff Hfr (any_nonzero f Ff)). rewrite Et in *. apply outcome_exact in O. eauto.
    Qed.
  End Explore.
End Results.
