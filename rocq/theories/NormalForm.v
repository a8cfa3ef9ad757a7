(** * NormalForm: rows in normal form with respect to the equations of a generating set. *)
From Coq Require Import List ZArith Arith Lia Bool Permutation.
From Verif Require Import Spec LinAlg ListUtil Cone Gauss FmeCore FmeReduce FmeFacets FmePure FmePrepare FmeCorrect Span
  ArithModel DimTheorems FmeTheorems NormTheorems Adjacency.
Import ListNotations.
Open Scope Z_scope.

Definition eqs (n : nat) (V : list vec) : list vec := p_eqs (prepare n V).

(** Primitive and zero on the leading coordinates of the equations. *)
Definition nform (n : nat) (V : list vec) (a : vec) : Prop :=
  length a = n /\ primitive a /\ forall e, In e (eqs n V) -> nth (first_nz e) a 0 = 0.

Lemma first_nz_before e c : (c < first_nz e)%nat -> nth c e 0 = 0.
Proof.
  revert c. induction e as [|x e IH]; intros c; cbn [first_nz]; [lia|].
  destruct (Z.eqb_spec x 0) as [->|Hx]; [|lia]. intros H. destruct c as [|c]; auto. cbn [nth]. apply IH. lia.
Qed.

Lemma lead_coef E cs z i : length cs = length E -> (i < length E)%nat ->
  (forall j, (j < length E)%nat -> j <> i -> nth z (nth j E []) 0 = 0) ->
  dot (colv z E) cs = nth z (nth i E []) 0 * nth i cs 0.
Proof.
  revert cs i. induction E as [|v V IH]; intros [|c cs] i Hl Hi H3; cbn [length] in *; try lia.
  unfold colv. cbn [map dot]. fold (colv z V). destruct i as [|i]; cbn [nth].
  - assert (E0 : dot (colv z V) cs = 0); [|lia].
    assert (Hall : forall v', In v' V -> nth z v' 0 = 0).
    { intros v' Hv'. destruct (In_nth V v' [] Hv') as (j & Hj & <-). apply (H3 (S j)); lia. }
    clear - Hall. revert cs. induction V as [|v V IH]; intros [|c cs]; cbn [colv map dot]; auto.
    rewrite (Hall v) by (left; auto). fold (colv z V). rewrite IH; [lia|]. intros; apply Hall; right; auto.
  - rewrite (IH cs i); try lia.
    + assert (Hv : nth z v 0 = 0) by (apply (H3 0%nat); lia). rewrite Hv. lia.
    + intros j Hj Hji. apply (H3 (S j)); lia.
Qed.

(** The first non-zero position of a vector in the span of the equations is one of their leading positions. *)
Lemma span_lead n E x z : leads_ok n E -> in_span n E x -> nth z x 0 <> 0 -> (forall c, (c < z)%nat -> nth c x 0 = 0) ->
  exists e, In e E /\ first_nz e = z.
Proof.
  intros HE (k & cs & Hk & Hl & Eq) Hz Hlt.
  destruct (in_dec Nat.eq_dec z (map first_nz E)) as [Hin|Hn].
  { apply in_map_iff in Hin. destruct Hin as (e & H1 & H2). eauto. }
  exfalso. assert (E1 := f_equal (fun u => nth z u 0) Eq). cbn beta in E1. rewrite nth_vscale, nth_lincomb in E1 by apply HE.
  assert (Hterms : forall i, (i < length E)%nat -> nth z (nth i E []) 0 * nth i cs 0 = 0).
  { intros i Hi. destruct (proj2 HE i Hi) as (H1 & H2 & H3). cbn zeta in *. set (zi := first_nz (nth i E [])) in *.
    destruct (Nat.lt_trichotomy zi z) as [L|[L|L]].
    - assert (E2 := f_equal (fun u => nth zi u 0) Eq). cbn beta in E2. rewrite nth_vscale, nth_lincomb in E2 by apply HE.
      rewrite (Hlt zi L), (lead_coef E cs zi i) in E2 by auto. rewrite Z.mul_0_r in E2. symmetry in E2. apply Z.mul_eq_0 in E2. unfold vec in *. destruct E2 as [E2|E2]; [exfalso; lia|rewrite E2; lia].
    - exfalso. apply Hn. rewrite <- L. apply in_map_iff. exists (nth i E []). split; auto. apply nth_In; auto.
    - rewrite (first_nz_before (nth i E []) z) by auto. lia. }
  assert (E3 : dot (colv z E) cs = 0).
  { clear - Hterms Hl. revert cs Hl Hterms. induction E as [|v V IH]; intros [|c cs] Hl Ht; cbn [length] in *; try lia; auto.
    unfold colv. cbn [map dot]. fold (colv z V). rewrite (IH cs); try lia.
    - assert (H := Ht 0%nat). cbn [nth] in H. lia.
    - intros i Hi. apply (Ht (S i)). lia. }
  rewrite E3 in E1. nia.
Qed.

Lemma leads_mono n V W e : dims n V -> incl W V -> In e (eqs n V) -> exists e', In e' (eqs n W) /\ first_nz e' = first_nz e.
Proof.
  intros HV Hi He. assert (HW : dims n W) by (apply (dims_incl n W V); auto). assert (P := prepare_ok n V HV).
  assert (L := leads_in n (eqs n V) (extracted_leads n V HV) e He).
  apply (span_lead n (eqs n W) e); auto.
  - apply extracted_leads; auto.
  - apply (po_eqs_span _ _ _ (prepare_ok n W HW)); [apply (dims_in n (eqs n V)); auto; apply (po_eqs_dim _ _ _ P)|].
    intros v Hv. apply (po_eqs_van _ _ _ P e He); auto.
  - lia.
  - apply first_nz_before.
Qed.

Lemma nform_incl n V W a : dims n V -> incl W V -> nform n W a -> nform n V a.
Proof.
  intros HV Hi (H1 & H2 & H3). split; auto. split; auto. intros e He. destruct (leads_mono n V W e HV Hi He) as (e' & He' & <-). auto.
Qed.

Lemma nform_unique n V a b : dims n V -> nform n V a -> nform n V b -> simn V a b -> a = b.
Proof.
  intros HV (La & Pa & Za) (Lb & Pb & Zb) (k & t & Hk & Ht & H). assert (P := prepare_ok n V HV).
  set (x := vadd (vscale k a) (vscale (- t) b)).
  assert (Hx : length x = n) by (unfold x; apply vadd_length_eq; rewrite vscale_length; auto).
  assert (E0 : x = vzero n).
  { apply (span_zero_leads n (eqs n V) (extracted_leads n V HV)); auto.
    - apply (po_eqs_span _ _ _ P); auto. intros v Hv. specialize (H v Hv). unfold x.
      rewrite dot_vadd_l, !dot_vscale_l by (rewrite !vscale_length; congruence). lia.
    - intros e He. unfold x. rewrite nth_vadd, !nth_vscale by (rewrite !vscale_length; congruence). rewrite Za, Zb by auto. lia. }
  apply (proportional_primitive n a b k t); auto.
  apply (vec_ext_nth n); try (rewrite vscale_length; auto). intros j Hj.
  assert (E1 := f_equal (fun u => nth j u 0) E0). cbn beta in E1. unfold x in E1.
  rewrite nth_vadd, !nth_vscale, nth_vzero in E1 by (rewrite !vscale_length; congruence). rewrite !nth_vscale. lia.
Qed.

Lemma nth_insert_lt i (y : Z) l z : (z < i)%nat -> (i <= length l)%nat -> nth z (insert_at i y l) 0 = nth z l 0.
Proof.
  revert l z. induction i as [|i IH]; intros [|x l] z Hz Hl; cbn [length insert_at] in *; try lia.
  destruct z as [|z]; cbn [nth]; auto. apply IH; lia.
Qed.
Lemma nth_insert_eq i (y : Z) l : (i <= length l)%nat -> nth i (insert_at i y l) 0 = y.
Proof. revert l. induction i as [|i IH]; intros [|x l] Hl; cbn [length insert_at nth] in *; try lia; auto. apply IH. lia. Qed.

Lemma nth_ins zc r z : desc zc -> (forall c, In c zc -> (c < length zc + length r)%nat) -> In z zc -> nth z (ins zc r) 0 = 0.
Proof.
  revert r. induction zc as [|c zc IH]; intros r Hd Hb Hz; [destruct Hz|]. destruct Hd as (H1 & H2).
  cbn [ins fold_right]. change (fold_right _ r zc) with (ins zc r).
  assert (Hc : (c <= length (ins zc r))%nat) by (rewrite ins_length; specialize (Hb c (or_introl eq_refl)); cbn [length] in Hb; lia).
  destruct Hz as [->|Hz]; [apply nth_insert_eq; auto|].
  rewrite nth_insert_lt by auto. apply IH; auto.
  intros y Hy. specialize (H1 y Hy). rewrite ins_length in Hc. lia.
Qed.

Section Rows.
  Variables (n : nat) (V : list vec) (order : list nat -> list nat).
  Hypothesis HV : dims n V.
  Hypothesis Ho : sort_order order.
  Let P := prepare_ok n V HV.

  Lemma lead_zero e : In e (eqs n V) -> In (first_nz e) (p_zero (prepare n V)).
  Proof.
    intros He. destruct (In_nth _ e [] He) as (i & Hi & <-). destruct (po_eqs_lead _ _ _ P i Hi) as (z & Hz & Hp & Hlt & _).
    fold (eqs n V) in Hp, Hlt. rewrite (first_nz_unique _ z); auto. apply Z.neq_sym. apply Z.lt_neq. exact Hp.
  Qed.
  Lemma ins_leads r e : length r = length (p_matrix (prepare n V)) -> In e (eqs n V) -> nth (first_nz e) (ins (p_zero (prepare n V)) r) 0 = 0.
  Proof.
    intros Hl He. apply nth_ins.
    - apply (po_desc _ _ _ P).
    - intros c Hc. rewrite Hl. rewrite (po_dim _ _ _ P). apply (po_zero _ _ _ P); auto.
    - apply lead_zero; auto.
  Qed.
  Lemma all_rows_nform r : In r (all_rows order n V) -> nform n V r.
  Proof.
    intros Hr. destruct (all_rows_facet order Ho n V HV r Hr) as (Hf & Hp). split; [apply Hf|]. split; auto.
    intros e He. unfold all_rows in Hr. apply in_map_iff in Hr. destruct Hr as (r' & <- & Hr). apply ins_leads; auto.
    apply (dims_in _ _ _ (fme_rows_dims order Ho n V HV) Hr).
  Qed.
  Lemma heuristic_nform r : In r (fme_heuristic order n V) -> nform n V r.
  Proof.
    intros Hr. destruct (fme_heuristic_all order Ho n V HV r Hr) as (Hf & Hp & (r' & Hl & E) & _). split; [apply Hf|]. split; auto.
    intros e He. rewrite E. apply ins_leads; auto.
  Qed.

  Hypothesis Hex : exists v, In v V /\ nth (n - 1) v 0 <> 0.
  Let e0 := unit_vec n (n - 1) (-1).

  Lemma trivial_nform : nform n V e0.
  Proof.
    destruct Hex as (v & Hv & Hne). assert (Hvl := dims_in n V v HV Hv).
    assert (Hn0 : (0 < n)%nat) by (destruct n; [destruct v; [exfalso; apply Hne; reflexivity|discriminate]|lia]).
    split; [apply unit_vec_length|]. split.
    - intros g Hg Hd. assert (Hin : In (-1) e0).
      { assert (E : nth (n - 1) e0 0 = -1).
        { unfold e0, unit_vec. rewrite nth_upd, vzero_length, Nat.eqb_refl. destruct (Nat.ltb_spec (n - 1) n); [reflexivity|lia]. }
        rewrite <- E. apply nth_In. unfold e0. rewrite unit_vec_length. lia. }
      apply Hd in Hin. apply Z.divide_1_r_nonneg; auto. apply (proj1 (Z.divide_opp_r g 1)). exact Hin.
    - intros e He. assert (Hz := lead_zero e He). unfold e0, unit_vec. rewrite nth_upd.
      destruct (Nat.eqb_spec (first_nz e) (n - 1)) as [E|E].
      + exfalso. apply Hne. apply (po_last _ _ _ P); auto. rewrite <- E. auto.
      + cbn [andb]. apply nth_vzero.
  Qed.

  (** The returned rows are the facets in normal form, without the trivial one. *)
  Lemma fme_iff f : In f (fme order n V) <-> facet n V f /\ nform n V f /\ ~ simn V f e0.
  Proof.
    rewrite (fme_in_iff order Ho n V HV f Hex). split.
    - intros (Hr & Hne). split; [apply (all_rows_facet order Ho n V HV f Hr)|]. split; [apply all_rows_nform; auto|].
      intros Hs. apply Hne. apply (nform_unique n V); auto using all_rows_nform, trivial_nform.
    - intros (Hf & Hn & Hne). split.
      + destruct (all_rows_complete order Ho n V HV f Hf) as (r & Hr & He).
        assert (Hrf := proj1 (all_rows_facet order Ho n V HV r Hr)).
        apply sim_equiv in He; [|destruct Hf, Hrf; congruence].
        assert (r = f) as <- by (apply (nform_unique n V); auto using all_rows_nform). auto.
      + intros ->. apply Hne. apply sim_refl.
  Qed.
  Lemma heuristic_incl f : In f (fme_heuristic order n V) -> In f (all_rows order n V).
  Proof.
    intros Hf. assert (Hn := heuristic_nform f Hf). assert (Hff := fme_heuristic_facet order Ho n V HV f Hf).
    destruct (all_rows_complete order Ho n V HV f Hff) as (r & Hr & He).
    assert (Hrf := proj1 (all_rows_facet order Ho n V HV r Hr)).
    apply sim_equiv in He; [|destruct Hff, Hrf; congruence].
    assert (r = f) as <- by (apply (nform_unique n V); auto using all_rows_nform). auto.
  Qed.
  (** Some start row is not the trivial one when there are two facets. *)
  Lemma heuristic_start a b f : facet n V a -> facet n V b -> ~ simn V a b -> In f (fme_heuristic order n V) ->
    exists f0, In f0 (fme_heuristic order n V) /\ In f0 (fme order n V).
  Proof.
    intros Ha Hb Hd Hf. destruct (fme_heuristic_all order Ho n V HV f Hf) as (_ & _ & _ & [E|Hne]).
    - assert (C : exists c, facet n V c /\ ~ simn V c e0).
      { destruct (list_eq_dec Z.eq_dec f e0) as [->|Hfe].
        - destruct (all_rows_complete order Ho n V HV a Ha) as (ra & Hra & Ea). destruct (all_rows_complete order Ho n V HV b Hb) as (rb & Hrb & Eb).
          assert (Fa := proj1 (all_rows_facet order Ho n V HV ra Hra)). assert (Fb := proj1 (all_rows_facet order Ho n V HV rb Hrb)).
          apply sim_equiv in Ea; [|destruct Fa, Ha; congruence]. apply sim_equiv in Eb; [|destruct Fb, Hb; congruence].
          destruct (list_eq_dec Z.eq_dec ra e0) as [->|Hra0].
          + exists rb. split; auto. intros Hs. apply Hd. apply (sim_trans V a e0 b); [apply sim_sym; auto|].
            apply (sim_trans V e0 rb b); auto. apply sim_sym; auto.
          + exists ra. split; auto. intros Hs. apply Hra0. apply (nform_unique n V); auto using all_rows_nform, trivial_nform.
        - exists f. assert (Hr := heuristic_incl f Hf). split; [apply (all_rows_facet order Ho n V HV f Hr)|].
          intros Hs. apply Hfe. apply (nform_unique n V); auto using all_rows_nform, trivial_nform. }
      destruct C as (c & Hc & Hce). destruct (all_rows_complete order Ho n V HV c Hc) as (r & Hr & Er).
      assert (Fr := proj1 (all_rows_facet order Ho n V HV r Hr)). apply sim_equiv in Er; [|destruct Fr, Hc; congruence].
      exists r. split; [rewrite E; auto|]. apply fme_iff. split; auto. split; [apply all_rows_nform; auto|].
      intros Hs. apply Hce. apply (sim_trans V c r e0); auto. apply sim_sym; auto.
    - exists f. split; auto. apply (fme_in_iff order Ho n V HV f Hex). split; [apply heuristic_incl; auto|]. apply Hne; auto.
  Qed.
End Rows.
