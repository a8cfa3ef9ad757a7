(** * FmeTheorems: what the modelled elimination returns, for every integer type. *)
From Coq Require Import List ZArith Arith Lia Bool Permutation.
From Verif Require Import Base Spec LinAlg ListUtil Cone Gauss FmeCore FmeReduce FmeFacets FmePure FmePrepare FmeCorrect
  ArithModel MatrixModel FmeModel Refine MatrixRefine FmeRefine SafeIntModel IntTypes.
Import ListNotations.
Open Scope Z_scope.

(** [std::sort] by a key leaves the positions in some order. *)
Definition sort_order (order : list nat -> list nat) : Prop := forall ks, Permutation (order ks) (seq 0 (length ks)).

(** Homogenised input: the last coordinate is non-negative, and positive for the vertices, of which there is one. *)
Definition homogenised (n : nat) (V : list vec) : Prop :=
  (forall v, In v V -> 0 <= nth (n - 1) v 0) /\ exists v, In v V /\ 0 < nth (n - 1) v 0.

Lemma homogenised_pos n V : dims n V -> homogenised n V -> (0 < n)%nat /\ (0 < length V)%nat /\ nonzero n V.
Proof.
  intros HV (_ & v & Hv & Hp). assert (Hl := dims_in n V v HV Hv). split; [|split].
  - destruct n; [|lia]. destruct v; [cbn in Hp; lia|discriminate].
  - destruct V; [destruct Hv|cbn; lia].
  - exists v. split; auto. intros ->. rewrite nth_vzero in Hp. lia.
Qed.

Lemma nonzero_pos n V : dims n V -> nonzero n V -> (0 < n)%nat /\ (0 < length V)%nat.
Proof.
  intros HV (v & Hv & Hp). assert (Hl := dims_in n V v HV Hv). split.
  - destruct n; [|lia]. destruct v; [exfalso; apply Hp; reflexivity|discriminate].
  - destruct V; [destruct Hv|cbn; lia].
Qed.

(** The three computations return the pure result or fail in the way of the type. *)
Definition outcome {X} (t : int_type) (m : res X) (y : X) : Prop :=
  match m with
  | Ok r => r = y
  | Throw => t = SAFE
  | UB => t = INT32 \/ t = INT64
  end.

Lemma outcome_of t (Ht : t <> INT16) (m : res (list vec)) y :
  rel (may_throw t) (may_be_undefined t) (matr (sound_type t Ht)) m y -> outcome t m y.
Proof.
  destruct m as [r| |]; cbn [rel outcome].
  - intros H. apply rel_rows in H. tauto.
  - destruct t; cbn; intros; congruence || auto.
  - destruct t; cbn; intros; congruence || auto.
Qed.

Lemma outcome_exact {X} (m : res X) y : outcome EXACT m y -> m = Ok y.
Proof. destruct m; cbn [outcome]; intros H; try (destruct H; discriminate); congruence. Qed.

Lemma equations_outcome t n V : t <> INT16 -> rows_representable t V -> dims n V -> (0 < length V)%nat -> (0 < n)%nat ->
  outcome t (m_extract_equations (arith t) V) (equations_of n V).
Proof.
  intros Ht HR HV H1 H2. apply (outcome_of t Ht).
  apply (extract_equations_rel _ _ (arith t) (sound_type t Ht) n V V); auto. apply rows_rel; auto.
Qed.
Lemma fme_outcome t order n V : t <> INT16 -> sort_order order -> rows_representable t V -> dims n V -> nonzero n V ->
  outcome t (m_fme (arith t) order V) (fme order n V).
Proof.
  intros Ht Ho HR HV H. apply (outcome_of t Ht).
  apply (fme_rel _ _ (arith t) (sound_type t Ht) order Ho n V V); auto. apply rows_rel; auto.
Qed.
Lemma heuristic_outcome t order n V : t <> INT16 -> sort_order order -> rows_representable t V -> dims n V -> nonzero n V ->
  outcome t (m_fme_heuristic (arith t) order V) (fme_heuristic order n V).
Proof.
  intros Ht Ho HR HV H. apply (outcome_of t Ht).
  apply (fme_heuristic_rel _ _ (arith t) (sound_type t Ht) order Ho n V V); auto. apply rows_rel; auto.
Qed.

Lemma representable_exact V : rows_representable EXACT V.
Proof. apply Forall_forall. intros v _. apply Forall_forall. intros x _. exact I. Qed.

Lemma outcome_ok {X} t (m : res X) y r : outcome t m y -> m = Ok r -> r = y.
Proof. intros H ->. exact H. Qed.

Lemma equations_of_prepare n V : equations_of n V = p_eqs (prepare n V).
Proof.
  unfold equations_of, prepare. destruct (gauss n V) as [M piv].
  destruct (extract_rows _ _) as [eqs rest]. destruct (eliminate_zero_columns n rest V) as [[M' V'] zc]. reflexivity.
Qed.

Lemma in_cone_valid n V a x : dims n V -> valid V a -> in_cone n V x -> dot a x <= 0.
Proof.
  intros HV Hv (k & cs & Hk & Hl & Hn & E).
  assert (E1 : k * dot a x = dot cs (map (fun v => dot v a) V)).
  { rewrite <- dot_vscale_r, E, dot_comm, dot_lincomb_l by auto. reflexivity. }
  assert (H0 : dot cs (map (fun v => dot v a) V) <= 0); [|nia].
  clear - Hn Hv. revert cs Hn. induction V as [|v l IH]; intros [|c cs] Hn; cbn [map dot]; try lia.
  inversion Hn as [|? ? Hc0 Hcs]; subst. assert (Hv1 := Hv v (or_introl eq_refl)). rewrite dot_comm in Hv1.
  specialize (IH (fun w Hw => Hv w (or_intror Hw)) cs Hcs). nia.
Qed.

(** The rows before dropping the trivial one support every valid inequality. *)
Lemma all_rows_covers order n V : sort_order order -> dims n V -> covers n V (all_rows order n V).
Proof.
  intros Ho HV x (Hx & Hval) (v & Hv & Hne). assert (P := prepare_ok n V HV).
  destruct (po_forms _ _ _ P x Hx) as (k & b & Hk & Hb & Hform).
  assert (HF : forall v, In v V -> k * dot x v = dot b (er (p_zero (prepare n V)) v)).
  { intros u Hu. apply Hform; [eapply dims_in; eauto|]. intros e He. apply (eqs_on_V n V HV); auto. }
  destruct (inv_covers _ _ _ (final_inv order Ho n V HV) b) as (g & Hg & Hs).
  - split; auto. intros w Hw. apply (in_W n V HV) in Hw. destruct Hw as (u & Hu & ->).
    rewrite <- HF by auto. specialize (Hval u Hu). nia.
  - exists (er (p_zero (prepare n V)) v). split; [apply (in_W n V HV); eauto|]. rewrite <- HF by auto. nia.
  - exists (ins (p_zero (prepare n V)) g). split.
    + unfold all_rows. apply in_map. rewrite fme_rows_eq; auto.
    + assert (Hgl : length g = length (p_matrix (prepare n V))).
      { apply in_map_iff in Hg. destruct Hg as (e & <- & He). apply (inv_dim _ _ _ (final_inv order Ho n V HV)); auto. }
      intros u Hu E. rewrite dot_lift; auto; [|eapply dims_in; eauto].
      apply Hs; [apply (in_W n V HV); eauto|]. rewrite <- HF by auto. nia.
Qed.

(** ** Consequences for results *)
Section Results.
  Variables (t : int_type) (order : list nat -> list nat) (n : nat) (V : list vec).
  Hypothesis Ht : t <> INT16.
  Hypothesis Ho : sort_order order.
  Hypothesis HR : rows_representable t V.
  Hypothesis HV : dims n V.

  Lemma result_equations (E : list vec) : (0 < length V)%nat -> (0 < n)%nat ->
    m_extract_equations (arith t) V = Ok E -> E = p_eqs (prepare n V).
  Proof. intros H1 H2 HE. rewrite <- equations_of_prepare. exact (outcome_ok t _ _ _ (equations_outcome t n V Ht HR HV H1 H2) HE). Qed.

  Lemma result_fme (F : list vec) : nonzero n V -> m_fme (arith t) order V = Ok F -> F = fme order n V.
  Proof. intros H HF. exact (outcome_ok t _ _ _ (fme_outcome t order n V Ht Ho HR HV H) HF). Qed.

  Lemma result_heuristic (F : list vec) : nonzero n V -> m_fme_heuristic (arith t) order V = Ok F -> F = fme_heuristic order n V.
  Proof. intros H HF. exact (outcome_ok t _ _ _ (heuristic_outcome t order n V Ht Ho HR HV H) HF). Qed.

  Lemma unit_dot k x : (k < n)%nat -> length x = n -> dot (unit_vec n k (-1)) x = - nth k x 0.
  Proof. intros Hk Hx. rewrite dot_unit by auto. lia. Qed.

  Lemma describe (E F : list vec) : homogenised n V ->
    m_extract_equations (arith t) V = Ok E -> m_fme (arith t) order V = Ok F ->
    forall x, length x = n ->
      (in_cone n V x <->
       0 <= nth (n - 1) x 0 /\ (forall e, In e E -> dot e x = 0) /\ (forall f, In f F -> dot f x <= 0)).
  Proof.
    intros Hh HE HF x Hx. destruct (homogenised_pos n V HV Hh) as (Hn & Hl & Hnz).
    assert (EE := result_equations E Hl Hn HE). assert (EF := result_fme F Hnz HF). subst E F.
    destruct Hh as (Hge & w & Hw & Hwp).
    assert (Hex : exists v, In v V /\ nth (n - 1) v 0 <> 0) by (exists w; split; [auto|lia]).
    rewrite (all_rows_describe order Ho n V HV x Hx).
    split.
    - intros (H1 & H2). split; [|split; auto].
      + assert (Hc : in_cone n V x) by (apply (all_rows_describe order Ho n V HV x Hx); auto).
        assert (Hd : dot (unit_vec n (n - 1) (-1)) x <= 0).
        { apply (in_cone_valid n V); auto.
          intros v Hv. rewrite unit_dot; try lia; [|eapply dims_in; eauto]. specialize (Hge v Hv). lia. }
        rewrite unit_dot in Hd by lia. lia.
      + intros f Hf. apply H2. apply (fme_in_iff order Ho n V HV f Hex). auto.
    - intros (H0 & H1 & H2). split; auto. intros r Hr.
      destruct (list_eq_dec Z.eq_dec r (unit_vec n (n - 1) (-1))) as [->|Hne].
      + rewrite unit_dot by lia. lia.
      + apply H2. apply (fme_in_iff order Ho n V HV r Hex). auto.
  Qed.

  Lemma in_all_rows (F : list vec) f : nonzero n V -> m_fme (arith t) order V = Ok F -> In f F -> In f (all_rows order n V).
  Proof. intros H HF Hf. rewrite (result_fme F H HF) in Hf. apply (fme_incl order n V f Hf). Qed.

  Lemma rows_facets (F : list vec) f : nonzero n V -> m_fme (arith t) order V = Ok F -> In f F -> facet n V f /\ primitive f.
  Proof. intros H HF Hf. apply (all_rows_facet order Ho n V HV). apply (in_all_rows F); auto. Qed.

  Lemma rows_distinct (F : list vec) : nonzero n V -> m_fme (arith t) order V = Ok F ->
    NoDup F /\ forall f g, In f F -> In g F -> equivalent_ineq V f g -> f = g.
  Proof.
    intros H HF. split.
    - rewrite (result_fme F H HF). apply fme_NoDup; auto.
    - intros f g Hf Hg. apply (all_rows_inequivalent order Ho n V HV); apply (in_all_rows F); auto.
  Qed.

  Lemma rows_complete (F : list vec) a : (exists v, In v V /\ nth (n - 1) v 0 <> 0) -> m_fme (arith t) order V = Ok F ->
    facet n V a -> (exists f, In f F /\ equivalent_ineq V f a) \/ equivalent_ineq V (unit_vec n (n - 1) (-1)) a.
  Proof.
    intros Hex HF Ha.
    assert (Hnz : nonzero n V).
    { destruct Hex as (v & Hv & Hne). exists v. split; auto. intros ->. apply Hne. apply nth_vzero. }
    destruct (all_rows_complete order Ho n V HV a Ha) as (r & Hr & He).
    destruct (list_eq_dec Z.eq_dec r (unit_vec n (n - 1) (-1))) as [->|Hne]; auto.
    left. exists r. split; auto. rewrite (result_fme F Hnz HF). apply (fme_in_iff order Ho n V HV r Hex). auto.
  Qed.

  (** The trivial row itself is never returned. *)
  Lemma trivial_dropped (F : list vec) : (exists v, In v V /\ nth (n - 1) v 0 <> 0) -> m_fme (arith t) order V = Ok F ->
    ~ In (unit_vec n (n - 1) (-1)) F.
  Proof.
    intros Hex HF Hin.
    assert (Hnz : nonzero n V).
    { destruct Hex as (v & Hv & Hne). exists v. split; auto. intros ->. apply Hne. apply nth_vzero. }
    rewrite (result_fme F Hnz HF) in Hin. apply (fme_in_iff order Ho n V HV _ Hex) in Hin. tauto.
  Qed.

  (** ** Vertex enumeration: the input rows are inequalities *)
  Lemma generators (F : list vec) : (forall x, length x = n -> vanishes V x -> x = vzero n) -> In (unit_vec n (n - 1) (-1)) V ->
    (0 < n)%nat -> m_fme (arith t) order V = Ok F ->
    forall x, solution n V x <-> length x = n /\ in_cone n F x.
  Proof.
    intros Hp Hu Hn HF.
    assert (Hex : exists v, In v V /\ nth (n - 1) v 0 <> 0).
    { exists (unit_vec n (n - 1) (-1)). split; auto. unfold unit_vec. rewrite nth_upd, vzero_length.
      rewrite Nat.eqb_refl. destruct (Nat.ltb_spec (n - 1) n); [|lia]. cbn. lia. }
    assert (Hnz : nonzero n V).
    { destruct Hex as (v & Hv & Hne). exists v. split; auto. intros ->. apply Hne. apply nth_vzero. }
    assert (HFd : dims n F).
    { apply Forall_forall. intros f Hf. apply (rows_facets F f Hnz HF Hf). }
    assert (Hall : incl (all_rows order n V) F).
    { intros r Hr. rewrite (result_fme F Hnz HF). apply (fme_in_iff order Ho n V HV r Hex). split; auto.
      intros ->. destruct (all_rows_facet order Ho n V HV _ Hr) as ((_ & Hv & _) & _).
      specialize (Hv _ Hu). rewrite unit_dot in Hv by (try apply unit_vec_length; lia).
      unfold unit_vec in Hv. rewrite nth_upd, vzero_length, Nat.eqb_refl in Hv.
      destruct (Nat.ltb_spec (n - 1) n); [|lia]. cbn in Hv. lia. }
    intros x. split.
    - intros (Hx & Hs). split; auto. apply gen_in_cone; auto.
      apply (covers_gen n V F); auto.
      + intros f Hf. destruct (rows_facets F f Hnz HF Hf) as ((_ & Hv & Hnv & _) & _). split; auto.
        destruct (nz_dec V f); auto. contradiction.
      + intros y Hy Hnzy. destruct (all_rows_covers order n V Ho HV y Hy Hnzy) as (g & Hg & Hsub). exists g. auto.
      + split; auto. intros a Ha. rewrite dot_comm. auto.
    - intros (Hx & Hc). split; auto. intros a Ha. apply (in_cone_valid n F); auto.
      intros f Hf. rewrite dot_comm. destruct (rows_facets F f Hnz HF Hf) as ((_ & Hv & _) & _). apply Hv. auto.
  Qed.

  Lemma facet_extreme f : (forall x, length x = n -> vanishes V x -> x = vzero n) -> facet n V f -> extreme_ray n V f.
  Proof.
    intros Hp (Hl & Hv & Hnv & Hf). split; [|split].
    - split; auto. intros a Ha. rewrite dot_comm. apply Hv; auto.
    - intros ->. apply Hnv. intros v _. apply dot_vzero_l.
    - intros k y z Hk (Hy & Sy) (Hz & Sz) E.
      assert (Ey : forall v, In v V -> k * dot f v = dot y v + dot z v).
      { intros v _. rewrite <- dot_vscale_l, E, dot_vadd_l by congruence. auto. }
      destruct (Hf y Hy) as (m & s & Hm & Hvan).
      { intros v Hin E0. specialize (Ey v Hin). specialize (Sy v Hin). specialize (Sz v Hin).
        rewrite (dot_comm v y) in Sy. rewrite (dot_comm v z) in Sz. nia. }
      assert (Hz0 : vadd (vscale m y) (vscale s f) = vzero n).
      { apply Hp; auto. rewrite (vadd_length_eq n); auto; rewrite vscale_length; auto. }
      assert (Heq : vscale m y = vscale (- s) f).
      { apply (vec_ext n); try (rewrite vscale_length; auto). intros c Hc.
        assert (H0 := f_equal (fun u => dot u c) Hz0). cbn beta in H0.
        rewrite dot_vadd_l, dot_vzero_l, !dot_vscale_l in H0 by (rewrite !vscale_length; congruence).
        rewrite !dot_vscale_l. lia. }
      destruct (nz_dec V f) as [(w & Hw & Hwn)|]; [|contradiction].
      assert (H1 := f_equal (fun u => dot u w) Heq). cbn beta in H1. rewrite !dot_vscale_l in H1.
      assert (Hfw := Hv w Hw). specialize (Sy w Hw). rewrite (dot_comm w y) in Sy.
      destruct (Z_lt_ge_dec 0 m) as [Hm0|Hm0].
      + exists m, (- s). split; auto. split; auto. nia.
      + exists (- m), s. split; [lia|]. split; [nia|].
        apply (vec_ext n); try (rewrite vscale_length; auto). intros c Hc.
        assert (H2 := f_equal (fun u => dot u c) Heq). cbn beta in H2. rewrite !dot_vscale_l in *. lia.
  Qed.

  Lemma extreme_found (F : list vec) x : (forall x, length x = n -> vanishes V x -> x = vzero n) -> In (unit_vec n (n - 1) (-1)) V ->
    (0 < n)%nat -> m_fme (arith t) order V = Ok F -> extreme_ray n V x ->
    exists f k s, In f F /\ 0 < k /\ 0 < s /\ vscale k x = vscale s f.
  Proof.
    intros Hp Hu Hn HF (Hs & Hx0 & Hext).
    assert (Hg := proj1 (generators F Hp Hu Hn HF x) Hs). destruct Hg as (Hx & Hc).
    assert (Hnz : nonzero n V).
    { exists (unit_vec n (n - 1) (-1)). split; auto. intros E.
      assert (H := f_equal (fun u => nth (n - 1) u 0) E). cbn beta in H. unfold unit_vec in H.
      rewrite nth_upd, nth_vzero, vzero_length, Nat.eqb_refl in H. destruct (Nat.ltb_spec (n - 1) n); [|lia]. cbn in H. lia. }
    assert (HFd : dims n F).
    { apply Forall_forall. intros f Hf. apply (rows_facets F f Hnz HF Hf). }
    destruct Hc as (k & cs & Hk & Hlc & Hcs & E).
    (* some generator occurs *)
    assert (Hsplit : forall F' cs', incl F' F -> length cs' = length F' -> Forall (fun c => 0 <= c) cs' ->
      lincomb n cs' F' = vzero n \/
      exists f c z, In f F' /\ 0 < c /\ f <> vzero n /\ length z = n /\ in_cone n F z /\ lincomb n cs' F' = vadd (vscale c f) z).
    { induction F' as [|f F' IH]; intros [|c cs'] Hi Hl' Hc'; cbn [length] in *; try lia; cbn [lincomb]; auto.
      assert (Hc0 := Forall_inv Hc'). assert (Hcs' := Forall_inv_tail Hc'). cbn beta in Hc0.
      assert (Hfl : length f = n) by (apply (dims_in n F); auto; apply Hi; left; auto).
      assert (HF'd : dims n F') by (apply (dims_incl n _ F); auto; intros u Hu'; apply Hi; right; auto).
      assert (Hfn : f <> vzero n).
      { intros ->. destruct (rows_facets F (vzero n) Hnz HF) as ((_ & _ & Hnv & _) & _); [apply Hi; left; auto|].
        apply Hnv. intros v _. apply dot_vzero_l. }
      destruct (Z.eq_dec c 0) as [->|Hcn].
      - assert (E0 : vadd (vscale 0 f) (lincomb n cs' F') = lincomb n cs' F').
        { rewrite vscale_0, Hfl. apply vadd_vzero_l. apply lincomb_length; auto. }
        rewrite E0.
        destruct (IH cs') as [H|(g & c & z & Hg & H)]; auto.
        + intros u Hu'. apply Hi. right; auto.
        + right. exists g, c, z. split; [right; auto|exact H].
      - right. exists f, c, (lincomb n cs' F'). split; [left; auto|]. split; [lia|]. split; [auto|].
        split; [apply lincomb_length; auto|]. split; auto. apply gen_in_cone; auto.
        apply (gen_trans n F' F); auto.
        + intros g Hg. apply gen_in; auto. apply Hi. right; auto.
        + apply gen_in_cone; auto. split; [apply lincomb_length; auto|].
          exists 1, cs'. split; [lia|]. split; [lia|]. split; [auto|]. apply vscale_1. }
    destruct (Hsplit F cs) as [H0|(f & c & z & Hf & Hc & Hfn & Hzl & Hzc & Hlin)]; auto using incl_refl.
    - exfalso. apply Hx0. apply (vscale_inj k); [lia|]. rewrite E, H0, vscale_vzero. auto.
    - assert (Hfl : length f = n) by (apply (dims_in n F); auto).
      destruct (Hext k (vscale c f) z Hk) as (m & s & Hm & Hs0 & Heq).
      + split; [rewrite vscale_length; auto|]. intros a Ha. rewrite dot_vscale_r.
        destruct (rows_facets F f Hnz HF Hf) as ((_ & Hv & _) & _). specialize (Hv a Ha). rewrite dot_comm. nia.
      + apply (generators F Hp Hu Hn HF z). auto.
      + rewrite E. auto.
      + exists f, s, (m * c). split; [auto|].
        assert (Hspos : 0 < s).
        { destruct (Z.eq_dec s 0) as [->|]; [|lia]. exfalso. apply Hfn.
          apply (vscale_inj (m * c)); [nia|]. rewrite <- vscale_vscale, Heq, vscale_0, Hx, vscale_vzero. auto. }
        split; [auto|]. split; [nia|]. rewrite <- vscale_vscale. auto.
  Qed.
End Results.
