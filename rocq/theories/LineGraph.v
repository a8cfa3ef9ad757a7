(** * LineGraph: exploring the vertices of a polyhedron that may contain lines. *)
From Coq Require Import List ZArith QArith Arith Lia Bool Permutation.
From Verif Require Import Base Spec LinAlg ListUtil Cone FmeCore FmeReduce FmePure FmePrepare FmeCorrect Span
  ArithModel MatrixModel FmeModel Refine MatrixRefine FmeRefine SafeIntModel IntTypes FmeTheorems DimTheorems NormTheorems HeuristicTheorems
  ClassesModel RotationModel Adjacency RotatePure RotateRefine Climb NormalForm RotationTheorems VertexGraph Corners Lines LineEdge.
Import ListNotations.
Open Scope Z_scope.

(** The eliminated columns are the leading positions of the equations. *)
Lemma zero_lead n V c : dims n V -> In c (p_zero (prepare n V)) -> exists e, In e (eqs n V) /\ first_nz e = c.
Proof.
  intros HV Hc. assert (P := prepare_ok n V HV). assert (L := extracted_leads n V HV). fold (eqs n V) in L.
  assert (ND : NoDup (map first_nz (eqs n V))).
  { apply (proj2 (NoDup_nth (map first_nz (eqs n V)) 0%nat)). intros i j Hi Hj E. rewrite map_length in Hi, Hj. assert (MN : forall q, nth q (map first_nz (eqs n V)) 0%nat = first_nz (nth q (eqs n V) [])) by (intros q; exact (map_nth first_nz (eqs n V) [] q)). rewrite !MN in E.
    destruct (Nat.eq_dec i j) as [|Hij]; auto. exfalso. destruct (proj2 L i Hi) as (_ & _ & H3). destruct (proj2 L j Hj) as (_ & H2 & _). cbn zeta in *.
    specialize (H3 j Hj ltac:(auto)). rewrite E in H3. rewrite H3 in H2. lia. }
  assert (I : incl (p_zero (prepare n V)) (map first_nz (eqs n V))).
  { apply NoDup_length_incl; auto.
    - rewrite map_length. unfold eqs. rewrite (po_eqs_len _ _ _ P). auto.
    - intros x Hx. apply in_map_iff in Hx as (e & <- & He). apply lead_zero; auto. }
  specialize (I c Hc). apply in_map_iff in I as (e & E & He). eauto.
Qed.
Lemma dot_single : forall (e v : vec) k, length e = length v -> (forall c, c <> k -> nth c e 0 = 0 \/ nth c v 0 = 0) -> dot e v = nth k e 0 * nth k v 0.
Proof.
  induction e as [|x e IH]; intros [|y v] k Hl H; cbn [length] in Hl; try discriminate; [destruct k; reflexivity|]. cbn [dot]. destruct k as [|k]; cbn [nth].
  - rewrite (IH v (length e)) by (try lia; intros c _; apply (H (S c)); lia). rewrite (nth_overflow e) by lia. ring.
  - rewrite (IH v k) by (try lia; intros c Hc; apply (H (S c)); lia). destruct (H 0%nat ltac:(lia)) as [E|E]; cbn in E; rewrite E; ring.
Qed.
Lemma unit_nth N k c j : (k < N)%nat -> nth j (unit_vec N k c) 0 = if (j =? k)%nat then c else 0.
Proof. intros H. unfold unit_vec. rewrite nth_upd, nth_vzero, vzero_length. destruct (Nat.eqb_spec j k); [destruct (Nat.ltb_spec j N); [reflexivity|lia]|reflexivity]. Qed.

Section Graph.
  Variables (order : list nat -> list nat) (n : nat) (A : list vec).
  Notation N := (S n).
  Notation U := (unit_vec (S n) n (-1)).
  Hypothesis Ho : sort_order order.
  Hypothesis HA : dims N A.
  Hypothesis HU : In U A.
  (** Some inequality says something about some coordinate. *)
  Hypothesis HX : exists j a, (j < n)%nat /\ In a A /\ nth j a 0 <> 0.

  Lemma l_nonzero_tight f : facet N A f -> nonzero N (tight A f).
  Proof.
    intros Ff. destruct (existsb (fun v => if list_eq_dec Z.eq_dec v (vzero N) then false else true) (tight A f)) eqn:E.
    - apply existsb_exists in E. destruct E as (v & Hv & E). exists v. split; auto. destruct (list_eq_dec Z.eq_dec v (vzero N)); [discriminate|auto].
    - exfalso. assert (H0 : forall v, In v A -> dot f v = 0 -> v = vzero N).
      { intros v Hv Ev. destruct (list_eq_dec Z.eq_dec v (vzero N)) as [|Hne]; auto. exfalso. apply not_true_iff_false in E. apply E. apply existsb_exists. exists v. split; [apply in_tight; auto|]. destruct (list_eq_dec Z.eq_dec v (vzero N)); [contradiction|auto]. }
      destruct HX as (j & a & Hj & Ha & Hne). 
      assert (K : forall b, length b = N -> exists k s, 0 < k /\ forall v, In v A -> k * dot b v = s * dot f v).
      { intros b Hb. apply (facet_form N A f b Ff Hb). intros v Hv Ev. rewrite (H0 v Hv Ev), dot_comm. apply dot_vzero_l. }
      destruct (K (unit_vec N j 1) (unit_vec_length N j 1)) as (k & s & Hk & E1). destruct (K (unit_vec N n 1) (unit_vec_length N n 1)) as (k' & s' & Hk' & E2).
      assert (E1a := E1 a Ha). assert (E1u := E1 _ HU). assert (E2u := E2 _ HU). rewrite dot_unit in E1a, E1u, E2u by (rewrite ?unit_vec_length; try lia; apply (dims_in N A); auto).
      rewrite (unit_nth N n) in E1u, E2u by lia. rewrite Nat.eqb_refl in E2u. destruct (Nat.eqb_spec j n); [lia|].
      assert (dot f U <> 0) by (intros Z0; rewrite Z0 in E2u; lia). assert (s = 0) by nia. subst s. nia.
  Qed.
  Lemma unit_form j v : (j < N)%nat -> length v = N -> dot (unit_vec N j 1) v = nth j v 0.
  Proof. intros Hj Hv. rewrite dot_unit by lia. ring. Qed.

  (** The last coordinate that is used. *)
  Lemma last_used_exists : exists k, last_used n A k.
  Proof.
    destruct HX as (j & a & Hj & Ha & Hne). remember (n - j)%nat as m eqn:Em. assert (Hm : (n - j <= m)%nat) by lia. clear Em. revert j a Hj Ha Hne Hm. induction m as [|m IH]; intros j a Hj Ha Hne Hm; [lia|].
    destruct (existsb (fun c => existsb (fun b => negb (nth c b 0 =? 0)) A) (seq (S j) (n - S j))) eqn:E.
    - apply existsb_exists in E as (c & Hc & E). apply existsb_exists in E as (b & Hb & E). apply negb_true_iff, Z.eqb_neq in E. apply in_seq in Hc. apply (IH c b); auto; lia.
    - exists j. split; auto. split; [exists a; auto|]. intros c b Hc Hb. destruct (Z.eq_dec (nth c b 0) 0) as [|E1]; auto. exfalso. apply not_true_iff_false in E. apply E.
      apply existsb_exists. exists c. split; [apply in_seq; lia|]. apply existsb_exists. exists b. split; auto. apply negb_true_iff, Z.eqb_neq. auto.
  Qed.

  (** If nothing is said about the last column at [f], [f] is the origin. *)
  Lemma origin_row f : facet N A f -> nform N A f -> (forall v, In v (tight A f) -> nth n v 0 = 0) -> f = unit_vec N n 1.
  Proof.
    intros Ff Nf H0. apply (nform_unique N A); auto.
    - assert (T := trivial_nform N A HA (unit_nonlast n A HU)). replace (N - 1)%nat with n in T by lia. destruct T as (_ & T2 & T3). split; [apply unit_vec_length|]. split.
      + intros g Hg Hd. apply Z.divide_1_r_nonneg; auto. apply Hd. assert (E : nth n (unit_vec N n 1) 0 = 1) by (rewrite unit_nth, Nat.eqb_refl; auto; lia). assert (I : In (nth n (unit_vec N n 1) 0) (unit_vec N n 1)) by (apply nth_In; rewrite unit_vec_length; lia). exact (eq_ind _ (fun z => In z (unit_vec N n 1)) I _ E).
      + intros e He. specialize (T3 e He). rewrite unit_nth in * by lia. destruct (first_nz e =? n)%nat; [lia|auto].
    - destruct (facet_form N A f (unit_vec N n 1) Ff (unit_vec_length N n 1)) as (k & s & Hk & E).
      { intros v Hv Ev. rewrite unit_form by (try lia; apply (dims_in N A); auto). apply H0. apply in_tight. auto. }
      exists s, k. assert (EU := E _ HU). rewrite unit_form, unit_nth, Nat.eqb_refl in EU by (rewrite ?unit_vec_length; lia).
      assert (Vf := proj1 (proj2 Ff) _ HU). split; [nia|]. split; auto. intros v Hv. specialize (E v Hv). lia.
  Qed.
  Lemma origin_dropped r k : last_used n A k -> let f := unit_vec N n 1 in facet N A f -> (forall v, In v (tight A f) -> nth n v 0 = 0) ->
    In r (fme order N (tight A f)) <-> In r (all_rows order N (tight A f)) /\ r <> unit_vec N k (-1).
  Proof.
    intros Hk f Ff H0. assert (HT := dims_tight N A f HA). assert (L := extracted_leads N (tight A f) HT). destruct Hk as (Hkn & (a & Ha & Hne) & Hz). assert (P := prepare_ok N (tight A f) HT).
    assert (Van : forall c, (k < c < N)%nat -> vanishes (tight A f) (unit_vec N c 1)).
    { intros c Hc v Hv. rewrite unit_form by (try lia; apply (dims_in N _ v HT Hv)). destruct (Nat.eq_dec c n) as [->|]; [apply H0; auto|]. apply in_tight in Hv as [Hv _]. apply Hz; auto. lia. }
    assert (InZ : forall c, (k < c < N)%nat -> In c (p_zero (prepare N (tight A f)))).
    { intros c Hc. destruct (span_lead N (eqs N (tight A f)) (unit_vec N c 1) c L) as (e & He & <-).
      - apply (po_eqs_span _ _ _ P); [apply unit_vec_length|auto].
      - rewrite unit_nth, Nat.eqb_refl by lia. lia.
      - intros j Hj. rewrite unit_nth by lia. destruct (Nat.eqb_spec j c); [lia|reflexivity].
      - apply lead_zero; auto. }
    apply (dropped_row order N (tight A f) Ho HT); [lia| |auto].
    intros HkZ. destruct (zero_lead N (tight A f) k HT HkZ) as (e & He & Ek). assert (Le := dims_in N _ _ (po_eqs_dim _ _ _ P) He). assert (Ve := po_eqs_van _ _ _ P e He).
    assert (Hlead := leads_in N _ L e He). rewrite Ek in Hlead. assert (Hb : forall c, (c < k)%nat -> nth c e 0 = 0) by (intros c Hc; apply first_nz_before; lia).
    assert (V2 : forall v, In v (tight A f) -> nth k v 0 = 0).
    { intros v Hv. assert (Lv := dims_in N _ v HT Hv). assert (E := Ve v Hv).
      assert (E2 : dot e v = nth k e 0 * nth k v 0).
      { apply dot_single; [congruence|]. intros c Hc. destruct (Nat.lt_trichotomy c k) as [Hlt|[->|Hgt]]; [left; auto|lia|]. right. destruct (Nat.lt_ge_cases c N) as [HcN|HcN]; [|apply nth_overflow; lia].
        assert (Q := Van c (conj Hgt HcN) v Hv). rewrite unit_form in Q by auto. auto. }
      rewrite E2 in E. nia. }
    destruct (facet_form N A f (unit_vec N k 1) Ff (unit_vec_length N k 1)) as (c & s & Hc & E).
    { intros v Hv Ev. rewrite unit_form by (try lia; apply (dims_in N A); auto). apply V2. apply in_tight. auto. }
    assert (EU := E _ HU). rewrite unit_form, unit_nth in EU by (rewrite ?unit_vec_length; lia). destruct (Nat.eqb_spec k n); [lia|]. unfold f in EU. rewrite unit_form, unit_nth, Nat.eqb_refl in EU by (rewrite ?unit_vec_length; lia).
    assert (s = 0) by lia. subst s. specialize (E a Ha). rewrite unit_form in E by (try lia; apply (dims_in N A); auto). nia.
  Qed.

  Lemma l_last : exists v, In v A /\ nth (N - 1) v 0 < 0.
  Proof. exists U. split; auto. replace (N - 1)%nat with n by lia. rewrite unit_nth, Nat.eqb_refl by lia. lia. Qed.
  Lemma l_all_fme f : In f (fme order N A) <-> In f (all_rows order N A).
  Proof. apply (g_all_fme order N A Ho HA l_last). Qed.

  Hypothesis HE : no_hidden_flat_edge n A.
  Lemma l_ridges f r : facet N A f -> nform N A f -> In r (all_rows order N (tight A f)) -> In r (ridges_of order N A f).
  Proof.
    intros Hf Nf Hr. assert (HT := dims_tight N A f HA). assert (Fr := proj1 (all_rows_facet order Ho N _ HT r Hr)). unfold ridges_of.
    destruct (existsb (fun v => negb (nth n v 0 =? 0)) (tight A f)) eqn:E.
    - apply existsb_exists in E. destruct E as (v & Hv & E). apply negb_true_iff, Z.eqb_neq in E.
      apply (fme_in_iff order Ho N (tight A f) HT r); [exists v; replace (N - 1)%nat with n by lia; auto|]. split; auto. replace (N - 1)%nat with n by lia. intros ->. apply (flat_no_outwards n A HA HU HE f Hf). auto.
    - assert (H0 : forall v, In v (tight A f) -> nth n v 0 = 0).
      { intros v Hv. destruct (Z.eq_dec (nth n v 0) 0); auto. exfalso. apply not_true_iff_false in E. apply E. apply existsb_exists. exists v. split; auto. apply negb_true_iff, Z.eqb_neq. auto. }
      destruct last_used_exists as (k & Hk). assert (Ef := origin_row f Hf Nf H0). subst f.
      apply (origin_dropped r k Hk Hf H0). split; auto. intros ->. apply (flat_no_downwards n A HA HU HE (unit_vec N n 1) k Hf); auto. intros j Hj. rewrite unit_nth by lia. destruct (Nat.eqb_spec j n); [lia|reflexivity].
  Qed.
  Lemma l_rotated f f' : facet N A f -> nform N A f -> ridge_adj N A f f' -> exists g, In g (rotated_of order N A f) /\ simn A g f'.
  Proof.
    intros Hf Nf Ha. assert (HT := dims_tight N A f HA).
    destruct (all_rows_complete order Ho N (tight A f) HT f' (proj2 (proj2 Ha))) as (r & Hr & Er).
    assert (Fr := proj1 (all_rows_facet order Ho N _ HT r Hr)).
    apply sim_equiv in Er; [|destruct Fr as (F1 & _), Ha as (_ & (F2 & _) & _); congruence].
    destruct (rotate_adj N A order HA Ho f r Hf Hr) as (Hrot & _ & Ha').
    exists (rotate A f r). split.
    - unfold rotated_of. apply in_map. apply l_ridges; auto.
    - apply (neighbour_unique N A f); auto. apply (sim_trans _ _ r); auto. apply (rotates_tight N A HA); auto.
  Qed.
End Graph.
