(** * Adjacency: facets of a cone, their ridges, and how facets are connected. *)
From Coq Require Import List ZArith Arith Lia Bool Permutation Wf_nat.
From Verif Require Import Spec LinAlg ListUtil Cone FmeCore FmeTheorems FmeCorrect.
Import ListNotations.
Open Scope Z_scope.

(** The generators on which [f] is tight. *)
Definition tight (V : list vec) (f : vec) : list vec := filter (fun v => dot f v =? 0) V.

Lemma in_tight V f v : In v (tight V f) <-> In v V /\ dot f v = 0.
Proof. unfold tight. rewrite filter_In, Z.eqb_eq. tauto. Qed.
Lemma tight_incl V f : incl (tight V f) V.
Proof. intros v Hv. apply in_tight in Hv. tauto. Qed.
Lemma dims_tight n V f : dims n V -> dims n (tight V f).
Proof. intros H. apply (dims_incl n _ V); auto. apply tight_incl. Qed.

(** Proportional on [V] with positive factors. *)
Definition simn (V : list vec) (a b : vec) : Prop :=
  exists k t, 0 < k /\ 0 < t /\ forall v, In v V -> k * dot a v = t * dot b v.

Lemma sim_equiv V a b : length a = length b -> equivalent_ineq V a b <-> simn V a b.
Proof.
  intros Hl. split; intros (k & t & Hk & Ht & H); exists k, t; split; auto; split; auto; intros v Hv; specialize (H v Hv).
  - rewrite dot_vadd_l, !dot_vscale_l in H by (rewrite !vscale_length; auto). lia.
  - rewrite dot_vadd_l, !dot_vscale_l by (rewrite !vscale_length; auto). lia.
Qed.
Lemma sim_refl V a : simn V a a.
Proof. exists 1, 1. split; [lia|]. split; [lia|]. auto. Qed.
Lemma sim_sym V a b : simn V a b -> simn V b a.
Proof. intros (k & t & Hk & Ht & H). exists t, k. split; auto. split; auto. intros v Hv. symmetry. auto. Qed.
Lemma sim_trans V a b c : simn V a b -> simn V b c -> simn V a c.
Proof.
  intros (k & t & Hk & Ht & H) (m & s & Hm & Hs & H'). exists (k * m), (t * s). split; [nia|]. split; [nia|].
  intros v Hv. specialize (H v Hv). specialize (H' v Hv). nia.
Qed.
Lemma sim_incl V W a b : incl W V -> simn V a b -> simn W a b.
Proof. intros Hi (k & t & Hk & Ht & H). exists k, t. auto. Qed.
Lemma sim_valid V a b : simn V a b -> valid V a -> valid V b.
Proof. intros (k & t & Hk & Ht & H) Hv v Hin. specialize (H v Hin). specialize (Hv v Hin). nia. Qed.
Lemma sim_zero V a b v : simn V a b -> In v V -> dot a v = 0 <-> dot b v = 0.
Proof. intros (k & t & Hk & Ht & H) Hin. specialize (H v Hin). nia. Qed.
Lemma sim_tight V a b : simn V a b -> tight V a = tight V b.
Proof.
  intros H. unfold tight. apply filter_ext_in. intros v Hv. assert (E := sim_zero V a b v H Hv).
  destruct (Z.eqb_spec (dot a v) 0), (Z.eqb_spec (dot b v) 0); auto; tauto.
Qed.
Lemma sim_neg V a b v : simn V a b -> In v V -> dot a v < 0 <-> dot b v < 0.
Proof. intros (k & t & Hk & Ht & H) Hin. specialize (H v Hin). nia. Qed.

Lemma facet_form n V f b : facet n V f -> length b = n -> (forall v, In v V -> dot f v = 0 -> dot b v = 0) ->
  exists k t, 0 < k /\ forall v, In v V -> k * dot b v = t * dot f v.
Proof.
  intros (Hl & _ & _ & Hf) Hb H. destruct (Hf b Hb H) as (k & t & Hk & Hv).
  assert (Hv' : forall v, In v V -> k * dot b v = - t * dot f v).
  { intros v Hin. specialize (Hv v Hin). rewrite dot_vadd_l, !dot_vscale_l in Hv by (rewrite !vscale_length; lia). lia. }
  destruct (Z_lt_ge_dec 0 k) as [Hp|Hp].
  - exists k, (- t). auto.
  - exists (- k), t. split; [lia|]. intros v Hin. specialize (Hv' v Hin). lia.
Qed.

Lemma facet_neg n V f : facet n V f -> exists v, In v V /\ dot f v < 0.
Proof.
  intros (Hl & Hv & Hnv & _). destruct (nz_dec V f) as [(v & Hin & Hne)|]; [|contradiction].
  exists v. split; auto. specialize (Hv v Hin). lia.
Qed.

Lemma facet_sim n V f g : length g = n -> simn V f g -> facet n V f -> facet n V g.
Proof.
  intros Hg Hs Hf. split; [|split; [|split]]; auto.
  - apply (sim_valid V f); auto. apply Hf.
  - intros Hz. destruct (facet_neg n V f Hf) as (v & Hv & Hneg). specialize (Hz v Hv).
    apply (sim_zero V f g v Hs Hv) in Hz. lia.
  - intros b Hb Ht. destruct (facet_form n V f b Hf Hb) as (k & t & Hk & Hkt).
    { intros v Hv E. apply Ht; auto. apply (sim_zero V f g v Hs Hv). auto. }
    destruct Hs as (m & s & Hm & Hs0 & Hms). exists (k * m), (- (t * s)). split; [nia|].
    intros v Hv. specialize (Hkt v Hv). specialize (Hms v Hv). destruct Hf as (Hlf & _).
    rewrite dot_vadd_l, !dot_vscale_l by (rewrite !vscale_length; lia).
    replace (k * m * dot b v) with (m * (k * dot b v)) by ring. rewrite Hkt.
    replace (m * (t * dot f v)) with (t * (m * dot f v)) by ring. rewrite Hms. ring.
Qed.

(** Facets whose tight sets are included are the same. *)
Lemma facet_tight_incl n V f g : facet n V f -> facet n V g -> (forall v, In v V -> dot f v = 0 -> dot g v = 0) -> simn V f g.
Proof.
  intros Hf Hg Hi. destruct (facet_form n V f g Hf (proj1 Hg) Hi) as (k & t & Hk & H).
  destruct (facet_neg n V g Hg) as (v & Hv & Hn). exists t, k. split; [|split; auto].
  - specialize (H v Hv). destruct Hf as (_ & Hval & _). specialize (Hval v Hv). nia.
  - intros u Hu. symmetry. auto.
Qed.

(** [g] is a facet meeting the facet [f] in a ridge: as an inequality on [f] it defines a facet of [f]. *)
Definition ridge_adj (n : nat) (V : list vec) (f g : vec) : Prop :=
  facet n V f /\ facet n V g /\ facet n (tight V f) g.

Lemma ridge_adj_differ n V f g : ridge_adj n V f g -> ~ simn V f g.
Proof.
  intros (Hf & Hg & Hr) Hs. destruct (facet_neg n _ g Hr) as (v & Hv & Hn). apply in_tight in Hv. destruct Hv as (Hv & E).
  apply (sim_zero V f g v Hs Hv) in E. lia.
Qed.

(** Another facet has a tight generator off [f]. *)
Lemma facet_witness n V f g : facet n V f -> facet n V g -> ~ simn V f g -> exists w, In w V /\ dot g w = 0 /\ dot f w < 0.
Proof.
  intros Hf Hg Hd.
  destruct (existsb (fun w => (dot g w =? 0) && (dot f w <? 0)) V) eqn:E.
  - apply existsb_exists in E. destruct E as (w & Hw & E). apply andb_true_iff in E. rewrite Z.eqb_eq, Z.ltb_lt in E.
    exists w. tauto.
  - exfalso. apply Hd. apply sim_sym. apply (facet_tight_incl n V g f); auto. intros v Hv Ev.
    destruct (Z.eq_dec (dot f v) 0) as [|Hne]; auto. destruct Hf as (_ & Hval & _). specialize (Hval v Hv).
    assert (Hex : existsb (fun w => (dot g w =? 0) && (dot f w <? 0)) V = true).
    { apply existsb_exists. exists v. split; auto. rewrite andb_true_iff, Z.eqb_eq, Z.ltb_lt. lia. }
    congruence.
Qed.

(** What a rotation of [f] around the ridge [r] produces. *)
Definition rotates (n : nat) (V : list vec) (f r g : vec) : Prop :=
  length g = n /\ valid V g /\
  (exists k al be, 0 < k /\ 0 < al /\ forall v, length v = n -> k * dot g v = al * dot r v + be * dot f v) /\
  exists w, In w V /\ dot g w = 0 /\ dot f w < 0.

Section Geometry.
  Variables (n : nat) (V : list vec).
  Hypothesis HV : dims n V.

  Lemma rotates_tight f r g : rotates n V f r g -> simn (tight V f) g r.
  Proof.
    intros (_ & _ & (k & al & be & Hk & Hal & H) & _). exists k, al. split; auto. split; auto.
    intros v Hv. apply in_tight in Hv. destruct Hv as (Hv & E). rewrite H by (eapply dims_in; eauto). rewrite E. lia.
  Qed.

  Lemma rotates_facet f r g : facet n V f -> facet n (tight V f) r -> rotates n V f r g -> facet n V g.
  Proof.
    intros Hf Hr Hrot. assert (Hs := rotates_tight f r g Hrot).
    destruct Hrot as (Hl & Hval & (k & al & be & Hk & Hal & H) & w & Hw & Hgw & Hfw).
    assert (Hg : facet n (tight V f) g) by (apply (facet_sim n _ r); auto using sim_sym).
    split; [|split; [|split]]; auto.
    - intros Hz. destruct (facet_neg n _ g Hg) as (v & Hv & Hn). apply in_tight in Hv. destruct Hv as (Hv & _). specialize (Hz v Hv). lia.
    - intros b Hb Hbt.
      destruct (facet_form n _ g b Hg Hb) as (k1 & t1 & Hk1 & H1).
      { intros v Hv E. apply in_tight in Hv. apply Hbt; tauto. }
      set (c := vadd (vscale k1 b) (vscale (- t1) g)).
      assert (Hc : forall v, dot c v = k1 * dot b v - t1 * dot g v).
      { intros v. unfold c. rewrite dot_vadd_l, !dot_vscale_l by (rewrite !vscale_length; lia). lia. }
      destruct (facet_form n V f c Hf) as (k2 & t2 & Hk2 & H2).
      { unfold c. apply vadd_length_eq; rewrite vscale_length; auto. }
      { intros v Hv E. rewrite Hc. rewrite H1 by (apply in_tight; auto). lia. }
      assert (Ht2 : t2 = 0).
      { specialize (H2 w Hw). rewrite Hc, Hgw, (Hbt w Hw Hgw) in H2. nia. }
      exists (k2 * k1), (- (k2 * t1)). split; [nia|]. intros v Hv. specialize (H2 v Hv). rewrite Hc, Ht2 in H2.
      rewrite dot_vadd_l, !dot_vscale_l by (rewrite !vscale_length; lia). lia.
  Qed.

  Lemma rotates_adj f r g : facet n V f -> facet n (tight V f) r -> rotates n V f r g -> ridge_adj n V f g.
  Proof.
    intros Hf Hr Hrot. split; [auto|split; [apply (rotates_facet f r); auto|]].
    apply (facet_sim n _ r); auto; [apply Hrot|]. apply sim_sym. apply rotates_tight; auto.
  Qed.

  (** There is only one facet on the other side of a ridge. *)
  Lemma neighbour_unique f g g' : ridge_adj n V f g -> ridge_adj n V f g' -> simn (tight V f) g g' -> simn V g g'.
  Proof.
    intros A A' (k & t & Hk & Ht & H). assert (D := ridge_adj_differ n V f g A). assert (D' := ridge_adj_differ n V f g' A').
    destruct A as (Hf & Hg & Hr), A' as (_ & Hg' & Hr').
    destruct (facet_witness n V f g Hf Hg D) as (w & Hw & W1 & W2).
    destruct (facet_witness n V f g' Hf Hg' D') as (w' & Hw' & W1' & W2').
    set (c := vadd (vscale k g) (vscale (- t) g')).
    assert (Hc : forall v, dot c v = k * dot g v - t * dot g' v).
    { intros v. unfold c. destruct Hg as (Hlg & _), Hg' as (Hlg' & _). rewrite dot_vadd_l, !dot_vscale_l by (rewrite !vscale_length; lia). lia. }
    destruct (facet_form n V f c Hf) as (m & s & Hm & H2).
    { unfold c. destruct Hg as (Hlg & _), Hg' as (Hlg' & _). apply vadd_length_eq; rewrite vscale_length; auto. }
    { intros v Hv E. rewrite Hc. rewrite H by (apply in_tight; auto). lia. }
    assert (E1 := H2 w Hw). assert (E2 := H2 w' Hw'). rewrite Hc in E1, E2. rewrite W1 in E1. rewrite W1' in E2.
    destruct Hg as (_ & Hgv & _), Hg' as (_ & Hgv' & _). specialize (Hgv w' Hw'). specialize (Hgv' w Hw).
    assert (Hs : s = 0) by nia.
    exists k, t. split; auto. split; auto. intros v Hv. specialize (H2 v Hv). rewrite Hc, Hs in H2. nia.
  Qed.

  (** Being neighbours is symmetric. *)
  Lemma ridge_adj_sym f g : ridge_adj n V f g -> ridge_adj n V g f.
  Proof.
    intros A. assert (D := ridge_adj_differ n V f g A). destruct A as (Hf & Hg & Hr). split; auto. split; auto.
    destruct (facet_witness n V f g Hf Hg D) as (w & Hw & W1 & W2).
    split; [apply Hf|]. split; [intros v Hv; apply in_tight in Hv; apply Hf; tauto|]. split.
    - intros Hz. specialize (Hz w). rewrite Hz in W2; [lia|]. apply in_tight; auto.
    - intros b Hb Hbt.
      destruct (facet_form n _ g b Hr Hb) as (k1 & t1 & Hk1 & H1).
      { intros v Hv E. apply in_tight in Hv. apply Hbt; [apply in_tight|]; tauto. }
      set (c := vadd (vscale k1 b) (vscale (- t1) g)).
      destruct Hg as (Hlg & Hgv & Hgn & Hgf).
      assert (Hc : forall v, dot c v = k1 * dot b v - t1 * dot g v).
      { intros v. unfold c. rewrite dot_vadd_l, !dot_vscale_l by (rewrite !vscale_length; lia). lia. }
      destruct (facet_form n V f c Hf) as (k2 & t2 & Hk2 & H2).
      { unfold c. apply vadd_length_eq; rewrite vscale_length; auto. }
      { intros v Hv E. rewrite Hc. rewrite H1 by (apply in_tight; auto). lia. }
      exists (k2 * k1), (- t2). split; [nia|]. intros v Hv. apply in_tight in Hv. destruct Hv as (Hv & E).
      specialize (H2 v Hv). rewrite Hc, E in H2. destruct Hf as (Hlf & _).
      rewrite dot_vadd_l, !dot_vscale_l by (rewrite !vscale_length; lia). lia.
  Qed.

  Lemma ridge_adj_sim f f' g g' : length f' = n -> length g' = n -> simn V f f' -> simn V g g' -> ridge_adj n V f g -> ridge_adj n V f' g'.
  Proof.
    intros Hlf Hlg Sf Sg (Hf & Hg & Hr). split; [apply (facet_sim n V f); auto|]. split; [apply (facet_sim n V g); auto|].
    rewrite <- (sim_tight V f f' Sf). apply (facet_sim n _ g); auto. apply (sim_incl V); auto. apply tight_incl.
  Qed.

  (** ** Linear functions on the inequalities *)
  (** [y] takes the value 0 on every equation of [V]. *)
  Definition respects (y : vec) : Prop := length y = n /\ forall a, length a = n -> vanishes V a -> dot a y = 0.

  Definition vsum (l : list vec) : vec := fold_right vadd (vzero n) l.
  Lemma vsum_length l : dims n l -> length (vsum l) = n.
  Proof. induction 1; cbn [vsum fold_right]; [apply vzero_length|]. apply vadd_length_eq; auto. Qed.
  Lemma dot_vsum a l : dims n l -> dot a (vsum l) = fold_right Z.add 0 (map (dot a) l).
  Proof.
    induction 1 as [|v l Hv Hl IH]; cbn [vsum fold_right map]; [apply dot_vzero_r|].
    rewrite dot_vadd_r by (fold (vsum l); rewrite vsum_length; auto). fold (vsum l). rewrite IH. auto.
  Qed.
  Lemma sum_nonpos l a : (forall v, In v l -> dot a v <= 0) -> fold_right Z.add 0 (map (dot a) l) <= 0 /\
    (fold_right Z.add 0 (map (dot a) l) = 0 -> forall v, In v l -> dot a v = 0).
  Proof.
    induction l as [|u l IH]; intros H; cbn [map fold_right]; [split; [lia|intros _ v []]|].
    destruct (IH (fun v Hv => H v (or_intror Hv))) as (I1 & I2). assert (Hu := H u (or_introl eq_refl)).
    split; [lia|]. intros E v [<-|Hv]; [lia|]. apply I2; auto. lia.
  Qed.
  Lemma respects_sum l : incl l V -> respects (vsum l).
  Proof.
    intros Hi. assert (Hl : dims n l) by (apply (dims_incl n l V); auto). split; [apply vsum_length; auto|].
    intros a Ha Hz. rewrite dot_vsum by auto. clear - Hi Hz. induction l as [|v l IH]; cbn [map fold_right]; auto.
    rewrite (Hz v) by (apply Hi; left; auto). rewrite IH; [lia|]. intros u Hu. apply Hi. right; auto.
  Qed.
  Lemma respects_comb k y m z : respects y -> respects z -> respects (vadd (vscale k y) (vscale m z)).
  Proof.
    intros (Hy & Ry) (Hz & Rz). split; [apply vadd_length_eq; rewrite vscale_length; auto|]. intros a Ha Hv.
    rewrite dot_vadd_r, !dot_vscale_r by (rewrite !vscale_length; lia). rewrite Ry, Rz by auto. lia.
  Qed.
  Lemma respects_eq y a b : respects y -> length a = n -> length b = n -> forall k t, 
    (forall v, In v V -> k * dot a v = t * dot b v) -> k * dot a y = t * dot b y.
  Proof.
    intros (Hy & Ry) Ha Hb k t H.
    assert (E : dot (vadd (vscale k a) (vscale (- t) b)) y = 0).
    { apply Ry; [apply vadd_length_eq; rewrite vscale_length; auto|]. intros v Hv. specialize (H v Hv).
      rewrite dot_vadd_l, !dot_vscale_l by (rewrite !vscale_length; lia). lia. }
    rewrite dot_vadd_l, !dot_vscale_l in E by (rewrite !vscale_length; lia). lia.
  Qed.
End Geometry.

(** Rows covering all valid inequalities generate them up to equations. *)
Lemma covers_gen_mod n V G : dims n G -> (forall g, In g G -> valid V g /\ nz V g) -> covers n V G ->
  forall a, dual n V a -> exists k x, 0 < k /\ gen n G x /\ forall v, In v V -> k * dot a v = dot x v.
Proof.
  intros HG HGv Hc x.
  induction x as [x IH] using (induction_ltof1 _ (nsupp V)). unfold ltof in IH. intros Hx.
  destruct (nz_dec V x) as [Hz|Hz].
  - destruct (Hc x Hx Hz) as (g & Hg & Hs).
    destruct (HGv g Hg) as (Hgv & Hgz). assert (Hlg := dims_in _ _ _ HG Hg).
    destruct (support_reduce n V x g) as (k & t & Hk & Ht & Hd & _ & Hlt); auto.
    { split; auto. }
    destruct (IH _ Hlt Hd) as (m & y & Hm & Hy & E).
    exists (m * k), (vadd (vscale (m * t) g) y). split; [nia|]. split; [apply gen_add; auto; nia|].
    intros v Hv. specialize (E v Hv). assert (Hly := gen_length n G y HG Hy). destruct Hx as (Hlx & _).
    rewrite dot_vadd_l, dot_vscale_l by (rewrite vscale_length; lia).
    rewrite dot_vadd_l, !dot_vscale_l in E by (rewrite !vscale_length; lia). nia.
  - exists 1, (vzero n). split; [lia|]. split; [constructor|]. intros v Hv. rewrite (Hz v Hv), dot_vzero_l. lia.
Qed.

Lemma gen_positive n G x y : dims n G -> gen n G x -> 0 < dot x y -> exists g, In g G /\ 0 < dot g y.
Proof.
  intros HG. induction 1 as [|g t z Hg Ht Hz IH|k z Hk Hl Hz IH].
  - rewrite dot_vzero_l. lia.
  - assert (Hlz := gen_length n G z HG Hz). assert (Hlg := dims_in n G g HG Hg).
    rewrite dot_vadd_l, dot_vscale_l by (rewrite vscale_length; lia). intros H.
    destruct (Z_lt_ge_dec 0 (dot g y)); [eauto|]. apply IH. nia.
  - intros H. apply IH. rewrite dot_vscale_l. nia.
Qed.
