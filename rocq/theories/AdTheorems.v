(** * AdTheorems: the rows found by adjacency decomposition when maps are used. *)
From Coq Require Import List ZArith Arith Lia Bool Permutation Ascii String.
From Verif Require Import Base Spec LinAlg ListUtil Cone FmeCore FmePure FmePrepare FmeCorrect ArithModel MatrixModel FmeModel SafeIntModel Refine MatrixRefine FmeRefine IntTypes FmeTheorems DimTheorems NormTheorems
  HeuristicTheorems ClassesModel ClassesProofs OrbitTheorems ApplyTheorems OrbitExact RotationModel Adjacency RotatePure RotateRefine Climb NormalForm RotationTheorems Symmetry MapModel MapNormalize ListModel AdModel.
Import ListNotations.
Open Scope Z_scope.
Open Scope list_scope.

Notation orb := (orbit EXACT Facet_tag).

(** ** The maps act on the facets *)
Section Act.
  Variables (n : nat) (V : list vec) (maps : list lmap) (order : list nat -> list nat).
  Hypothesis HV : dims n V.
  Hypothesis Ho : sort_order order.
  Notation e := (unit_vec n (n - 1) (-1)).

  Record acting : Prop := {
    a_maps : Forall (map_in n) maps;
    a_facet : forall m f, In m maps -> facet n V f -> nform n V f -> facet n V (act m f) /\ nform n V (act m f);
    a_sim : forall m f g, In m maps -> nform n V f -> nform n V g -> simn V (act m f) (act m g) -> simn V f g;
    a_trivial : forall m f, In m maps -> nform n V f -> simn V (act m f) e <-> simn V f e;
    a_step : forall m f g, In m maps -> nform n V f -> nform n V g -> nstep n V f g -> nstep n V (act m f) (act m g)
  }.
  Hypothesis HA : acting.

  Lemma orb_apply m x y : length x = n -> In m maps -> m_apply (arith EXACT) Facet_tag m x = Ok y -> y = act m x /\ length y = n.
  Proof.
    intros Hx Hm E. assert (Mm := proj1 (Forall_forall _ _) (a_maps HA) m Hm). rewrite (apply_exact Facet_tag n m x Mm Hx) in E. assert (E' : rnorm (praw Facet_tag m x) = y) by congruence.
    subst y. split; [reflexivity|]. rewrite rnorm_length, praw_length. auto.
  Qed.
  Lemma orb_length f x : length f = n -> orb maps f x -> length x = n.
  Proof. intros Hf. induction 1 as [|x m y _ IH Hm E]; auto. apply (orb_apply m x y); auto. Qed.
  Lemma orb_facet f x : facet n V f -> nform n V f -> orb maps f x -> facet n V x /\ nform n V x /\ (simn V x e <-> simn V f e).
  Proof.
    intros Ff Nf. induction 1 as [|x m y _ (IH1 & IH2 & IH3) Hm E]; [tauto|]. destruct (orb_apply m x y (proj1 IH1) Hm E) as (-> & _).
    destruct (a_facet HA m x Hm IH1 IH2) as (H1 & H2). split; auto. split; auto. rewrite (a_trivial HA m x Hm IH2). auto.
  Qed.
  Lemma orb_rows f x : facet n V f -> nform n V f -> orb maps f x -> In x (all_rows order n V).
  Proof. intros Ff Nf Hx. apply (all_rows_iff order n V Ho HV). destruct (orb_facet f x Ff Nf Hx) as (H1 & H2 & _). auto. Qed.
  Lemma orb_injective f : facet n V f -> nform n V f -> acts_injectively EXACT Facet_tag maps f.
  Proof.
    intros Ff Nf m Hm. assert (Mm := proj1 (Forall_forall _ _) (a_maps HA) m Hm). split.
    - intros x Hx. eexists. apply (apply_exact Facet_tag n); auto. apply (orb_length f); auto. apply Ff.
    - intros x x' y Hx Hx' E E'. destruct (orb_facet f x Ff Nf Hx) as (F1 & N1 & _). destruct (orb_facet f x' Ff Nf Hx') as (F2 & N2 & _).
      destruct (orb_apply m x y (proj1 F1) Hm E) as (-> & _). destruct (orb_apply m x' _ (proj1 F2) Hm E') as (E2 & _).
      apply (nform_unique n V); auto. apply (a_sim HA m); auto. rewrite E2. apply sim_refl.
  Qed.
  Lemma orb_reversible f : facet n V f -> nform n V f -> reversible EXACT Facet_tag maps f.
  Proof. intros Ff Nf. apply (injective_reversible EXACT Facet_tag maps f (all_rows order n V)); [apply orb_injective; auto|]. intros x. apply orb_rows; auto. Qed.
  Lemma orb_back f x : facet n V f -> nform n V f -> orb maps f x -> orb maps x f.
  Proof. intros Ff Nf Hx. apply (orb_reversible f Ff Nf f x); auto. constructor. Qed.
  Lemma orb_step f x g : facet n V f -> nform n V f -> facet n V g -> nform n V g -> orb maps f x -> nstep n V f g -> exists y, orb maps g y /\ nstep n V x y.
  Proof.
    intros Ff Nf Fg Ng Hx Hs. induction Hx as [|x m y Hx (z & Hz & IH) Hm E]; [exists g; split; auto; constructor|].
    destruct (orb_facet f x Ff Nf Hx) as (Fx & Nx & _). destruct (orb_facet g z Fg Ng Hz) as (Fz & Nz & _).
    destruct (orb_apply m x y (proj1 Fx) Hm E) as (-> & _). exists (act m z). assert (Mm := proj1 (Forall_forall _ _) (a_maps HA) m Hm).
    split; [|apply (a_step HA); auto]. apply (orbit_apply EXACT Facet_tag maps g z m); auto. apply (apply_exact Facet_tag n); auto. apply Fz.
  Qed.
  Lemma largest_any f x : facet n V f -> nform n V f -> orb maps f x -> forall y, largest EXACT Facet_tag maps f y <-> largest EXACT Facet_tag maps x y.
  Proof. intros Ff Nf Hx y. apply (largest_orbit EXACT Facet_tag maps f x y (orb_reversible f Ff Nf) Hx). Qed.
End Act.

(** ** The rows found *)
Section Explore.
  Variables (t : int_type) (order : list nat -> list nat) (n : nat) (V : list vec) (maps : list lmap) (fuel : nat) (start : list vec).
  Hypothesis Ht : t <> INT16.
  Hypothesis Ho : sort_order order.
  Hypothesis HR : rows_representable t V.
  Hypothesis HV : dims n V.
  Hypothesis Hh : homogenised n V.
  Hypothesis HA : acting n V maps.
  Variables a b c : vec.
  Hypothesis Fa : facet n V a.
  Hypothesis Fb : facet n V b.
  Hypothesis Fc : facet n V c.
  Hypothesis Dab : ~ equivalent_ineq V a b.
  Hypothesis Dac : ~ equivalent_ineq V a c.
  Hypothesis Dbc : ~ equivalent_ineq V b c.
  Notation e := (unit_vec n (n - 1) (-1)).
  Notation nb := (m_ad_neighbours t order fuel V maps).
  Notation cl := (closure nb start).
  Let Hex := hom_ex n V Hh.

  Definition good_row (r : vec) : Prop :=
    facet n V r /\ nform n V r /\ Forall (representable t) r /\ exists h, facet n V h /\ nform n V h /\ largest EXACT Facet_tag maps h r.
  Hypothesis Hs : forall r, In r start -> good_row r.

  Lemma largest_good h r : facet n V h -> nform n V h -> Forall (representable t) r -> largest EXACT Facet_tag maps h r -> good_row r.
  Proof. intros Fh Nh Rr L. destruct (orb_facet n V maps HA h r Fh Nh (proj1 L)) as (F & N & _). split; auto. split; auto. split; auto. exists h. auto. Qed.
  Lemma good_largest r : good_row r -> largest EXACT Facet_tag maps r r.
  Proof. intros (F & N & _ & h & Fh & Nh & L). apply (largest_any n V maps order HV Ho HA h r Fh Nh (proj1 L)). auto. Qed.

  Let Hnz f := any_nonzero order n V Ho HV a b Fa Fb Dab f.

  (** What processing a row returns. *)
  Lemma processed_rows r l : good_row r -> m_rotation (arith t) order fuel V r maps Facet_tag = Ok (Some l) ->
    (forall x, In x l -> good_row x /\ exists g, In g (rotated_of order n V r) /\ largest EXACT Facet_tag maps g x) /\
    (forall g, In g (rotated_of order n V r) -> exists x, In x l /\ orb maps g x).
  Proof.
    intros (F & N & Rr & _) E. unfold m_rotation in E. match type of E with (bind ?m _ = _) => destruct m as [R| |] eqn:ER end; cbn [bind] in E; try discriminate.
    destruct (rotated_representable t order n V Ht Ho HR HV r R F Rr (Hnz r F) ER) as (-> & RR).
    assert (G : forall g, In g (rotated_of order n V r) -> facet n V g /\ nform n V g).
    { intros g Hg. split; [|apply (rotated_nform n V order HV Ho r); auto]. destruct (rotated_ridge n V order HV Ho r g F Hg) as (_ & _ & _ & _ & _ & _ & Ha). apply Ha. }
    assert (Hd : dims n (rotated_of order n V r)) by (apply Forall_forall; intros g Hg; apply (G g Hg)).
    destruct (classes_exact t Facet_tag maps n Ht (a_maps n V maps HA) fuel (rotated_of order n V r) l Hd RR E) as (C1 & C2). split.
    - intros x Hx. destruct (C1 x Hx) as (_ & Rx & g & Hg & L). destruct (G g Hg) as (Fg & Ng). split; [apply (largest_good g); auto|]. exists g. auto.
    - intros g Hg. destruct (C2 g Hg) as (h & x & Hh' & Oh & Hx & L). exists x. split; auto. destruct (G h Hh') as (Fh & Nh).
      apply (orbit_trans EXACT Facet_tag maps g h); [|apply L]. apply (orb_back n V maps order HV Ho HA h); auto.
  Qed.
  Lemma closure_good r : cl r -> good_row r.
  Proof.
    induction 1 as [r Hr|r x _ IH Hx]; [apply Hs; auto|]. unfold m_ad_neighbours in Hx.
    match type of Hx with In _ (match ?m with _ => _ end) => destruct m as [[l|]| |] eqn:E end; try destruct Hx.
    apply (processed_rows r l IH E). auto.
  Qed.
  Lemma closure_length r : cl r -> length r = n.
  Proof. intros Hr. apply (proj1 (closure_good r Hr)). Qed.

  Lemma closure_complete f0 g : In f0 start -> ~ simn V f0 e -> (forall r, cl r -> m_ad_processed t order fuel V maps r) ->
    facet n V g -> nform n V g -> ~ simn V g e -> exists r, cl r /\ largest EXACT Facet_tag maps g r.
  Proof.
    intros Hf0 Df0 Hok Fg Ng Dg.
    assert (L : forall x y, facet n V x -> facet n V y -> ~ equivalent_ineq V x y -> ~ simn V x y).
    { intros x y (Hx & _) (Hy & _) H Hsim. apply H. apply sim_equiv; auto. congruence. }
    destruct (Hs f0 Hf0) as (Ff0 & Nf0 & _).
    destruct (connected n V order HV Ho Hh f0 g a b c) as (g' & Sg & Fg' & Hreach); auto; try (split; auto).
    assert (Hpath : forall x y, reaches (nstep n V) x y -> forall x1 r, cl r -> orb maps x1 r -> nfacet n V x1 -> nform n V x1 -> simn V x1 x ->
      exists y1 r', cl r' /\ orb maps y1 r' /\ nfacet n V y1 /\ nform n V y1 /\ simn V y1 y).
    { intros x y. induction 1 as [x|x y z _ IH Hst]; intros x1 r Cr Or Nx Fx Sx; [exists x1, r; auto|].
      destruct (IH x1 r Cr Or Nx Fx Sx) as (y1 & r1 & Cr1 & Or1 & Ny & Fy & Sy). clear x1 r Cr Or Nx Fx Sx IH.
      assert (Fz : facet n V z) by apply Hst.
      destruct (all_rows_complete order Ho n V HV z Fz) as (z1 & Hz1 & Ez). apply (all_rows_iff order n V Ho HV) in Hz1. destruct Hz1 as (Fz1 & Nz1).
      apply sim_equiv in Ez; [|destruct Fz, Fz1; congruence].
      assert (St : nstep n V y1 z1).
      { apply (nstep_sim n V y y1 z z1); auto; [apply Ny|apply Fz1|apply sim_sym; auto|apply sim_sym; auto]. }
      destruct (orb_step n V maps HA y1 r1 z1 (proj1 Ny) Fy Fz1 Nz1 Or1 St) as (w & Ow & Sw).
      destruct (orb_facet n V maps HA y1 r1 (proj1 Ny) Fy Or1) as (Fr1 & Nr1 & Dr1).
      destruct (orb_facet n V maps HA z1 w Fz1 Nz1 Ow) as (Fw & Nw & Dw).
      assert (Nr1' : nfacet n V r1) by (split; auto; intros Q; apply (proj2 Ny); apply Dr1; auto).
      destruct (rotated_complete n V order HV Ho Hh r1 w Nr1' Sw) as (g1 & Hg1 & Sg1).
      destruct (rotated_nfacet n V order HV Ho Hh r1 g1 Nr1' Hg1) as (Fg1 & Dg1).
      assert (Ng1 := rotated_nform n V order HV Ho r1 g1 Fr1 Nr1 Hg1).
      assert (g1 = w) by (apply (nform_unique n V); auto). subst g1.
      destruct (Hok r1 Cr1) as (l & El). destruct (processed_rows r1 l (closure_good r1 Cr1) El) as (_ & P2). destruct (P2 w Hg1) as (x2 & Hx & Ox).
      exists z1, x2. split; [|split; [|split; [|split]]].
      - apply (closure_step nb start r1); auto. unfold m_ad_neighbours. cbn in El |- *. rewrite El. auto.
      - apply (orbit_trans EXACT Facet_tag maps z1 w); auto.
      - split; auto. intros Q. apply Dg1. apply Dw. auto.
      - auto.
      - auto. }
    destruct (Hpath f0 g' Hreach f0 f0 (closure_start nb start f0 Hf0) (orbit_start EXACT Facet_tag maps f0) (conj Ff0 Df0) Nf0 (sim_refl V f0)) as (h & r & Cr & Or & Nh' & Fh & Sh).
    assert (h = g) as <- by (apply (nform_unique n V); auto; apply (sim_trans V h g'); auto; apply sim_sym; auto).
    exists r. split; auto. apply (largest_any n V maps order HV Ho HA h r Fg Ng Or). apply good_largest. apply closure_good; auto.
  Qed.

  (** The rows found are the representatives of the classes of the facets. *)
  Lemma closure_exactly f0 : In f0 start -> ~ simn V f0 e -> (forall r, cl r -> m_ad_processed t order fuel V maps r) ->
    (forall g, In g (fme order n V) -> exists r, cl r /\ largest EXACT Facet_tag maps g r) /\
    (forall r, cl r -> (In r (fme order n V) \/ r = e) /\ largest EXACT Facet_tag maps r r).
  Proof.
    intros Hf0 Df0 Hok. split.
    - intros g Hg. apply (fme_iff n V order HV Ho Hex) in Hg. destruct Hg as (Fg & Ng & Dg). apply (closure_complete f0); auto.
    - intros r Hr. assert (G := closure_good r Hr). split; [|apply good_largest; auto]. apply (all_rows_fme order n V Ho HV Hh). apply (all_rows_iff order n V Ho HV). split; apply G.
  Qed.

  (** With exact integers nothing fails. *)
  Lemma processed_exact r : t = EXACT -> good_row r -> (length (all_rows order n V) <= fuel)%nat -> m_ad_processed t order fuel V maps r.
  Proof.
    intros Et (F & N & Rr & _) Hf. unfold m_ad_processed, m_rotation. assert (O := rotated_outcome t order n V Ht Ho HR HV r F Rr (Hnz r F)). rewrite Et in *. apply outcome_exact in O.
    match goal with |- exists l, bind ?m _ = _ => assert (E : m = Ok (rotated_of order n V r)) by exact O; rewrite E end. cbn [bind].
    assert (G : forall g, In g (rotated_of order n V r) -> facet n V g /\ nform n V g).
    { intros g Hg. split; [|apply (rotated_nform n V order HV Ho r); auto]. destruct (rotated_ridge n V order HV Ho r g F Hg) as (_ & _ & _ & _ & _ & _ & Ha). apply Ha. }
    destruct (set_of_spec EXACT (rotated_of order n V r)) as (S1 & S2). unfold m_classes. apply classes_loop_total; auto. intros g Hg. apply S2 in Hg. destruct (G g Hg) as (Fg & Ng).
    apply (get_class_total EXACT Facet_tag maps g (all_rows order n V)); auto. intros x Hx. split; [apply (orb_rows n V maps order HV Ho HA g); auto|].
    intros m Hm. apply (orb_injective n V maps HV HA g Fg Ng m Hm). auto.
  Qed.
End Explore.

(** ** No maps *)
Lemma acting_none n V : acting n V [].
Proof. constructor; [constructor|..]; intros m; intros; try destruct H; intros; contradiction. Qed.

(** ** Maps that act on rows in normal form like symmetries, up to equations *)
Definition like_symmetry (n : nat) (V : list vec) (m' m : lmap) : Prop :=
  map_in n m /\ nth (n - 1) m [] = [((n - 1)%nat, 1)] /\ onto m V V /\ map_in n m' /\
  forall f, nform n V f -> (~ vanishes V (act m f) -> nform n V (act m' f)) /\ simn V (act m' f) (act m f).
Lemma acting_like n V maps' : dims n V -> homogenised n V -> (forall m', In m' maps' -> exists m, like_symmetry n V m' m) -> acting n V maps'.
Proof.
  intros HV Hh Hm. assert (Hn : (0 < n)%nat) by (apply (homogenised_pos n V HV Hh)).
  constructor.
  - apply Forall_forall. intros m' Hin. destruct (Hm m' Hin) as (m & _ & _ & _ & H & _). auto.
  - intros m' f Hin Ff Nf. destruct (Hm m' Hin) as (m & M1 & M2 & M3 & M4 & M5). destruct (M5 f Nf) as (H1 & H2). assert (F := act_facet n V m HV M1 M3 f Ff).
    split; [|apply H1; apply (proj1 (proj2 (proj2 F)))].
    apply (facet_sim n V (act m f)); auto; [apply (act_length n m'); auto; apply Ff|apply sim_sym; auto].
  - intros m' f g Hin Nf Ng H. destruct (Hm m' Hin) as (m & M1 & M2 & M3 & M4 & M5). apply (act_simn n V m HV M1 M3 f g (proj1 Nf) (proj1 Ng)).
    apply (sim_trans V _ (act m' f)); [apply sim_sym; apply M5; auto|]. apply (sim_trans V _ (act m' g)); auto. apply M5; auto.
  - intros m' f Hin Nf. destruct (Hm m' Hin) as (m & M1 & M2 & M3 & M4 & M5). rewrite <- (act_trivial n V m HV M1 M3 M2 Hn f (proj1 Nf)). destruct (M5 f Nf) as (_ & H).
    split; intros Q; [apply (sim_trans V _ (act m' f)); [apply sim_sym|]|apply (sim_trans V _ (act m f))]; auto.
  - intros m' f g Hin Nf Ng H. destruct (Hm m' Hin) as (m & M1 & M2 & M3 & M4 & M5). assert (S := act_nstep n V m HV M1 M3 M2 Hn f g H).
    apply (nstep_sim n V (act m f) (act m' f) (act m g) (act m' g)); auto.
    + apply (act_length n m'); auto; apply Nf.
    + apply (act_length n m'); auto; apply Ng.
    + apply sim_sym. apply M5; auto.
    + apply sim_sym. apply M5; auto.
Qed.

(** Symmetries of a full-dimensional polyhedron *)
Lemma acting_symmetric n V maps : dims n V -> homogenised n V -> eqs n V = [] ->
  Forall (fun m => map_in n m /\ nth (n - 1) m [] = [((n - 1)%nat, 1)] /\ onto m V V) maps -> acting n V maps.
Proof.
  intros HV Hh He Hm. rewrite Forall_forall in Hm. apply acting_like; auto. intros m Hin. destruct (Hm m Hin) as (M1 & M2 & M3). exists m. split; auto. split; auto. split; auto. split; auto.
  intros f Nf. split; [|apply sim_refl]. intros Hz. apply full_nform; auto. assert (L := act_length n m f (proj1 Nf)). split; auto.
  destruct (rnorm_zero_or_primitive (praw Facet_tag m f)) as [E|E]; auto. exfalso. apply Hz. unfold act. rewrite E. intros v _. apply dot_vzero_l.
Qed.

(** Normalised symmetries *)
Lemma like_normalised t n V m m' : (t <> INT64 \/ eqs n V = []) -> dims n V -> Z.of_nat n < 2 ^ 64 -> (forall e, In e (eqs n V) -> nth (first_nz e) e 0 = 1) ->
  map_in n m -> Forall (fun im : image => Z.of_nat (length im) < 2 ^ 64) m -> nth (n - 1) m [] = [((n - 1)%nat, 1)] -> onto m V V ->
  m_normalize_map t (eqs n V) m = Ok m' -> like_symmetry n V m' m.
Proof.
  intros Ht HV Hn Hlead Hm Hmem Hlast Hon Em.
  assert (Em' : exists t', t' <> INT64 /\ m_normalize_map t' (eqs n V) m = Ok m').
  { destruct Ht as [Ht|He]; [exists t; auto|]. exists EXACT. split; [discriminate|]. rewrite He in Em |- *. exact Em. }
  clear t Ht Em. destruct Em' as (t & Ht & Em).
  assert (P := prepare_ok n V HV). assert (HE : dims n (eqs n V)) by apply (po_eqs_dim _ _ _ P). assert (HL : leads_ok n (eqs n V)) by (apply extracted_leads; auto).
  assert (Hsm : small n m).
  { apply Forall_forall. intros im Him. destruct Hm as (_ & Hm). rewrite Forall_forall in Hm, Hmem. split; [apply Hm; auto|apply Hmem; auto]. }
  assert (Hlead' : forall e, In e (eqs n V) -> (first_nz e < n)%nat /\ nth (first_nz e) e 0 = 1) by (intros e He; split; auto; apply (leads_in n _ HL e He)).
  assert (Q : forall f, nform n V f -> map_in n m' /\ act m' f = normalize (act m f) (eqs n V)).
  { intros f (L & _ & Z0). apply (normalized_action t n (eqs n V) m m' f Ht Hn HE Hlead' (proj1 Hm) Hsm Em L Z0). }
  assert (Hm' : map_in n m') by (apply (normalize_map_spec t Ht n (eqs n V) m m' Hn HE Hlead' (proj1 Hm) Hsm Em)).
  split; auto. split; auto. split; auto. split; auto. intros f Nf. destruct (Q f Nf) as (_ & ->). assert (L := act_length n m f (proj1 Nf)).
  destruct (normalize_spec n (eqs n V) HL (act m f) L) as (N1 & N2 & g & k & s & Hg & Hk & Ls & Hs & Eq).
  assert (Sim : simn V (normalize (act m f) (eqs n V)) (act m f)).
  { exists g, k. split; auto. split; auto. intros v Hv. assert (E := f_equal (fun u => dot u v) Eq). cbn beta in E. rewrite dot_vscale_l, dot_vadd_l, dot_vscale_l in E by (rewrite vscale_length; congruence).
    destruct Hs as (j & cs & Hj & Lc & Ec). assert (E2 := f_equal (fun u => dot u v) Ec). cbn beta in E2. rewrite dot_vscale_l, dot_lincomb_l in E2 by auto. rewrite (Symmetry.dot_zero_r cs) in E2; [nia|].
    apply Forall_forall. intros x Hx. apply in_map_iff in Hx. destruct Hx as (e0 & <- & He). apply (po_eqs_van _ _ _ P e0 He v Hv). }
  split; auto. intros Hz. split; auto. split; auto. destruct (normalize_primitive n (eqs n V) HL (act m f) L) as [E|E]; auto. exfalso. apply Hz. intros v Hv.
  destruct Sim as (g' & k' & Hg' & Hk' & H). specialize (H v Hv). rewrite E, dot_vzero_l in H. nia.
Qed.
