(** * PropertiesCoordinates: a change of coordinates changes the output only by that change (C67). *)
From Coq Require Import List ZArith QArith Arith Bool Ascii String Lia Lqa Permutation.
From Verif Require Import Base Spec LinAlg Cone ListUtil ArithModel MatrixModel FmeModel SafeIntModel IntTypes SortModel SortProofs PropertiesSort ClassesModel ClassesProofs ApplyTheorems PropertiesMaps
  ConstraintModel PropertiesConstraints Hull Corners FmeCore FmePure FmePrepare FmeCorrect FmeTheorems PropertiesFme Adjacency NormalForm Symmetry VertexImages ListModel AdModel PropertiesAd ConeSame PropertiesMapFile HullSame PropertiesSame
  PropertiesExpand PropertiesExpandSystem PropertiesProgram PropertiesRotation PropertiesSameAd Samples FileModel FileProofs FileInput InputModel VertexInput PropertiesVertices CliModel PropertiesFile SystemFile PropertiesSystem OutputModel FmeRefine StreamModel ListExec
PropertiesSort Coordinates.
Import ListNotations.
Open Scope nat_scope.
Open Scope Z_scope.
Open Scope list_scope.

(** ** Specification *)
(** The rows of one list stand in the relation to those of the other list, one to one. *)
Definition one_to_one_rows (R : vec -> vec -> Prop) (L1 L2 : list vec) : Prop := exists L, Permutation L1 L /\ Forall2 R L L2.
(** The slack of the inequality [g] at the image of a point of the hull is a fixed positive multiple of the slack of [f] at the point. *)
Definition same_slack (n : nat) (V : list vec) (m : lmap) (f g : vec) : Prop := exists a b, 0 < a /\ 0 < b /\
  forall p : list Q, length p = n -> hull n (points_of V) (rays_of V) p -> (inject_Z a * affine f p == inject_Z b * affine g (moved_by m p))%Q.
(** The row [y] stands for the image of the vertex [x], or for the direction in which the map carries the direction of the ray [x]. *)
Definition same_corner (n : nat) (m : lmap) (x y : vec) : Prop :=
  (is_point x = true /\ is_point y = true /\ same_point (moved_by m (point_of_row x)) (point_of_row y)) \/
  (is_point x = false /\ is_point y = false /\ exists c, (0 < c)%Q /\
    forall (p q : list Q) s, length p = n -> length q = n -> (forall j, (nth j q 0 == nth j p 0 + s * nth j (ray_of_row x) 0)%Q) ->
      forall j, (nth j (moved_by m q) 0 == nth j (moved_by m p) 0 + s * c * nth j (ray_of_row y) 0)%Q).
(** The row is an equation of the form c_1 x_1 + ... + c_n x_n + c = 0, and these are its solutions. *)
Definition on_all (E : list vec) (p : list Q) : Prop := forall e, In e E -> (affine e p == 0)%Q.

(** ** Facets *)
Section Facets.
  Variables (n : nat) (m : lmap) (V1 V2 : list vec).
  Hypotheses (Hm : maps_of_dimension n [m]) (Ho : PropertiesExpandSystem.onto n m).
  Hypotheses (D1 : dims (S n) V1) (D2 : dims (S n) V2) (H1 : homogenised (S n) V1) (H2 : homogenised (S n) V2).
  Hypothesis HH : forall p : list Q, length p = n -> (hull n (points_of V1) (rays_of V1) p <-> hull n (points_of V2) (rays_of V2) (moved_by m p)).
  Notation pull := (praw Facet_tag m).
  Notation e := (unit_vec (S n) n (-1)).
  Let W := map (substitute m) V1.
  Let DW : dims (S n) W.
  Proof. apply (image_dims n m Hm). Qed.
  Let I12 : included (S n) W V2.
  Proof. apply (hull_image n m Hm Ho V1 V2 D1 D2 H1 H2 HH). Qed.
  Let I21 : included (S n) V2 W.
  Proof. apply (hull_image n m Hm Ho V1 V2 D1 D2 H1 H2 HH). Qed.

  Lemma facet_moved g : length g = S n -> (facet (S n) V2 g <-> facet (S n) V1 (pull g)).
  Proof.
    intros Lg. rewrite <- (image_facet n m Hm Ho V1 D1 g Lg). split; [apply (facet_included (S n) V2 W)|apply (facet_included (S n) W V2)]; auto.
  Qed.
  Lemma sim_moved f g : length f = S n -> length g = S n -> (simn V2 f g <-> simn V1 (pull f) (pull g)).
  Proof.
    intros Lf Lg. rewrite <- (image_sim n m Hm V1 D1 f g Lf Lg). split; intros H; [apply (simn_included (S n) W V2)|apply (simn_included (S n) V2 W)]; auto; congruence.
  Qed.
  Lemma vanishes_moved g : length g = S n -> (vanishes V2 g <-> vanishes V1 (pull g)).
  Proof.
    intros Lg. rewrite <- (image_vanishes n m Hm V1 D1 g Lg). split; [apply (vanishes_included (S n) W V2)|apply (vanishes_included (S n) V2 W)]; auto.
  Qed.

  Lemma three_moved : three_different_facets (S n) V1 -> three_different_facets (S n) V2.
  Proof.
    intros (a & b & c & Fa & Fb & Fc & Dab & Dac & Dbc).
    assert (C : forall f, facet (S n) V1 f -> exists g, length g = S n /\ facet (S n) V2 g /\ simn V1 f (pull g)).
    { intros f Ff. destruct (change_onto n m Hm Ho f (proj1 Ff)) as (g & k & Lg & Hk & E). assert (Hs : simn V1 f (pull g)) by (exists k, 1; split; auto; split; [lia|]; intros v _; rewrite E, dot_vscale_l; lia).
      exists g. split; auto. split; auto. apply facet_moved; auto. apply (facet_sim (S n) V1 f); auto. rewrite praw_length; auto. }
    destruct (C a Fa) as (a' & La & Fa' & Sa). destruct (C b Fb) as (b' & Lb & Fb' & Sb). destruct (C c Fc) as (c' & Lc & Fc' & Sc).
    assert (K : forall f g f' g', length f = S n -> length g = S n -> length f' = S n -> length g' = S n -> simn V1 f (pull f') -> simn V1 g (pull g') -> ~ equivalent_ineq V1 f g -> ~ equivalent_ineq V2 f' g').
    { intros f g f' g' Lf Lg Lf' Lg' Sf Sg D E. apply D. apply sim_equiv; [congruence|]. apply sim_equiv in E; [|congruence]. apply sim_moved in E; auto. apply (sim_trans V1 _ (pull f')); auto. apply (sim_trans V1 _ (pull g')); auto. apply sim_sym; auto. }
    exists a', b', c'. split; auto. split; auto. split; auto. assert (Ka := proj1 Fa). assert (Kb := proj1 Fb). assert (Kc := proj1 Fc). split; [apply (K a b a' b')|split; [apply (K a c a' c')|apply (K b c b' c')]]; auto.
  Qed.
  Lemma facets_paired t1 t2 o1 o2 (F1 F2 : list vec) : t1 <> INT16 -> t2 <> INT16 -> sort_order o1 -> sort_order o2 -> rows_representable t1 V1 -> rows_representable t2 V2 ->
    m_fme (arith t1) o1 V1 = Ok F1 -> m_fme (arith t2) o2 V2 = Ok F2 -> one_to_one_rows (fun f g => simn V1 f (pull g)) F1 F2.
  Proof.
    intros T1 T2 O1 O2 R1 R2 HF1 HF2. destruct (homogenised_pos (S n) V1 D1 H1) as (A1 & A2 & A3). destruct (homogenised_pos (S n) V2 D2 H2) as (B1 & B2 & B3).
    assert (X : forall V, homogenised (S n) V -> exists v, In v V /\ nth (S n - 1) v 0 <> 0) by (intros V (_ & v & Hv & P); exists v; split; auto; lia).
    destruct (rows_distinct t1 o1 (S n) V1 T1 O1 R1 D1 F1 A3 HF1) as (N1 & U1). destruct (rows_distinct t2 o2 (S n) V2 T2 O2 R2 D2 F2 B3 HF2) as (N2 & U2).
    assert (G1 : forall f, In f F1 -> facet (S n) V1 f) by (intros f Hf; apply (rows_facets t1 o1 (S n) V1 T1 O1 R1 D1 F1 f A3 HF1 Hf)).
    assert (G2 : forall f, In f F2 -> facet (S n) V2 f) by (intros f Hf; apply (rows_facets t2 o2 (S n) V2 T2 O2 R2 D2 F2 f B3 HF2 Hf)).
    assert (L1 : forall f, In f F1 -> length f = S n) by (intros f Hf; apply (G1 f Hf)). assert (L2 : forall f, In f F2 -> length f = S n) by (intros f Hf; apply (G2 f Hf)).
    assert (E : forall t o V F f, t <> INT16 -> sort_order o -> rows_representable t V -> dims (S n) V -> nonzero (S n) V -> homogenised (S n) V -> m_fme (arith t) o V = Ok F -> In f F -> ~ simn V e f).
    { intros t o V F f T O R D NZ HV HF Hf Hs. rewrite (result_fme t o (S n) V T O R D F NZ HF) in Hf. apply (fme_iff (S n) V o D O (X V HV)) in Hf as (_ & _ & K). apply K.
      replace (S n - 1)%nat with n by lia. apply sim_sym. exact Hs. }
    apply paired_from; auto.
    - intros g Hg. assert (Lg := L2 g Hg). destruct (rows_complete t1 o1 (S n) V1 T1 O1 R1 D1 F1 (pull g) (X V1 H1) HF1) as [(f & Hf & Ef)|Ef]; [apply facet_moved; auto| |].
      + exists f. split; auto. apply sim_equiv in Ef; auto. rewrite praw_length, (L1 f Hf); auto.
      + exfalso. apply sim_equiv in Ef; [|rewrite praw_length, unit_vec_length; auto]. replace (S n - 1)%nat with n in Ef by lia. rewrite <- (change_unit n m Hm) in Ef. apply (sim_moved e g) in Ef; auto using unit_vec_length.
        apply (E t2 o2 V2 F2 g); auto.
    - intros f Hf. assert (Lf := L1 f Hf). destruct (change_onto n m Hm Ho f Lf) as (b & k & Lb & Hk & Eb).
      assert (Sb : simn V1 f (pull b)) by (exists k, 1; split; auto; split; [lia|]; intros v _; rewrite Eb, dot_vscale_l; lia).
      assert (Fb : facet (S n) V2 b) by (apply facet_moved; auto; apply (facet_sim (S n) V1 f); auto; rewrite praw_length; auto).
      destruct (rows_complete t2 o2 (S n) V2 T2 O2 R2 D2 F2 b (X V2 H2) HF2 Fb) as [(g & Hg & Eg)|Eg].
      + exists g. split; auto. apply sim_equiv in Eg; [|rewrite (L2 g Hg); auto]. apply (sim_trans V1 _ (pull b)); auto. apply (sim_moved b g); auto. apply sim_sym; auto.
      + exfalso. apply sim_equiv in Eg; [|rewrite unit_vec_length; auto]. replace (S n - 1)%nat with n in Eg by lia. apply (sim_moved e b) in Eg; auto using unit_vec_length. rewrite (change_unit n m Hm) in Eg.
        apply (E t1 o1 V1 F1 f T1 O1 R1 D1 A3 H1 HF1 Hf). apply (sim_trans V1 _ (pull b)); auto. apply sim_sym; auto.
    - intros f f' g Hf Hf' Hg S1 S2. apply U1; auto. apply sim_equiv; [rewrite !L1; auto|]. apply (sim_trans V1 _ (pull g)); auto. apply sim_sym; auto.
    - intros f g g' Hf Hg Hg' S1 S2. apply U2; auto. apply sim_equiv; [rewrite !L2; auto|]. apply sim_moved; auto. apply (sim_trans V1 _ f); auto. apply sim_sym; auto.
  Qed.
End Facets.

Lemma forall2_flip {A B} (R : A -> B -> Prop) l m : Forall2 R l m -> Forall2 (fun y x => R x y) m l.
Proof. induction 1; constructor; auto. Qed.
Lemma paired_map (R R' : vec -> vec -> Prop) L1 L2 : (forall x y, In x L1 -> In y L2 -> R x y -> R' x y) -> one_to_one_rows R L1 L2 -> one_to_one_rows R' L1 L2.
Proof.
  intros H (L & P & F). exists L. split; auto. assert (HI : forall x, In x L -> In x L1) by (intros x Hx; apply (Permutation_in x (Permutation_sym P) Hx)). clear P.
  revert H HI. induction F as [|x y L L2 Hr _ IH]; intros H HI; constructor; auto; [apply H; auto; [apply HI|]; left; auto|]. apply IH; [intros a b Ha Hb; apply H; auto; right; auto|intros a Ha; apply HI; right; auto].
Qed.

(** An affine change of coordinates with integer coefficients (every point has a preimage; the inverse may have fractions) that takes the hull of one list of points and rays to the hull of another one:
    the facets found by double description correspond one to one, each pair with the same slacks up to a positive factor, and the equations found have the corresponding solutions. *)
Theorem C67_facets : forall t1 t2 o1 o2 n m (V1 V2 E1 E2 F1 F2 : list vec), t1 <> INT16 -> t2 <> INT16 -> sort_order o1 -> sort_order o2 ->
  rows_representable t1 V1 -> rows_representable t2 V2 -> dims (S n) V1 -> dims (S n) V2 -> homogenised (S n) V1 -> homogenised (S n) V2 ->
  maps_of_dimension n [m] -> PropertiesExpandSystem.onto n m ->
  (forall p : list Q, length p = n -> (hull n (points_of V1) (rays_of V1) p <-> hull n (points_of V2) (rays_of V2) (moved_by m p))) ->
  m_extract_equations (arith t1) V1 = Ok E1 -> m_extract_equations (arith t2) V2 = Ok E2 -> m_fme (arith t1) o1 V1 = Ok F1 -> m_fme (arith t2) o2 V2 = Ok F2 ->
  one_to_one_rows (same_slack n V1 m) F1 F2 /\ forall p : list Q, length p = n -> (on_all E1 p <-> on_all E2 (moved_by m p)).
Proof.
  intros t1 t2 o1 o2 n m V1 V2 E1 E2 F1 F2 T1 T2 O1 O2 R1 R2 D1 D2 H1 H2 Hm Ho HH HE1 HE2 HF1 HF2.
  destruct (homogenised_pos (S n) V1 D1 H1) as (A1 & A2 & A3). destruct (homogenised_pos (S n) V2 D2 H2) as (B1 & B2 & B3). split.
  - apply (paired_map (fun f g => simn V1 f (praw Facet_tag m g))); [|apply (facets_paired n m V1 V2 Hm Ho D1 D2 H1 H2 HH t1 t2 o1 o2); auto].
    intros f g Hf Hg Hs. apply slack_on_hull; auto; [apply (rows_facets t1 o1 (S n) V1 T1 O1 R1 D1 F1 f A3 HF1 Hf)|apply (rows_facets t2 o2 (S n) V2 T2 O2 R2 D2 F2 g B3 HF2 Hg)].
  - intros p Lp. rewrite (result_equations t1 (S n) V1 T1 R1 D1 E1 A2 A1 HE1), (result_equations t2 (S n) V2 T2 R2 D2 E2 B2 B1 HE2). unfold eqs.
    assert (P1 := prepare_ok (S n) V1 D1). assert (P2 := prepare_ok (S n) V2 D2). assert (DE1 := po_eqs_dim _ _ _ P1). assert (DE2 := po_eqs_dim _ _ _ P2).
    destruct (clear_point p) as (l & xs & Hl & CX). assert (Lx : length xs = n) by (rewrite <- (forall2_length _ _ _ CX); auto).
    destruct (moved_substitute n [m] Hm m p xs l (or_introl eq_refl) Lx CX) as (ys & EY & Ly & CY). assert (LX : length (xs ++ [l]) = S n) by (rewrite app_length; cbn; lia).
    assert (Z0 : forall (f : vec) q zs, length f = S n -> length zs = n -> Forall2 (fun q x => q * inject_Z l == inject_Z x)%Q q zs -> (affine f q == 0)%Q <-> dot f (zs ++ [l]) = 0).
    { intros f q zs Lf Lz CZ. assert (A := affine_dot f q zs l CZ ltac:(rewrite Lz; auto)). assert (Pl : ~ (inject_Z l == 0)%Q) by (unfold Qeq, inject_Z; cbn; lia). split; intros E.
      - rewrite E, Qmult_0_l in A. apply inject_eq. rewrite <- A. reflexivity.
      - rewrite E in A. apply (Qmult_inj_r _ _ _ Pl). rewrite A. unfold inject_Z. ring. }
    assert (SP : forall (E : list vec) f x, dims (S n) E -> length f = S n -> length x = S n -> in_span (S n) E f -> (forall e, In e E -> dot e x = 0) -> dot f x = 0).
    { intros E f x HE Lf Lx' (k & cs & Hk & Hc & Ek) H0. assert (Q := f_equal (fun u => dot u x) Ek). cbn beta in Q. rewrite dot_vscale_l, dot_lincomb_l in Q by auto.
      rewrite (dot_zero_r cs) in Q; [nia|]. apply Forall_forall. intros z Hz. apply in_map_iff in Hz as (u & <- & Hu). auto. }
    split; intros H f Hf.
    + assert (Lf := dims_in _ _ f DE2 Hf). apply (Z0 f _ ys Lf Ly CY). rewrite <- EY, <- (change_dot n m Hm) by auto.
      apply (SP (p_eqs (prepare (S n) V1))); auto; [rewrite praw_length; auto| |].
      * apply (po_eqs_span _ _ _ P1); [rewrite praw_length; auto|]. apply (vanishes_moved n m V1 V2 Hm Ho D1 D2 H1 H2 HH f Lf). intros v Hv. apply (po_eqs_van _ _ _ P2 f Hf v Hv).
      * intros u Hu. apply (Z0 u p xs (dims_in _ _ u DE1 Hu) Lx CX). apply H; auto.
    + assert (Lf := dims_in _ _ f DE1 Hf). apply (Z0 f p xs Lf Lx CX). destruct (change_onto n m Hm Ho f Lf) as (b & k & Lb & Hk & Eb).
      assert (Q : dot b (ys ++ [l]) = 0).
      { apply (SP (p_eqs (prepare (S n) V2))); auto; [rewrite app_length; cbn; lia| |].
        - apply (po_eqs_span _ _ _ P2); auto. apply (vanishes_moved n m V1 V2 Hm Ho D1 D2 H1 H2 HH b Lb). rewrite Eb. intros v Hv. rewrite dot_vscale_l, (po_eqs_van _ _ _ P1 f Hf v Hv). lia.
        - intros u Hu. apply (Z0 u _ ys (dims_in _ _ u DE2 Hu) Ly CY). apply H; auto. }
      rewrite <- EY, <- (change_dot n m Hm), Eb, dot_vscale_l in Q by auto. nia.
Qed.
Print Assumptions C67_facets.

(** The same for adjacency decomposition without maps: whatever the threads, the schedules and the known facets of the two runs, the inequalities printed correspond one to one, apart from 0 <= 1. *)
Theorem C67_adjacency : forall t1 t2 o1 o2 n m (V1 V2 : list vec) names1 names2 fuel1 fuel2 threads1 threads2 known1 known2 s1 s2 out1 out2, t1 <> INT16 -> t2 <> INT16 -> sort_order o1 -> sort_order o2 ->
  rows_representable t1 V1 -> rows_representable t2 V2 -> dims (S n) V1 -> dims (S n) V2 -> homogenised (S n) V1 -> homogenised (S n) V2 -> three_different_facets (S n) V1 ->
  are_facets t1 (S n) V1 known1 -> are_facets t2 (S n) V2 known2 -> (0 < threads1)%nat -> (0 < threads2)%nat ->
  maps_of_dimension n [m] -> PropertiesExpandSystem.onto n m ->
  (forall p : list Q, length p = n -> (hull n (points_of V1) (rays_of V1) p <-> hull n (points_of V2) (rays_of V2) (moved_by m p))) ->
  m_ad_run t1 o1 fuel1 threads1 V1 names1 [] known1 s1 out1 -> m_ad_run t2 o2 fuel2 threads2 V2 names2 [] known2 s2 out2 ->
  one_to_one_rows (same_slack n V1 m) (remove (list_eq_dec Z.eq_dec) (trivial_row (S n)) (printed (sh s1))) (remove (list_eq_dec Z.eq_dec) (trivial_row (S n)) (printed (sh s2))).
Proof.
  intros t1 t2 o1 o2 n m V1 V2 names1 names2 fuel1 fuel2 threads1 threads2 known1 known2 s1 s2 out1 out2 T1 T2 O1 O2 R1 R2 D1 D2 H1 H2 X1 K1 K2 N1 N2 Hm Ho HH Y1 Y2. assert (X2 := three_moved n m V1 V2 Hm Ho D1 D2 H1 H2 HH X1).
  destruct (homogenised_pos (S n) V1 D1 H1) as (A1 & A2 & A3). destruct (homogenised_pos (S n) V2 D2 H2) as (B1 & B2 & B3).
  destruct (exact_rows o1 (S n) V1 O1 D1 A3) as (F1 & E1). destruct (exact_rows o2 (S n) V2 O2 D2 B3) as (F2 & E2).
  destruct (C52_rows t1 o1 (S n) V1 F1 names1 fuel1 threads1 known1 s1 out1 T1 O1 R1 D1 H1 X1 K1 N1 E1 Y1) as (P1 & Q1 & S1 & _).
  destruct (C52_rows t2 o2 (S n) V2 F2 names2 fuel2 threads2 known2 s2 out2 T2 O2 R2 D2 H2 X2 K2 N2 E2 Y2) as (P2 & Q2 & S2 & _).
  assert (X : forall V, homogenised (S n) V -> exists v, In v V /\ nth (S n - 1) v 0 <> 0) by (intros V (_ & v & Hv & P); exists v; split; auto; lia).
  assert (G1 := facets_paired n m V1 V2 Hm Ho D1 D2 H1 H2 HH EXACT EXACT o1 o2 F1 F2 ltac:(discriminate) ltac:(discriminate) O1 O2 (representable_exact V1) (representable_exact V2) E1 E2).
  assert (G : one_to_one_rows (same_slack n V1 m) F1 F2).
  { apply (paired_map _ _ F1 F2) with (2 := G1). intros f g Hf Hg Hs.
    apply slack_on_hull; auto; [apply (rows_facets EXACT o1 (S n) V1 ltac:(discriminate) O1 (representable_exact V1) D1 F1 f A3 E1 Hf)|apply (rows_facets EXACT o2 (S n) V2 ltac:(discriminate) O2 (representable_exact V2) D2 F2 g B3 E2 Hg)]. }
  assert (RP : forall o V (F P : list vec) (known : list vec), sort_order o -> dims (S n) V -> homogenised (S n) V -> nonzero (S n) V -> m_fme (arith EXACT) o V = Ok F -> NoDup P -> (forall r, In r F -> In r P) -> (forall r, In r P -> In r F \/ (r = trivial_row (S n) /\ known = [])) ->
    Permutation F (remove (list_eq_dec Z.eq_dec) (trivial_row (S n)) P)).
  { intros o V F P known O D HV NZ E NP HF HP. assert (NT := trivial_dropped EXACT o (S n) V ltac:(discriminate) O (representable_exact V) D F (X V HV) E).
    apply NoDup_Permutation.
    - apply (rows_distinct EXACT o (S n) V ltac:(discriminate) O (representable_exact V) D F NZ E).
    - clear - NP. induction NP as [|r P Hr NP IH]; cbn [remove]; [constructor|]. destruct (list_eq_dec Z.eq_dec (trivial_row (S n)) r); auto. constructor; auto. intros K. apply in_remove in K as (K & _). auto.
    - intros r. split; intros Hr.
      + apply in_in_remove; auto. intros ->. apply NT. exact Hr.
      + apply in_remove in Hr as (Hr & Hn). destruct (HP r Hr) as [|(-> & _)]; auto. congruence. }
  assert (PM1 := RP o1 V1 F1 _ known1 O1 D1 H1 A3 E1 P1 Q1 S1). assert (PM2 := RP o2 V2 F2 _ known2 O2 D2 H2 B3 E2 P2 Q2 S2).
  destruct G as (L & PL & FL).
  destruct (Permutation_Forall2 PM2 (forall2_flip _ _ _ FL)) as (L' & PL' & FL'). exists L'. split; [|apply forall2_flip in FL'; exact FL'].
  apply (Permutation_trans (Permutation_sym PM1)). apply (Permutation_trans PL). exact PL'.
Qed.
Print Assumptions C67_adjacency.

(** ** Vertices *)
(** For two systems of inequalities whose solutions correspond under the change of coordinates (there are some, and they contain no line): the vertices printed for one system are the images of the
    vertices printed for the other, and the rays printed point in the directions that the images of the rays have. *)
Theorem C67_vertices : forall t1 t2 o1 o2 n m (A1 A2 F1 F2 : list vec), t1 <> INT16 -> t2 <> INT16 -> sort_order o1 -> sort_order o2 ->
  rows_representable t1 A1 -> rows_representable t2 A2 -> dims (S n) A1 -> dims (S n) A2 -> In (unit_vec (S n) n (-1)) A1 -> In (unit_vec (S n) n (-1)) A2 -> no_line (S n) A1 ->
  maps_of_dimension n [m] -> PropertiesExpandSystem.onto n m ->
  (exists p : list Q, length p = n /\ solves A1 p) -> (forall p : list Q, length p = n -> (solves A1 p <-> solves A2 (moved_by m p))) ->
  m_fme (arith t1) o1 A1 = Ok F1 -> m_fme (arith t2) o2 A2 = Ok F2 ->
  one_to_one_rows (same_corner n m) F1 F2.
Proof.
  intros t1 t2 o1 o2 n m A1 A2 F1 F2 T1 T2 O1 O2 R1 R2 D1 D2 U1 U2 L1 Hm Ho HE HS HF1 HF2.
  assert (SS := system_image n m A1 A2 Hm D1 D2 U1 U2 HE HS). assert (Lu := unit_vec_length (S n) n (-1)).
  assert (NZ : forall A : list vec, In (unit_vec (S n) n (-1)) A -> nonzero (S n) A).
  { intros A U. exists (unit_vec (S n) n (-1)). split; auto. intros E. assert (Q := f_equal (fun u => nth n u 0) E). cbn beta in Q. unfold unit_vec in Q. rewrite nth_upd, nth_vzero, vzero_length, Nat.eqb_refl in Q. destruct (Nat.ltb_spec n (S n)); [|lia]. cbn in Q. lia. }
  assert (N1 : forall x, length x = S n -> vanishes A1 x -> x = vzero (S n)) by (intros x Lx H; apply L1; auto; intros a Ha; rewrite dot_comm; apply H; auto).
  assert (VS : forall (A : list vec) x, length x = S n -> (vanishes A x <-> solution (S n) A x /\ solution (S n) A (vscale (-1) x))).
  { intros A x Lx. split.
    - intros H. split; split; rewrite ?vscale_length; auto; intros a Ha; rewrite ?dot_vscale_r, (dot_comm a), (H a Ha); lia.
    - intros ((_ & P) & (_ & Q)) a Ha. specialize (P a Ha). specialize (Q a Ha). rewrite dot_vscale_r in Q. rewrite dot_comm. lia. }
  assert (N2 : forall y, length y = S n -> vanishes A2 y -> y = vzero (S n)).
  { intros y Ly H. destruct (column_onto n m Hm Ho y Ly) as (x & k & Lx & Hk & E). apply VS in H as (P & Q); auto.
    assert (Zx : x = vzero (S n)).
    { apply N1; auto. apply VS; auto. split; apply SS; rewrite ?vscale_length; auto; rewrite ?sub_scale, E.
      - apply (solution_scaled n A2 k y); auto.
      - replace (vscale (-1) (vscale k y)) with (vscale k (vscale (-1) y)) by (apply (vec_ext_nth (S n)); rewrite ?vscale_length; auto; intros i Hi; rewrite !nth_vscale; ring). apply (solution_scaled n A2 k (vscale (-1) y)); auto. }
    apply (vec_ext_nth (S n)); auto; [apply vzero_length|]. intros i Hi. assert (Q2 := f_equal (fun u => nth i u 0) E). cbn beta in Q2. rewrite nth_vscale, Zx in Q2. rewrite <- (vscale_vzero 0 (S n)) in Q2. rewrite sub_scale, nth_vscale in Q2. rewrite nth_vzero. nia. }
  assert (UE : forall A : list vec, In (unit_vec (S n) n (-1)) A -> In (unit_vec (S n) (S n - 1) (-1)) A) by (intros A U; replace (S n - 1)%nat with n by lia; exact U).
  destruct (rows_distinct t1 o1 (S n) A1 T1 O1 R1 D1 F1 (NZ A1 U1) HF1) as (M1 & Q1). destruct (rows_distinct t2 o2 (S n) A2 T2 O2 R2 D2 F2 (NZ A2 U2) HF2) as (M2 & Q2).
  assert (G1 : forall f, In f F1 -> facet (S n) A1 f) by (intros f Hf; apply (rows_facets t1 o1 (S n) A1 T1 O1 R1 D1 F1 f (NZ A1 U1) HF1 Hf)).
  assert (G2 : forall f, In f F2 -> facet (S n) A2 f) by (intros f Hf; apply (rows_facets t2 o2 (S n) A2 T2 O2 R2 D2 F2 f (NZ A2 U2) HF2 Hf)).
  assert (W1 : forall f, In f F1 -> extreme_ray (S n) A1 f) by (intros f Hf; apply facet_extreme; auto).
  assert (W2 : forall f, In f F2 -> extreme_ray (S n) A2 f) by (intros f Hf; apply facet_extreme; auto).
  apply (paired_map (fun f g => exists a b, 0 < a /\ 0 < b /\ vscale a g = vscale b (substitute m f))).
  - intros x y Hx Hy (a & b & Ha & Hb & E). assert (Lx := proj1 (G1 x Hx)). assert (Ly := proj1 (G2 y Hy)).
    assert (Px : 0 <= nth n x 0).
    { assert (K := proj2 (proj1 (W1 x Hx)) _ U1). rewrite unit_dot in K by (auto; lia). lia. }
    assert (CK := corner_kind n m x y a b Hm Lx Ly Ha Hb Px E). destruct (is_point x) eqn:X.
    + left. split; auto. split; auto. apply (corner_point n m x y a b); auto.
    + right. split; auto. split; auto. apply (corner_ray n m x y a b); auto.
  - apply paired_from; auto.
    + intros y Hy. assert (Wy := W2 y Hy). assert (Ly := proj1 (G2 y Hy)). destruct (column_onto n m Hm Ho y Ly) as (x & k & Lx & Hk & E).
      apply (extreme_scaled n A2 k y Hk) in Wy. rewrite <- E in Wy. apply (extreme_change n m Hm Ho A1 A2 SS x Lx) in Wy.
      destruct (extreme_found t1 o1 (S n) A1 T1 O1 R1 D1 F1 x N1 (UE A1 U1) ltac:(lia) HF1 Wy) as (f & c & s & Hf & Hc & Hs & Ef).
      exists f. split; auto. exists (c * k), s. split; [nia|]. split; auto. rewrite <- sub_scale, <- Ef, sub_scale, E. apply (vec_ext_nth (S n)); rewrite ?vscale_length; auto. intros i Hi. rewrite !nth_vscale. ring.
    + intros x Hx. assert (Wx := W1 x Hx). apply (extreme_change n m Hm Ho A1 A2 SS x (proj1 (G1 x Hx))) in Wx.
      destruct (extreme_found t2 o2 (S n) A2 T2 O2 R2 D2 F2 _ N2 (UE A2 U2) ltac:(lia) HF2 Wx) as (f & c & s & Hf & Hc & Hs & Ef). exists f. split; auto. exists s, c. auto.
    + intros x x' y Hx Hx' Hy (a & b & Ha & Hb & E) (a' & b' & Ha' & Hb' & E'). assert (Lx := proj1 (G1 x Hx)). assert (Lx' := proj1 (G1 x' Hx')). apply Q1; auto. apply sim_equiv; [congruence|].
      exists (a' * b), (a * b'). split; [nia|]. split; [nia|]. assert (K : vscale (a' * b) x = vscale (a * b') x').
      { apply (sub_cancel n m Hm Ho); rewrite ?vscale_length; auto. rewrite !sub_scale. apply (vec_ext_nth (S n)); rewrite ?vscale_length; try apply (change_length n m Hm). intros i Hi.
        assert (X := f_equal (fun u => nth i u 0) E). assert (X' := f_equal (fun u => nth i u 0) E'). cbn beta in X, X'. rewrite !nth_vscale in *. transitivity (a' * (b * nth i (substitute m x) 0)); [ring|]. rewrite <- X. transitivity (a * (b' * nth i (substitute m x') 0)); [|ring]. rewrite <- X'. ring. }
      intros v _. rewrite <- !dot_vscale_l, K. reflexivity.
    + intros x y y' Hx Hy Hy' (a & b & Ha & Hb & E) (a' & b' & Ha' & Hb' & E'). assert (Ly := proj1 (G2 y Hy)). assert (Ly' := proj1 (G2 y' Hy')). apply Q2; auto. apply sim_equiv; [congruence|].
      exists (a * b'), (a' * b). split; [nia|]. split; [nia|]. intros v _. assert (X := f_equal (fun u => dot u v) E). assert (X' := f_equal (fun u => dot u v) E'). cbn beta in X, X'. rewrite !dot_vscale_l in *.
      transitivity (b' * (a * dot y v)); [ring|]. rewrite X. transitivity (b * (a' * dot y' v)); [|ring]. rewrite X'. ring.
Qed.
Print Assumptions C67_vertices.

(** ** Images of rows *)
Lemma hull_of_images n m (V : list vec) : maps_of_dimension n [m] -> PropertiesExpandSystem.onto n m -> dims (S n) V -> homogenised (S n) V ->
  dims (S n) (map (substitute m) V) /\ homogenised (S n) (map (substitute m) V) /\
  forall p : list Q, length p = n -> (hull n (points_of V) (rays_of V) p <-> hull n (points_of (map (substitute m) V)) (rays_of (map (substitute m) V)) (moved_by m p)).
Proof.
  intros Hm Ho D H. assert (Mi : map_in (S n) m) by (apply Hm; left; reflexivity). assert (DW := image_dims n m Hm V).
  assert (HW : homogenised (S n) (map (substitute m) V)).
  { destruct H as (A & v & Hv & P). replace (S n - 1)%nat with n in * by lia. split; replace (S n - 1)%nat with n by lia.
    - intros w Hw. apply in_map_iff in Hw as (u & <- & Hu). rewrite (change_last n m Hm). auto.
    - exists (substitute m v). split; [apply in_map; auto|]. rewrite (change_last n m Hm). auto. }
  split; auto. split; auto. intros p Lp. destruct (clear_point p) as (l & xs & Hl & CX). assert (Lx : length xs = n) by (rewrite <- (forall2_length _ _ _ CX); auto).
  destruct (moved_substitute n [m] Hm m p xs l (or_introl eq_refl) Lx CX) as (ys & EY & Ly & CY). assert (LX : length (xs ++ [l]) = S n) by (rewrite app_length; cbn; lia). assert (LY : length (ys ++ [l]) = S n) by (rewrite app_length; cbn; lia).
  rewrite (hull_in_cone n V xs l p (homogenised_rows n V D H) Lx Hl CX), (hull_in_cone n _ ys l _ (homogenised_rows n _ DW HW) Ly Hl CY). split; intros K; apply farkas; auto.
  - intros a La Va. rewrite <- EY, <- (change_dot n m Hm) by auto. apply (in_cone_valid (S n) V); auto. apply (pull_valid (S n) m Mi V (map (substitute m) V) D (image_onto m V)); auto.
  - intros a La Va. destruct (change_onto n m Hm Ho a La) as (b & k & Lb & Hk & E).
    assert (Vb : valid (map (substitute m) V) b) by (apply (pull_valid (S n) m Mi V (map (substitute m) V) D (image_onto m V)); auto; rewrite E; intros v Hv; rewrite dot_vscale_l; assert (Q := Va v Hv); nia).
    assert (Q := in_cone_valid (S n) _ b _ DW Vb K). rewrite <- EY, <- (change_dot n m Hm), E, dot_vscale_l in Q by auto. nia.
Qed.
(** In particular if the second list consists of the images of the rows of the first one. *)
Theorem C67_images : forall t1 t2 o1 o2 n m (V E1 E2 F1 F2 : list vec), t1 <> INT16 -> t2 <> INT16 -> sort_order o1 -> sort_order o2 ->
  rows_representable t1 V -> rows_representable t2 (map (substitute m) V) -> dims (S n) V -> homogenised (S n) V -> maps_of_dimension n [m] -> PropertiesExpandSystem.onto n m ->
  m_extract_equations (arith t1) V = Ok E1 -> m_extract_equations (arith t2) (map (substitute m) V) = Ok E2 -> m_fme (arith t1) o1 V = Ok F1 -> m_fme (arith t2) o2 (map (substitute m) V) = Ok F2 ->
  one_to_one_rows (same_slack n V m) F1 F2 /\ forall p : list Q, length p = n -> (on_all E1 p <-> on_all E2 (moved_by m p)).
Proof.
  intros t1 t2 o1 o2 n m V E1 E2 F1 F2 T1 T2 O1 O2 R1 R2 D H Hm Ho HE1 HE2 HF1 HF2. destruct (hull_of_images n m V Hm Ho D H) as (DW & HW & HH).
  apply (C67_facets t1 t2 o1 o2 n m V (map (substitute m) V)); auto.
Qed.
Print Assumptions C67_images.

(** ** Examples *)
(** u = 2x + y + 1, v = y: a triangle and its image.  Integer coordinates go to integer coordinates, but not conversely. *)
Definition shear : lmap := [[(0%nat, 2); (1%nat, 1); (2%nat, 1)]; [(1%nat, 1)]; [(2%nat, 1)]].
Lemma shear_fits : maps_of_dimension 2 [shear] /\ PropertiesExpandSystem.onto 2 shear.
Proof.
  split.
  - intros m [<-|[]]. split; [split; [reflexivity|repeat constructor]|reflexivity].
  - intros [|x [|y [|? ?]]] L; try discriminate L. exists [((x - y - 1) / 2)%Q; y]. split; auto. repeat constructor; cbn; unfold inject_Z; field.
Qed.
Lemma small_rows (l : list vec) : forallb (fun r => (length r =? 3)%nat && forallb (fun z => (-9 <=? z) && (z <=? 9)) r) l = true -> dims 3 l /\ rows_representable INT32 l.
Proof.
  intros H. split; apply Forall_forall; intros r Hr; rewrite forallb_forall in H; specialize (H r Hr); apply andb_true_iff in H as [H1 H2]; [apply Nat.eqb_eq; auto|].
  apply Forall_forall. intros z Hz. rewrite forallb_forall in H2. specialize (H2 z Hz). apply int_representable; [discriminate|]. apply small_int. lia.
Qed.
Definition triangle : list vec := [[0; 0; 1]; [1; 0; 1]; [0; 1; 1]].
(** The facets found are x >= 0, y >= 0, x + y <= 1 for the triangle, and v + 1 <= u, v >= 0, u + v <= 3 for its image. *)
Example C67_images_example : exists F1 F2,
  m_fme (arith INT32) sorted_order triangle = Ok F1 /\ m_fme (arith INT32) sorted_order [[1; 0; 1]; [3; 0; 1]; [2; 1; 1]] = Ok F2 /\ one_to_one_rows (same_slack 2 triangle shear) F1 F2 /\
  (forall f, In f F1 <-> In f [[-1; 0; 0]; [0; -1; 0]; [1; 1; -1]]) /\ (forall f, In f F2 <-> In f [[-1; 1; 1]; [0; -1; 0]; [1; 1; -3]]).
Proof.
  assert (K1 : exists F1, m_fme (arith INT32) sorted_order triangle = Ok F1 /\ forall f, In f F1 <-> In f [[-1; 0; 0]; [0; -1; 0]; [1; 1; -1]]) by (eexists; split; [vm_compute; reflexivity|]; intros f; cbn; tauto).
  assert (K2 : exists F2, m_fme (arith INT32) sorted_order (map (substitute shear) triangle) = Ok F2 /\ forall f, In f F2 <-> In f [[-1; 1; 1]; [0; -1; 0]; [1; 1; -3]]) by (eexists; split; [vm_compute; reflexivity|]; intros f; cbn; tauto).
  destruct K1 as (F1 & HF1 & I1). destruct K2 as (F2 & HF2 & I2). exists F1, F2. split; auto. split; auto. split; auto.
  destruct (small_rows triangle eq_refl) as (D1 & R1). destruct (small_rows (map (substitute shear) triangle) eq_refl) as (D2 & R2).
  apply (C67_images INT32 INT32 sorted_order sorted_order 2 shear triangle [] [] F1 F2); auto; try discriminate; try apply sorted_order_ok; try apply shear_fits.
  split; [intros v [<-|[<-|[<-|[]]]]; cbn; lia|exists [0; 0; 1]; split; [left; reflexivity|cbn; lia]].
Qed.
(** The inequalities x >= 0, y >= 0, and those of the image of this quadrant: v + 1 <= u, v >= 0; the vertex (0, 0) becomes (1, 0), and the rays (1, 0) and (0, 1) become (1, 0) and (1, 1). *)
Definition quadrant1 : list vec := [[-1; 0; 0]; [0; -1; 0]; [0; 0; -1]].
Definition quadrant2 : list vec := [[-1; 1; 1]; [0; -1; 0]; [0; 0; -1]].
Example C67_vertices_example : exists F1 F2,
  m_fme (arith INT32) sorted_order quadrant1 = Ok F1 /\ m_fme (arith INT32) sorted_order quadrant2 = Ok F2 /\ one_to_one_rows (same_corner 2 shear) F1 F2 /\
  (forall f, In f F1 <-> In f [[0; 0; 1]; [1; 0; 0]; [0; 1; 0]]) /\ (forall f, In f F2 <-> In f [[1; 0; 1]; [1; 0; 0]; [1; 1; 0]]).
Proof.
  assert (K1 : exists F1, m_fme (arith INT32) sorted_order quadrant1 = Ok F1 /\ forall f, In f F1 <-> In f [[0; 0; 1]; [1; 0; 0]; [0; 1; 0]]) by (eexists; split; [vm_compute; reflexivity|]; intros f; cbn; tauto).
  assert (K2 : exists F2, m_fme (arith INT32) sorted_order quadrant2 = Ok F2 /\ forall f, In f F2 <-> In f [[1; 0; 1]; [1; 0; 0]; [1; 1; 0]]) by (eexists; split; [vm_compute; reflexivity|]; intros f; cbn; tauto).
  destruct K1 as (F1 & HF1 & I1). destruct K2 as (F2 & HF2 & I2). exists F1, F2. split; auto. split; auto. split; auto.
  destruct (small_rows quadrant1 eq_refl) as (D1 & R1). destruct (small_rows quadrant2 eq_refl) as (D2 & R2).
  apply (C67_vertices INT32 INT32 sorted_order sorted_order 2 shear quadrant1 quadrant2 F1 F2); auto; try discriminate; try apply sorted_order_ok; try apply shear_fits; try (right; right; left; reflexivity).
  - intros [|x [|y [|z [|? ?]]]] L H; try discriminate L. assert (A := H _ (or_introl eq_refl)). assert (B := H _ (or_intror (or_introl eq_refl))). assert (C := H _ (or_intror (or_intror (or_introl eq_refl)))).
    cbn [dot] in A, B, C. assert (x = 0) by lia. assert (y = 0) by lia. assert (z = 0) by lia. subst. reflexivity.
  - exists [0%Q; 0%Q]. split; auto. intros a [<-|[<-|[<-|[]]]]; vm_compute; discriminate.
  - intros [|x [|y [|? ?]]] L; try discriminate L. split; intros H; assert (A := H _ (or_introl eq_refl)); assert (B := H _ (or_intror (or_introl eq_refl))); cbn in A, B; unfold inject_Z in A, B;
      intros a [<-|[<-|[<-|[]]]]; cbn; unfold inject_Z; lra.
Qed.
Lemma triangle_facets_of (F : list vec) : m_fme (arith INT32) sorted_order triangle = Ok F -> (forall f, In f F -> In f [[-1; 0; 0]; [0; -1; 0]; [1; 1; -1]]) -> three_different_facets 3 triangle.
Proof.
  intros E _. assert (E' : F = [[-1; 0; 0]; [0; -1; 0]; [1; 1; -1]]) by (assert (Q : m_fme (arith INT32) sorted_order triangle = Ok [[-1; 0; 0]; [0; -1; 0]; [1; 1; -1]]) by (vm_compute; reflexivity); rewrite Q in E; inversion E; reflexivity).
  destruct (small_rows triangle eq_refl) as (D1 & R1). assert (NZ : nonzero 3 triangle) by (exists [0; 0; 1]; split; [left; reflexivity|discriminate]).
  destruct (rows_distinct INT32 sorted_order 3 triangle ltac:(discriminate) sorted_order_ok R1 D1 F NZ E) as (_ & U). assert (G : forall f, In f F -> facet 3 triangle f) by (intros f Hf; apply (rows_facets INT32 sorted_order 3 triangle ltac:(discriminate) sorted_order_ok R1 D1 F f NZ E Hf)).
  subst F. exists [-1; 0; 0], [0; -1; 0], [1; 1; -1]. split; [apply G; cbn; auto|]. split; [apply G; cbn; auto|]. split; [apply G; cbn; auto|].
  split; [|split]; intros K; apply U in K; try discriminate K; cbn; auto.
Qed.
(** Runs of adjacency decomposition for the triangle and for its image, printing these inequalities. *)
Definition ended (rows : list vec) : state := State (Jobs 1 (rows ++ [[]]) [[]] rows rows) None [Stopped] [].
Example C67_adjacency_example :
  let F1 := [[-1; 0; 0]; [0; -1; 0]; [1; 1; -1]] in let F2 := [[1; 1; -3]; [0; -1; 0]; [-1; 1; 1]] in
  m_ad_run INT32 sorted_order 100 1 triangle [lit "x"; lit "y"] [] [] (ended F1) (lit "Inequalities:" ++ newline :: lit "-x <= 0" ++ newline :: lit "-y <= 0" ++ newline :: lit "x +y <= 1" ++ [newline]) /\
  m_ad_run INT32 sorted_order 100 1 (map (substitute shear) triangle) [lit "u"; lit "v"] [] [] (ended F2) (lit "Inequalities:" ++ newline :: lit "u +v <= 3" ++ newline :: lit "-v <= 0" ++ newline :: lit "-u +v <= -1" ++ [newline]) /\
  one_to_one_rows (same_slack 2 triangle shear) F1 F2.
Proof.
  intros F1 F2.
  assert (K1 : m_ad_run INT32 sorted_order 100 1 triangle [lit "x"; lit "y"] [] [] (ended F1) (lit "Inequalities:" ++ newline :: lit "-x <= 0" ++ newline :: lit "-y <= 0" ++ newline :: lit "x +y <= 1" ++ [newline])).
  { assert (R : exists ls, ListModel.run (m_ad_neighbours INT32 sorted_order 100 triangle []) (initial F1 [] 1 0) ls (ended F1)) by (apply (exec_all_ok _ (repeat CMain 4 ++ repeat (CThread 0) 23)); vm_compute; reflexivity).
    destruct R as (ls & R). exists [], [], F1, [], ls, [], (lit "-x <= 0" ++ newline :: lit "-y <= 0" ++ newline :: lit "x +y <= 1" ++ [newline]).
    split; [vm_compute; reflexivity|]. split; [vm_compute; reflexivity|]. split; [exists 0%nat; split; [reflexivity|left; cbn; auto]|]. split; [exact R|]. split; [split; [reflexivity|split; [reflexivity|]]; cbn; intuition|].
    split; [|split; [reflexivity|split; [vm_compute; reflexivity|reflexivity]]].
    intros r [<-|[<-|[<-|[]]]]; unfold m_ad_processed; eexists; vm_compute; reflexivity. }
  assert (K2 : m_ad_run INT32 sorted_order 100 1 (map (substitute shear) triangle) [lit "u"; lit "v"] [] [] (ended F2) (lit "Inequalities:" ++ newline :: lit "u +v <= 3" ++ newline :: lit "-v <= 0" ++ newline :: lit "-u +v <= -1" ++ [newline])).
  { assert (R : exists ls, ListModel.run (m_ad_neighbours INT32 sorted_order 100 (map (substitute shear) triangle) []) (initial F2 [] 1 0) ls (ended F2)) by (apply (exec_all_ok _ (repeat CMain 4 ++ repeat (CThread 0) 23)); vm_compute; reflexivity).
    destruct R as (ls & R). exists [], [], F2, [], ls, [], (lit "u +v <= 3" ++ newline :: lit "-v <= 0" ++ newline :: lit "-u +v <= -1" ++ [newline]).
    split; [vm_compute; reflexivity|]. split; [vm_compute; reflexivity|]. split; [exists 0%nat; split; [reflexivity|left; cbn; auto]|]. split; [exact R|]. split; [split; [reflexivity|split; [reflexivity|]]; cbn; intuition|].
    split; [|split; [reflexivity|split; [vm_compute; reflexivity|reflexivity]]].
    intros r [<-|[<-|[<-|[]]]]; unfold m_ad_processed; eexists; vm_compute; reflexivity. }
  split; auto. split; auto.
  destruct (small_rows triangle eq_refl) as (D1 & R1). destruct (small_rows (map (substitute shear) triangle) eq_refl) as (D2 & R2). destruct shear_fits as (M1 & M2).
  assert (H1 : homogenised 3 triangle) by (split; [intros v [<-|[<-|[<-|[]]]]; cbn; lia|exists [0; 0; 1]; split; [left; reflexivity|cbn; lia]]).
  destruct (hull_of_images 2 shear triangle M1 M2 D1 H1) as (_ & H2 & HH).
  assert (T : three_different_facets 3 triangle).
  { apply (triangle_facets_of F1); [|intros f Hf; exact Hf]. vm_compute. reflexivity. }
  assert (G := C67_adjacency INT32 INT32 sorted_order sorted_order 2 shear triangle (map (substitute shear) triangle) [lit "x"; lit "y"] [lit "u"; lit "v"] 100 100 1 1 [] [] (ended F1) (ended F2) _ _
    ltac:(discriminate) ltac:(discriminate) sorted_order_ok sorted_order_ok R1 R2 D1 D2 H1 H2 T ltac:(intros r []) ltac:(intros r []) ltac:(lia) ltac:(lia) M1 M2 HH K1 K2).
  exact G.
Qed.
