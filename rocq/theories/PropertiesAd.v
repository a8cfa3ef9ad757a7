(** * PropertiesAd: facet enumeration by adjacency decomposition, from rows to text (C52). *)
From Coq Require Import List ZArith QArith Arith Bool Ascii String Lia Lqa Permutation.
From Verif Require Import Base Spec LinAlg Cone ListUtil ArithModel MatrixModel FmeModel SafeIntModel IntTypes RowLcm StreamModel StreamProofs InputModel InputProofs ClassesModel
  ConstraintModel ConstraintInput ConstraintSection PropertiesVertices PropertiesConstraints OutputModel OutputProofs PropertiesOutput Hull Corners FmeCore FmePure FmePrepare FmeCorrect FmeRefine FmeTheorems DimTheorems NormTheorems
  Samples ClassesProofs ApplyTheorems OrbitTheorems OrbitExact PropertiesMaps PropertiesFme MapModel PropertiesProgram PropertiesRotation PropertiesValidity
  NormalForm Symmetry RotationModel ListModel ListExec AdModel AdTheorems AdRun Adjacency MapNormalize PropertiesNormalize.
Import ListNotations.
Open Scope Z_scope.
Open Scope list_scope.

(** [m_ad_run t order fuel threads V names maps known s out]: adjacency decomposition with [threads] worker threads, for the vertices [V], the variables [names], the maps [maps]
    and the known facets [known] ends in the state [s] of its list and has printed [out].  [printed (sh s)] are the rows of the inequalities in the order in which they were
    printed.  [order] is the order chosen by the elimination. *)

(** ** Specification *)
(** The row of the inequality 0 <= 1. *)
Notation trivial_row n := (unit_vec n (n - 1) (-1)).
(** The known facets are facets, none of them is 0 <= 1. *)
Definition are_facets (t : int_type) (n : nat) (V known : list vec) : Prop :=
  forall r, In r known -> facet n V r /\ ~ equivalent_ineq V r (trivial_row n) /\ Forall (representable t) r.
(** A line may be indented. *)
Inductive line_denotes (names : list text) (n : nat) (type : constraint_type) : text -> constraint -> Prop :=
| indented u line c : blanks u -> denotes names n type line c -> line_denotes names n type (u ++ line) c.
(** No equation holds for all vertices and rays. *)
Definition full_dimensional (n : nat) (V : list vec) : Prop := forall a, length a = n -> (forall v, In v V -> dot a v = 0) -> a = vzero n.
(** Affine maps that permute the vertices and the rays (rows that are positive multiples of each other are the same point). *)
Definition symmetries (n : nat) (V : list vec) (maps : list lmap) : Prop := forall m, In m maps ->
  map_in (S n) m /\ nth n m [] = [(n, 1)] /\ permutes (fun v w => exists j k, 0 < j /\ 0 < k /\ vscale j (substitute m v) = vscale k w) V.
(** The maps carry the inequality [f] to the inequality [g]: on the vertices and rays [g] agrees, up to a positive factor, with [f] after some of the maps. *)
Definition carried (V : list vec) (maps : list lmap) (f g : vec) : Prop := exists (ms : list lmap) k l, incl ms maps /\ 0 < k /\ 0 < l /\
  forall v, In v V -> k * dot g v = l * dot f (fold_left (fun y m => substitute m y) ms v).
(** The equations can be solved for their leading coordinates with leading coefficient 1, and if there are any the type is not int64_t (see C28 for what happens otherwise). *)
Definition equations_allow (t : int_type) (n : nat) (E : list vec) (maps : list lmap) : Prop :=
  solved_equations (S n) E /\ (E = [] \/ (t <> INT64 /\ Forall (in_memory (S n)) maps)).
(** The image of a point under a map, and the points reached from a point by applying the maps again and again. *)
Definition moved_by (m : lmap) (p : list Q) : list Q :=
  map (fun im : image => fold_right (fun tm s => inject_Z (snd tm) * nth (fst tm) (p ++ [1%Q]) 0 + s)%Q 0%Q im) (removelast m).
Inductive moved (maps : list lmap) : list Q -> list Q -> Prop :=
| moved_none p : moved maps p p
| moved_first m p q : In m maps -> moved maps (moved_by m p) q -> moved maps p q.

(** ** Lines *)
Lemma trivial_split n : trivial_row (S n) = vzero n ++ [-1].
Proof.
  apply (vec_ext_nth (S n)); [apply unit_vec_length|rewrite app_length, vzero_length; cbn; lia|]. intros j Hj. unfold unit_vec. rewrite nth_upd, nth_vzero, vzero_length. replace (S n - 1)%nat with n by lia.
  destruct (Nat.eqb_spec j n) as [->|].
  - destruct (Nat.ltb_spec n (S n)); [|lia]. rewrite app_nth2 by (rewrite vzero_length; lia). rewrite vzero_length, Nat.sub_diag. reflexivity.
  - cbn [andb]. rewrite app_nth1 by (rewrite vzero_length; lia). rewrite nth_vzero. reflexivity.
Qed.
Lemma trivial_terms names n : forall i, m_pretty_terms names i false (vzero n ++ [-1]) = Ok [].
Proof.
  induction n as [|n IH]; intros i; [reflexivity|]. change (vzero (S n) ++ [-1]) with (0 :: (vzero n ++ [-1])). cbn [m_pretty_terms].
  destruct (vzero n ++ [-1]) as [|z l] eqn:E; [destruct n; discriminate E|]. change (0 =? 0) with true. cbn [negb]. apply IH.
Qed.
Lemma trivial_line names n type : names <> [] -> length names = n -> type = Inequality ->
  exists line c, m_pretty (trivial_row (S n)) names (relation_sign type) = Ok line /\ line_denotes names n type line c /\ same_solutions type n (terms c) (operator c) (constant c) (trivial_row (S n)).
Proof.
  intros Hne Hl ->. rewrite trivial_split. exists (lit " " ++ lit "<=" ++ lit " " ++ OutputModel.int_text 1), {| terms := []; operator := LessEqual; constant := 1 |}. split; [|split].
  - unfold m_pretty. destruct names as [|n0 names']; [congruence|]. rewrite trivial_terms. cbn [bind]. unfold m_rhs. rewrite (back_last (vzero n) (-1)). reflexivity.
  - apply (indented names n Inequality (lit " ")); [repeat constructor|]. apply denotes_named; auto.
    apply (named_line names [] [] (lit "<=" ++ lit " ") LessEqual (lit "1") 1 []); [constructor|apply relation_le; repeat constructor| |ranges|ranges|constructor].
    apply (integer_plain (lit "1")); [discriminate|repeat constructor].
  - cbn [terms operator constant]. split; [rewrite app_length, vzero_length; cbn; lia|]. intros x Hx. cbn [row_holds holds linear_form fold_right].
    assert (E : (affine (vzero n ++ [(-1)%Z]) x == -(1))%Q).
    { clear - Hx. revert n Hx. induction x as [|q x IH]; intros n Hx; subst n; cbn [length vzero repeat app affine]; [ring|]. rewrite (IH (length x) eq_refl). change (inject_Z 0) with 0%Q. ring. }
    rewrite E. change (inject_Z 1) with 1%Q. split; intros _; discriminate.
Qed.
Lemma ad_matrix t names n (rows : list vec) : good_names names -> (names = [] \/ length names = n) -> dims (S n) rows -> (forall r, In r rows -> printable names r \/ r = trivial_row (S n)) ->
  exists lines P, m_pretty_matrix t names "<=" rows = say lines /\ written (line_denotes names n Inequality) lines P /\ represents_all Inequality n P rows.
Proof.
  intros Hn Hnn Hdim. unfold m_pretty_matrix. induction Hdim as [|row rows Hrow Hdim IH]; intros Hp; [exists [], []; split; [reflexivity|split; constructor]|].
  destruct IH as (lines & P & E & W & R); [intros r Hr; apply Hp; right; auto|].
  assert (L : negatable_row row /\ exists line c, m_pretty row names "<=" = Ok line /\ line_denotes names n Inequality line c /\ same_solutions Inequality n (terms c) (operator c) (constant c) row).
  { assert (HPr : printable names row -> negatable_row row /\ exists line c, m_pretty row names "<=" = Ok line /\ line_denotes names n Inequality line c /\ same_solutions Inequality n (terms c) (operator c) (constant c) row).
    { intros HPr. split; [destruct HPr as (zs & b & _ & HN & _); auto|]. destruct (printed_denotes Inequality names n row Hn HPr Hrow Hnn) as (line & c & EL & D & S).
      exists line, c. split; [exact EL|]. split; auto. apply (indented names n Inequality [] line c); [constructor|auto]. }
    destruct (Hp row (or_introl eq_refl)) as [H|H]; [auto|]. assert (NR : negatable_row row).
    { rewrite H, trivial_split. apply Forall_app. split; [|repeat constructor; lia]. apply Forall_forall. intros z Hz. apply repeat_spec in Hz. lia. }
    destruct names as [|n0 names'].
    - apply HPr. exists (vzero n), (-1). rewrite <- trivial_split. split; auto. split; auto. congruence.
    - split; auto. rewrite H. destruct Hnn as [Hnn|Hnn]; [discriminate|]. apply (trivial_line (n0 :: names') n Inequality); auto. discriminate. }
  destruct L as (NR & line & c & EL & D & S). exists (line ++ newline :: lines), (c :: P). split; [|split].
  - cbn [for_all]. rewrite E. unfold m_pretty_line. rewrite (C40_conversion t row) by (apply negatable_int; auto). cbn [calc]. rewrite EL.
    cbn [calc say andthen fst snd]. unfold end_line. rewrite <- app_assoc. reflexivity.
  - apply written_line; auto.
  - constructor; auto.
Qed.

Lemma equations_text t names n (E : list vec) head : good_names names -> (names = [] \/ length names = n) -> dims (S n) E -> Forall (printable names) E -> m_ad_equations t names E = say head ->
  exists equations Pe, head = (if match Pe with [] => true | _ => false end then [] else lit "Equations:" ++ newline :: equations ++ [newline]) /\
    written (denotes names n Equation) equations Pe /\ represents_all Equation n Pe E.
Proof.
  intros HN HNl DE PE EH. destruct (matrix_denotes t Equation names n E HN PE DE HNl) as (equations & Pe & E1 & W1 & R1). exists equations, Pe. split; [|auto].
  unfold m_ad_equations in EH. destruct R1 as [|c0 e0 Pe' E' S R]; [inversion EH; reflexivity|]. unfold relation_sign in E1. rewrite E1 in EH. cbn [say andthen fst snd] in EH. unfold say, end_line in EH. inversion EH. reflexivity.
Qed.

(** ** Without maps *)
(** The rows printed are those of double description, each once, whatever the schedule; 0 <= 1 may be printed as well, but not if facets are known. *)
Theorem C52_rows : forall t order n (V : list vec) (F : list vec) names fuel threads known s out,
  t <> INT16 -> sort_order order -> rows_representable t V -> dims n V -> homogenised n V -> three_different_facets n V -> are_facets t n V known -> (0 < threads)%nat ->
  m_fme (arith EXACT) order V = Ok F -> m_ad_run t order fuel threads V names [] known s out ->
  NoDup (printed (sh s)) /\ (forall r, In r F -> In r (printed (sh s))) /\ (forall r, In r (printed (sh s)) -> In r F \/ (r = trivial_row n /\ known = [])) /\
  handed (sh s) = printed (sh s).
Proof.
  intros t order n V F names fuel threads known s out Ht Ho HR HV Hh (a & b & c & Fa & Fb & Fc & Dab & Dac & Dbc) Hk Hth HF (E & reduced & start & added & ls & head & lines & H1 & H2 & H3 & H4 & H5 & H6 & _).
  destruct (homogenised_pos n V HV Hh) as (_ & _ & Hnz). rewrite (result_fme EXACT order n V ltac:(discriminate) Ho (representable_exact V) HV F Hnz HF).
  assert (HE : m_extract_equations (arith t) V = Ok E /\ reduced = []).
  { unfold m_ad_reduce in H1. destruct (m_extract_equations (arith t) V) as [E'| |]; cbn [bind] in H1; try discriminate. destruct E' as [|e0 E']; [inversion H1; auto|]. cbn [m_normalize_maps mapM bind] in H1. inversion H1; auto. }
  destruct HE as (HE & ->).
  destruct (run_result t order n V E [] fuel Ht Ho HR HV Hh HE (acting_none n V) a b c Fa Fb Fc Dab Dac Dbc known start added threads ls s Hk Hth H2 H3 H4 H5 H6) as (R1 & R2 & _ & R3 & R4 & R5).
  split; auto. split; [|split; auto].
  - intros r Hr. destruct (R3 r Hr) as (x & Hx & Lx & _). apply orbit_none in Lx. subst x. auto.
  - intros r Hr. destruct (R4 r Hr) as ([|E0] & _); auto. right. split; auto. destruct known as [|k0 known]; auto. exfalso. apply R5; [discriminate|]. rewrite <- E0. auto.
Qed.
Print Assumptions C52_rows.

(** The text printed describes exactly the convex hull of the vertices plus the cone of the rays. *)
Theorem C52_facets : forall t order n (V E F : list vec) names fuel threads known s out,
  t <> INT16 -> sort_order order -> rows_representable t V -> dims (S n) V -> homogenised (S n) V -> three_different_facets (S n) V -> are_facets t (S n) V known -> (0 < threads)%nat ->
  good_names names -> (names = [] \/ length names = n) ->
  m_extract_equations (arith EXACT) V = Ok E -> m_fme (arith EXACT) order V = Ok F -> Forall negatable_row E -> Forall negatable_row F ->
  m_ad_run t order fuel threads V names [] known s out ->
  exists equations Pe inequalities Pf,
    out = facet_text equations inequalities (match Pe with [] => true | _ => false end) false /\
    written (denotes names n Equation) equations Pe /\ written (line_denotes names n Inequality) inequalities Pf /\ length Pf = length (printed (sh s)) /\
    forall p : list Q, length p = n ->
      (hull n (points_of V) (rays_of V) p <-> forall c, In c (Pe ++ Pf) -> satisfies c p).
Proof.
  intros t order n V E F names fuel threads known s out Ht Ho HR HV HH H3 Hk Hth HN HNl HE HF BE BF Hrun.
  destruct (C52_rows t order (S n) V F names fuel threads known s out Ht Ho HR HV HH H3 Hk Hth HF Hrun) as (R1 & R2 & R3 & _).
  destruct Hrun as (E' & reduced & start & added & ls & head & lines & K1 & _ & _ & _ & _ & _ & K2 & K3 & ->).
  assert (Hx : EXACT <> INT16) by discriminate. assert (HRx := representable_exact V).
  assert (HE' : E' = E /\ reduced = []).
  { destruct (homogenised_pos (S n) V HV HH) as (Hn & Hl & _). rewrite (result_equations EXACT (S n) V Hx HRx HV E Hl Hn HE). unfold m_ad_reduce in K1. destruct (m_extract_equations (arith t) V) as [E0| |] eqn:EE; cbn [bind] in K1; try discriminate.
    rewrite <- (result_equations t (S n) V Ht HR HV E0 Hl Hn EE). destruct E0 as [|e0 E0]; [inversion K1; auto|]. cbn [m_normalize_maps mapM bind] in K1. inversion K1; auto. }
  destruct HE' as (-> & ->). destruct (equations_printable EXACT n V E names Hx HRx HV HH HNl HE BE) as [DE PE]. destruct (facets_printable EXACT order n V F names Hx Ho HRx HV HH HNl HF BF) as [DF PF].
  destruct (equations_text t names n E head HN HNl DE PE K2) as (equations & Pe & -> & W1 & Q1).
  set (rows := printed (sh s)) in *.
  assert (DR : dims (S n) rows) by (apply Forall_forall; intros r Hr; destruct (R3 r Hr) as [Hr'|(-> & _)]; [apply (dims_in (S n) F); auto|apply unit_vec_length]).
  destruct (ad_matrix t names n rows HN HNl DR) as (inequalities & Pf & E2 & W2 & Q2).
  { intros r Hr. destruct (R3 r Hr) as [Hr'|(-> & _)]; auto. left. rewrite Forall_forall in PF. auto. }
  rewrite K3 in E2. assert (lines = inequalities) as -> by (unfold say in E2; congruence).
  exists equations, Pe, inequalities, Pf. split; [|split; [|split; [|split]]]; auto; [exact (forall2_length _ _ _ Q2)|].
  intros p Hp. destruct (clear_point p) as (l & xs & Hl & HX). assert (Hxs : length xs = n) by (rewrite <- (forall2_length _ _ _ HX); auto).
  rewrite (hull_in_cone n V xs l p) by (auto using homogenised_rows).
  rewrite (C01_description EXACT order (S n) V E F Hx Ho HRx HV HH HE HF) by (rewrite app_length; cbn; lia).
  replace (S n - 1)%nat with n in * by lia. rewrite app_nth2 by lia. rewrite Hxs, Nat.sub_diag. cbn [nth].
  assert (S1 := represents_satisfied Equation n Pe E p Q1 Hp). assert (S2 := represents_satisfied Inequality n Pf rows p Q2 Hp).
  split.
  - intros (_ & G1 & G2) c Hc. apply in_app_iff in Hc as [Hc|Hc].
    + revert c Hc. apply S1. intros e He. apply (row_holds_dot Equation e p xs l); auto. rewrite Hxs. apply (dims_in (S n) E); auto.
    + revert c Hc. apply S2. intros f Hf. apply (row_holds_dot Inequality f p xs l); auto; [rewrite Hxs; apply (dims_in (S n) rows); auto|]. destruct (R3 f Hf) as [Hf'|(-> & _)]; auto.
      rewrite dot_unit by (try lia; rewrite app_length; cbn; lia). rewrite app_nth2 by lia. rewrite Hxs, Nat.sub_diag. cbn [nth]. lia.
  - intros G. split; [lia|]. split.
    + intros e He. apply (row_holds_dot Equation e p xs l); auto; [rewrite Hxs; apply (dims_in (S n) E); auto|]. apply (proj1 S1); auto. intros c Hc. apply G. apply in_app_iff; auto.
    + intros f Hf. apply (row_holds_dot Inequality f p xs l); auto; [rewrite Hxs; apply (dims_in (S n) F); auto|]. apply (proj1 S2); [|apply R2; auto]. intros c Hc. apply G. apply in_app_iff; auto.
Qed.
Print Assumptions C52_facets.

(** ** With maps *)
Lemma symmetries_onto n V maps m : symmetries n V maps -> In m maps -> map_in (S n) m /\ nth n m [] = [(n, 1)] /\ onto m V V.
Proof.
  intros Hsym Hm. destruct (Hsym m Hm) as (M1 & M2 & (W & HW & HP)). split; auto. split; auto. split.
  - intros v Hv. destruct (forall2_in_l _ _ _ v HW Hv) as (w & Hw & j & k & Hj & Hk & E). exists w, j, k. split; [apply (Permutation_in _ HP); auto|]. auto.
  - intros w Hw. assert (Hw' : In w W) by (apply (Permutation_in _ (Permutation_sym HP)); auto). destruct (forall2_in_r _ _ _ w HW Hw') as (v & Hv & j & k & Hj & Hk & E). exists v, j, k. auto.
Qed.
(** Without equations the maps are kept, otherwise they are normalised. *)
Lemma reduced_like t n V maps E reduced : t <> INT16 -> rows_representable t V -> dims (S n) V -> homogenised (S n) V -> symmetries n V maps -> equations_allow t n E maps ->
  m_ad_reduce t V maps = Ok (E, reduced) -> m_extract_equations (arith t) V = Ok E /\ eqs (S n) V = E /\ Forall2 (fun m' m => like_symmetry (S n) V m' m) reduced maps.
Proof.
  intros Ht HR HV Hh Hsym (HS & Hmem) H. unfold m_ad_reduce in H. destruct (m_extract_equations (arith t) V) as [E'| |] eqn:EE; cbn [bind] in H; try discriminate.
  destruct (homogenised_pos (S n) V HV Hh) as (Hn & Hl & _). assert (X := result_equations t (S n) V Ht HR HV E' Hl Hn EE). fold (eqs (S n) V) in X.
  assert (Full : E' = [] -> forall m, In m maps -> like_symmetry (S n) V m m).
  { intros -> m Hm. destruct (symmetries_onto n V maps m Hsym Hm) as (M1 & M2 & M3). split; auto. replace (S n - 1)%nat with n by lia. split; auto. split; auto. split; auto.
    intros f Nf. split; [|apply sim_refl]. intros Hz. apply full_nform; auto. assert (L := act_length (S n) m f (proj1 Nf)). split; auto.
    destruct (rnorm_zero_or_primitive (praw Facet_tag m f)) as [E0|E0]; auto. exfalso. apply Hz. unfold act. rewrite E0. intros v _. apply dot_vzero_l. }
  destruct E' as [|e0 E'].
  - inversion H; subst. split; auto. split; auto. specialize (Full eq_refl). clear - Full. induction reduced as [|m ms IH]; constructor; [apply Full; left; auto|apply IH; intros m' Hm'; apply Full; right; auto].
  - match type of H with (bind ?x _ = _) => destruct x as [maps'| |] eqn:EM end; cbn [bind] in H; try discriminate. inversion H; subst E reduced. split; auto. split; auto.
    destruct Hmem as [|(H64 & Hmem)]; [discriminate|]. destruct (solved_leads (S n) _ HS) as (_ & Hlead). change (num (arith t)) with Z in *. unfold vec in X. rewrite X in EM, Hlead. unfold m_normalize_maps in EM. clear H EE Full HS.
    assert (Q : forall m, In m maps -> map_in (S n) m /\ nth n m [] = [(n, 1)] /\ onto m V V) by (intros m Hm; apply (symmetries_onto n V maps m Hsym Hm)). clear Hsym.
    revert maps' EM. induction Hmem as [|m ms Hm Hmem IH]; intros maps' EM; cbn [mapM] in EM; [inversion EM; constructor|].
    match type of EM with (bind ?x _ = _) => destruct x as [m'| |] eqn:E1 end; cbn [bind] in EM; try discriminate.
    match type of EM with (bind ?x _ = _) => destruct x as [ms'| |] eqn:E2 end; cbn [bind] in EM; try discriminate. inversion EM; subst maps'.
    constructor; [|apply IH; [intros m0 Hm0; apply Q; right; auto|reflexivity]]. destruct (Q m (or_introl eq_refl)) as (M1 & M2 & M3). destruct Hm as (B1 & B2).
    apply (like_normalised t (S n) V m m'); auto.
    + intros e He. apply (Hlead e He).
    + replace (S n - 1)%nat with n by lia. auto.
Qed.
Lemma likes_acting n V maps reduced : dims (S n) V -> homogenised (S n) V -> Forall2 (fun m' m => like_symmetry (S n) V m' m) reduced maps -> acting (S n) V reduced.
Proof. intros HV Hh HL. apply acting_like; auto. intros m' Hm'. destruct (forall2_in_l _ _ _ m' HL Hm') as (m & _ & H). exists m. auto. Qed.

Inductive zmoved (maps : list lmap) : vec -> vec -> Prop :=
| zmoved_none x : zmoved maps x x
| zmoved_first m x y : In m maps -> zmoved maps (substitute m x) y -> zmoved maps x y.
Lemma moved_length n maps p q : (forall m, In m maps -> map_in (S n) m) -> moved maps p q -> length p = n -> length q = n.
Proof.
  intros Hmaps. induction 1 as [p|m p q Hm _ IH]; intros Hp; auto. apply IH. unfold moved_by. rewrite map_length. destruct (Hmaps m Hm) as (Hl & _).
  destruct (exists_last (l := m)) as (m' & im & ->); [intros ->; discriminate|]. rewrite removelast_last. rewrite app_length in Hl. cbn in Hl. lia.
Qed.
Lemma trivial_valid n V : dims (S n) V -> homogenised (S n) V -> valid V (trivial_row (S n)).
Proof. intros HV (Hh & _) v Hv. rewrite dot_unit by (try lia; apply (dims_in (S n) V); auto). specialize (Hh v Hv). lia. Qed.
Section Moved.
  Variables (n : nat) (maps : list lmap).
  Hypothesis Hmaps : forall m, In m maps -> map_in (S n) m /\ nth n m [] = [(n, 1)].
  Notation clears l := (Forall2 (fun q x => q * inject_Z l == inject_Z x)%Q).

  Lemma moved_substitute m p xs l : In m maps -> length xs = n -> clears l p xs -> exists ys, substitute m (xs ++ [l]) = ys ++ [l] /\ length ys = n /\ clears l (moved_by m p) ys.
  Proof.
    intros Hm Hx HX. destruct (Hmaps m Hm) as ((Hl & Hin) & Hlast). destruct (exists_last (l := m)) as (m' & im & ->); [intros ->; discriminate|].
    rewrite app_length in Hl. cbn [length] in Hl. rewrite app_nth2 in Hlast by lia. replace (n - length m')%nat with 0%nat in Hlast by lia. cbn [nth] in Hlast. subst im.
    assert (Hp : length p = n) by (rewrite (forall2_length _ _ _ HX); auto).
    exists (map (fun im => image_value im (xs ++ [l])) m'). split; [|split].
    - unfold substitute. rewrite map_app. f_equal. cbn [map image_value fold_right fst snd]. rewrite app_nth2 by lia. replace (n - length xs)%nat with 0%nat by lia. cbn [nth]. f_equal. ring.
    - rewrite map_length. lia.
    - unfold moved_by. rewrite removelast_last. clear - HX Hx Hp.
      assert (N : forall j, (nth j (p ++ [1]) 0 * inject_Z l == inject_Z (nth j (xs ++ [l]) 0%Z))%Q).
      { intros j. destruct (Nat.ltb_spec j n).
        - rewrite !app_nth1 by lia. apply cleared_nth. auto.
        - rewrite !app_nth2 by lia. rewrite Hp, Hx. destruct (j - n)%nat as [|k]; cbn [nth]; [ring|]. destruct k; cbn [nth]; change (inject_Z 0) with 0%Q; ring. }
      induction m' as [|im m' IH]; cbn [map]; constructor; auto. clear IH. induction im as [|tm im IH]; cbn [fold_right image_value]; [change (inject_Z 0) with 0%Q; ring|].
      fold (image_value im (xs ++ [l])). rewrite inject_Z_plus, inject_Z_mult, <- IH, <- (N (fst tm)). ring.
  Qed.
  Lemma moved_z p q : moved maps p q -> forall xs l, length xs = n -> clears l p xs -> exists ys, zmoved maps (xs ++ [l]) (ys ++ [l]) /\ length ys = n /\ clears l q ys.
  Proof.
    induction 1 as [p|m p q Hm _ IH]; intros xs l Hx HX; [exists xs; split; [constructor|auto]|].
    destruct (moved_substitute m p xs l Hm Hx HX) as (ys & E & Hy & HY). destruct (IH ys l Hy HY) as (zs & Z1 & Z2 & Z3). exists zs. split; auto. apply (zmoved_first maps m); auto. rewrite E. auto.
  Qed.
  Lemma z_moved X Y : zmoved maps X Y -> forall p xs l, X = xs ++ [l] -> length xs = n -> clears l p xs -> exists q ys, moved maps p q /\ Y = ys ++ [l] /\ length ys = n /\ clears l q ys.
  Proof.
    induction 1 as [x|m x y Hm _ IH]; intros p xs l -> Hx HX; [exists p, xs; split; [constructor|auto]|].
    destruct (moved_substitute m p xs l Hm Hx HX) as (ys & E & Hy & HY). destruct (IH (moved_by m p) ys l E Hy HY) as (q & zs & Z1 & Z2). exists q, zs. split; auto. apply (moved_first maps m); auto.
  Qed.
End Moved.

(** ** Facets carried by the maps *)
Section Carried.
  Variables (n : nat) (V : list vec) (maps reduced : list lmap).
  Hypothesis HV : dims (S n) V.
  Hypothesis Hh : homogenised (S n) V.
  Hypothesis HL : Forall2 (fun m' m => like_symmetry (S n) V m' m) reduced maps.
  Let P := prepare_ok (S n) V HV.
  Let HE : dims (S n) (eqs (S n) V) := po_eqs_dim _ _ _ P.
  Let HA := likes_acting n V maps reduced HV Hh HL.

  Definition flat (X : vec) : Prop := length X = S n /\ forall e, In e (eqs (S n) V) -> dot e X = 0.
  Lemma flat_vertex v : In v V -> flat v.
  Proof. intros Hv. split; [apply (dims_in (S n) V); auto|]. intros e He. apply (po_eqs_van _ _ _ P e He v Hv). Qed.
  Lemma vanishing_flat a X : length a = S n -> vanishes V a -> flat X -> dot a X = 0.
  Proof.
    intros La Ha (LX & HX). destruct (po_eqs_span _ _ _ P a La Ha) as (k & cs & Hk & Hl & Ek). assert (E := f_equal (fun u => dot u X) Ek). cbn beta in E.
    rewrite dot_vscale_l, dot_lincomb_l in E by exact HE. rewrite (Symmetry.dot_zero_r cs) in E; [nia|]. apply Forall_forall. intros x Hx. apply in_map_iff in Hx. destruct Hx as (e & <- & He). apply HX. exact He.
  Qed.
  Lemma sim_flat a b : length a = S n -> length b = S n -> simn V a b -> exists k t, 0 < k /\ 0 < t /\ forall X, flat X -> k * dot a X = t * dot b X.
  Proof.
    intros La Lb (k & t & Hk & Ht & H). exists k, t. split; auto. split; auto. intros X FX. assert (E := vanishing_flat (vadd (vscale k a) (vscale (- t) b)) X).
    rewrite dot_vadd_l, !dot_vscale_l in E by (rewrite !vscale_length; congruence). assert (Q : k * dot a X + - t * dot b X = 0); [|lia]. apply E; auto.
    - apply vadd_length_eq; rewrite vscale_length; auto.
    - intros v Hv. rewrite dot_vadd_l, !dot_vscale_l by (rewrite !vscale_length; congruence). rewrite (H v Hv). lia.
  Qed.
  Lemma like_of m : In m maps -> exists m', In m' reduced /\ like_symmetry (S n) V m' m.
  Proof. intros Hm. destruct (forall2_in_r _ _ _ m HL Hm) as (m' & H1 & H2). eauto. Qed.
  Lemma like_in m' : In m' reduced -> exists m, In m maps /\ like_symmetry (S n) V m' m.
  Proof. intros Hm. destruct (forall2_in_l _ _ _ m' HL Hm) as (m & H1 & H2). eauto. Qed.
  Lemma flat_sub m X : In m maps -> flat X -> flat (substitute m X).
  Proof.
    intros Hm FX. destruct (like_of m Hm) as (m' & _ & M1 & _ & M3 & _). split; [apply substitute_length; auto|]. intros e He. assert (Le := dims_in _ _ _ HE He).
    rewrite <- (pull_dot (S n) m M1) by (auto; apply FX). apply vanishing_flat; auto; [rewrite praw_length; auto|]. apply (proj1 (pull_vanishes (S n) m M1 V V HV M3 e Le)). apply (po_eqs_van _ _ _ P e He).
  Qed.
  (** The reduced map acts on a row in normal form like the map on the rows. *)
  Lemma act_value m m' f : like_symmetry (S n) V m' m -> nform (S n) V f -> exists k t, 0 < k /\ 0 < t /\ forall X, flat X -> k * dot (act m' f) X = t * dot f (substitute m X).
  Proof.
    intros (M1 & _ & M3 & M4 & M5) Nf. destruct (M5 f Nf) as (_ & SI). destruct (sim_flat _ _ (act_length (S n) m' f (proj1 Nf)) (act_length (S n) m f (proj1 Nf)) SI) as (k & t & Hk & Ht & H).
    assert (Hr := rfac_pos (praw Facet_tag m f)). exists (k * rfac (praw Facet_tag m f)), t. split; [nia|]. split; auto. intros X FX. rewrite <- (pull_dot (S n) m M1) by (try apply Nf; apply FX).
    rewrite (dot_rnorm (praw Facet_tag m f)). unfold act in H at 2. rewrite (Z.mul_comm k), <- Z.mul_assoc, (H X FX). ring.
  Qed.
  Lemma apply_act m' x : In m' reduced -> length x = S n -> m_apply (arith EXACT) Facet_tag m' x = Ok (act m' x).
  Proof. intros Hm Hx. destruct (like_in m' Hm) as (m & _ & _ & _ & _ & M4 & _). apply (apply_exact Facet_tag (S n)); auto. Qed.
  Lemma orbit_moved r x : facet (S n) V r -> nform (S n) V r -> orbit EXACT Facet_tag reduced r x ->
    exists ms k l, incl ms maps /\ 0 < k /\ 0 < l /\ forall X, flat X -> k * dot x X = l * dot r (fold_left (fun y m => substitute m y) ms X).
  Proof.
    intros Fr Nr. induction 1 as [|x m' y Ox (ms & k & l & Hms & Hk & Hl & IH) Hm' E].
    - exists [], 1, 1. split; [intros ? []|]. split; [lia|]. split; [lia|]. reflexivity.
    - destruct (orb_facet (S n) V reduced HA r x Fr Nr Ox) as (Fx & Nx & _). rewrite (apply_act m' x Hm' (proj1 Fx)) in E. assert (y = act m' x) as -> by congruence.
      destruct (like_in m' Hm') as (m & Hm & Lm). destruct (act_value m m' x Lm Nx) as (j & t & Hj & Ht & H). exists (m :: ms), (j * k), (t * l). split; [intros q [<-|Hq]; auto|]. split; [nia|]. split; [nia|].
      intros X FX. cbn [fold_left]. assert (Q := IH _ (flat_sub m X Hm FX)). specialize (H X FX). nia.
  Qed.
  Lemma orbit_carried r x : facet (S n) V r -> nform (S n) V r -> orbit EXACT Facet_tag reduced r x -> carried V maps r x.
  Proof. intros Fr Nr Ox. destruct (orbit_moved r x Fr Nr Ox) as (ms & k & l & H1 & H2 & H3 & H). exists ms, k, l. split; auto. split; auto. split; auto. intros v Hv. apply H. apply flat_vertex; auto. Qed.
  Lemma carried_orbit r x : facet (S n) V r -> nform (S n) V r -> facet (S n) V x -> nform (S n) V x -> carried V maps r x -> orbit EXACT Facet_tag reduced r x.
  Proof.
    intros Fr Nr Fx Nx (ms & k & l & Hms & Hk & Hl & H). revert r Fr Nr k l Hk Hl H. induction ms as [|m ms IH] using rev_ind; intros r Fr Nr k l Hk Hl H.
    - cbn [fold_left] in H. replace x with r; [constructor|]. apply (nform_unique (S n) V); auto. exists l, k. split; auto. split; auto. intros v Hv. symmetry. apply H; auto.
    - assert (Hm : In m maps) by (apply Hms; apply in_app_iff; right; left; auto). assert (Hms' : incl ms maps) by (intros q Hq; apply Hms; apply in_app_iff; auto).
      destruct (like_of m Hm) as (m' & Hm' & Lm). destruct (a_facet (S n) V reduced HA m' r Hm' Fr Nr) as (Fa & Na). destruct (act_value m m' r Lm Nr) as (j & t & Hj & Ht & Hv).
      assert (Fl : forall qs X, incl qs maps -> flat X -> flat (fold_left (fun y m => substitute m y) qs X)).
      { intros qs. induction qs as [|q qs IHq]; intros X Hq FX; cbn [fold_left]; auto. apply IHq; [intros z Hz; apply Hq; right; auto|]. apply flat_sub; auto. apply Hq. left; auto. }
      assert (O := IH Hms' (act m' r) Fa Na (t * k) (l * j) ltac:(nia) ltac:(nia)). apply (orbit_trans EXACT Facet_tag reduced r (act m' r)).
      + apply (orbit_apply EXACT Facet_tag reduced r r m'); auto; [constructor|]. apply apply_act; auto. apply Fr.
      + apply O. intros v Hv'. specialize (H v Hv'). rewrite fold_left_app in H. cbn [fold_left] in H.
        assert (Q := Hv _ (Fl ms v Hms' (flat_vertex v Hv'))). rewrite <- !Z.mul_assoc, H, Q. ring.
  Qed.

  (** The rows that describe the polyhedron up to the maps. *)
  Lemma fold_zmoved ms X : incl ms maps -> zmoved maps X (fold_left (fun y m => substitute m y) ms X).
  Proof. revert X. induction ms as [|m ms IH]; intros X Hms; cbn [fold_left]; [constructor|]. apply (zmoved_first maps m); [apply Hms; left; auto|]. apply IH. intros q Hq. apply Hms. right; auto. Qed.
  Lemma zmoved_valid X Y : zmoved maps X Y -> length X = S n -> (forall g, length g = S n -> valid V g -> dot g X <= 0) -> forall g, length g = S n -> valid V g -> dot g Y <= 0.
  Proof.
    induction 1 as [x|m x y Hm _ IH]; intros HX H g Lg Vg; auto. destruct (like_of m Hm) as (m' & _ & M1 & _ & M3 & _). apply IH; auto; [apply substitute_length; auto|].
    intros h Lh Vh. rewrite <- (pull_dot (S n) m M1) by auto. apply H; [rewrite praw_length; auto|]. apply (proj1 (pull_valid (S n) m M1 V V HV M3 h Lh)). auto.
  Qed.
  Lemma symmetric_description order (F R : list vec) : sort_order order -> m_fme (arith EXACT) order V = Ok F ->
    (forall f, In f F -> exists r, In r R /\ orbit EXACT Facet_tag reduced f r) -> (forall r, In r R -> length r = S n /\ valid V r) ->
    forall p, length p = n -> (hull n (points_of V) (rays_of V) p <->
      (forall e, In e (eqs (S n) V) -> row_holds Equation e p) /\ forall q r, moved maps p q -> In r R -> row_holds Inequality r q).
  Proof.
    intros Ho HF H1 H2 p Hp. destruct (clear_point p) as (l & xs & Hl & HX). assert (Hxs : length xs = n) by (rewrite <- (forall2_length _ _ _ HX); auto).
    assert (LX : length (xs ++ [l]) = S n) by (rewrite app_length; cbn; lia). assert (Hx : EXACT <> INT16) by discriminate. assert (HRx := representable_exact V).
    destruct (homogenised_pos (S n) V HV Hh) as (Hn & Hlen & Hnz). assert (Hex := RotationTheorems.hom_ex (S n) V Hh). assert (EF := result_fme EXACT order (S n) V Hx Ho HRx HV F Hnz HF).
    assert (HEx : m_extract_equations (arith EXACT) V = Ok (eqs (S n) V)).
    { assert (O := outcome_exact _ _ (equations_outcome EXACT (S n) V Hx HRx HV Hlen Hn)). rewrite equations_of_prepare in O by auto. exact O. }
    assert (Hmaps : forall m, In m maps -> map_in (S n) m /\ nth n m [] = [(n, 1)]).
    { intros m Hm. destruct (like_of m Hm) as (m' & _ & M1 & M2 & _). replace (S n - 1)%nat with n in M2 by lia. auto. }
    rewrite (hull_in_cone n V xs l p) by (auto using homogenised_rows). split.
    - intros HC. assert (Dual : forall g, length g = S n -> valid V g -> dot g (xs ++ [l]) <= 0).
      { intros g Lg Vg. destruct HC as (k & cs & Hk & Hlc & Hnn & Ek). assert (E := f_equal (dot g) Ek). rewrite dot_vscale_r in E. rewrite (dot_comm g (lincomb _ _ _)), dot_lincomb_l in E by auto.
        assert (D : dot cs (map (fun v => dot v g) V) <= 0); [|nia]. clear - Hnn Vg. assert (Q : forall v, In v V -> dot v g <= 0) by (intros v Hv; rewrite dot_comm; apply Vg; auto). clear Vg.
        revert V Q. induction Hnn as [|c cs Hc _ IH]; intros [|v V] Q; cbn [map dot]; try lia. assert (Q1 := Q v (or_introl eq_refl)). assert (Q2 := IH V (fun w Hw => Q w (or_intror Hw))). nia. }
      split.
      + intros e He. apply (row_holds_dot Equation e p xs l); auto; [rewrite Hxs; apply (dims_in _ _ _ HE He)|]. apply (C01_description EXACT order (S n) V (eqs (S n) V) F Hx Ho HRx HV Hh HEx HF) in HC; auto. apply HC. auto.
      + intros q r Hq Hr. destruct (moved_z n maps Hmaps p q Hq xs l Hxs HX) as (ys & Hz & Hy & HY). destruct (H2 r Hr) as (Lr & Vr).
        apply (row_holds_dot Inequality r q ys l); auto; [rewrite Hy; auto|]. apply (zmoved_valid _ _ Hz LX Dual); auto.
    - intros (G1 & G2). apply (C01_description EXACT order (S n) V (eqs (S n) V) F Hx Ho HRx HV Hh HEx HF); auto. replace (S n - 1)%nat with n by lia. rewrite app_nth2 by lia. rewrite Hxs, Nat.sub_diag. cbn [nth]. split; [lia|].
      assert (Fl : flat (xs ++ [l])). { split; auto. intros e He. apply (row_holds_dot Equation e p xs l); auto. rewrite Hxs; apply (dims_in _ _ _ HE He). }
      split; [apply Fl|]. intros f Hf. assert (Ff := Hf). rewrite EF in Ff. apply (fme_iff (S n) V order HV Ho Hex) in Ff. destruct Ff as (Ff & Nf & _).
      destruct (H1 f Hf) as (r & Hr & Or). destruct (orb_facet (S n) V reduced HA f r Ff Nf Or) as (Fr & Nr & _). assert (Ob := orb_back (S n) V reduced order HV Ho HA f r Ff Nf Or).
      destruct (orbit_moved r f Fr Nr Ob) as (ms & j & t & Hms & Hj & Ht & H). specialize (H _ Fl).
      destruct (z_moved n maps Hmaps _ _ (fold_zmoved ms (xs ++ [l]) Hms) p xs l eq_refl Hxs HX) as (q & ys & Hq & EY & Hy & HY). rewrite EY in H.
      assert (Hrow := G2 q r Hq Hr). apply (row_holds_dot Inequality r q ys l) in Hrow; auto; [nia|]. rewrite Hy. apply Fr.
  Qed.
End Carried.

(** Without equations if the vertices and rays are full-dimensional. *)
Theorem C52_full_dimensional : forall t n (V E : list vec), t <> INT16 -> rows_representable t V -> dims (S n) V -> homogenised (S n) V -> full_dimensional (S n) V ->
  m_extract_equations (arith t) V = Ok E -> E = [] /\ forall maps, equations_allow t n E maps.
Proof.
  intros t n V E Ht HR HV Hh Hfull HE. destruct (homogenised_pos (S n) V HV Hh) as (Hn & Hl & _). assert (X := result_equations t (S n) V Ht HR HV E Hl Hn HE). assert (P := prepare_ok (S n) V HV).
  assert (E = []) as ->.
  { destruct E as [|e0 E]; auto. exfalso. assert (He0 : In e0 (p_eqs (prepare (S n) V))) by (rewrite <- X; left; auto).
    assert (E0 := Hfull e0 (dims_in _ _ _ (po_eqs_dim _ _ _ P) He0) (po_eqs_van _ _ _ P e0 He0)). assert (Pr := po_eqs_prim _ _ _ P e0 He0). rewrite E0 in Pr.
    specialize (Pr 2 ltac:(lia)). assert (2 = 1); [|lia]. apply Pr. intros x Hx. apply repeat_spec in Hx. subst. exists 0. lia. }
  split; auto. intros maps. split; auto. split; [constructor|]. intros i Hi. cbn in Hi. lia.
Qed.
Print Assumptions C52_full_dimensional.

(** With maps that permute the vertices and rays: exactly one row of every class of facets that the maps carry to each other is printed.  It is the largest one with respect to the
    normalised maps; they are the rows that [classes] selects among the rows of double description. *)
Theorem C52_symmetric_rows : forall t order n (V E : list vec) (F : list vec) names maps reduced fuel threads known s out,
  t <> INT16 -> sort_order order -> rows_representable t V -> dims (S n) V -> homogenised (S n) V -> three_different_facets (S n) V -> symmetries n V maps -> equations_allow t n E maps ->
  m_ad_reduce t V maps = Ok (E, reduced) ->
  are_facets t (S n) V known -> (0 < threads)%nat ->
  m_fme (arith EXACT) order V = Ok F -> m_ad_run t order fuel threads V names maps known s out ->
  NoDup (printed (sh s)) /\
  (forall f, In f F -> exists r, In r (printed (sh s)) /\ carried V maps f r /\ largest EXACT Facet_tag reduced f r) /\
  (forall r, In r (printed (sh s)) -> (In r F \/ (r = trivial_row (S n) /\ known = [])) /\ forall x, In x (printed (sh s)) -> carried V maps r x -> x = r) /\
  (forall t' fuel' (C : list vec), t' <> INT16 -> rows_representable t' F -> m_classes_of (arith t') fuel' Facet_tag reduced F = Ok (Some C) ->
    (forall x, In x C -> In x (printed (sh s))) /\ (forall x, In x (printed (sh s)) -> In x C \/ (x = trivial_row (S n) /\ known = []))).
Proof.
  intros t order n V E F names maps reduced fuel threads known s out Ht Ho HR HV Hh (a & b & c & Fa & Fb & Fc & Dab & Dac & Dbc) Hsym Hall Hred Hk Hth HF (E' & reduced' & start & added & ls & head & lines & H1 & H2 & H3 & H4 & H5 & H6 & _).
  assert (E' = E /\ reduced' = reduced) as (-> & ->) by (rewrite Hred in H1; inversion H1; auto).
  destruct (reduced_like t n V maps E reduced Ht HR HV Hh Hsym Hall Hred) as (HE & He & HL). assert (HA := likes_acting n V maps reduced HV Hh HL).
  destruct (homogenised_pos (S n) V HV Hh) as (_ & _ & Hnz). assert (Hex := RotationTheorems.hom_ex (S n) V Hh).
  assert (EF := result_fme EXACT order (S n) V ltac:(discriminate) Ho (representable_exact V) HV F Hnz HF).
  assert (FF : forall f, In f F -> facet (S n) V f /\ nform (S n) V f) by (intros f Hf; rewrite EF in Hf; apply (fme_iff (S n) V order HV Ho Hex) in Hf; tauto).
  destruct (run_result t order (S n) V E reduced fuel Ht Ho HR HV Hh HE HA a b c Fa Fb Fc Dab Dac Dbc known start added threads ls s Hk Hth H2 H3 H4 H5 H6) as (R1 & R2 & _ & R3 & R4 & R5).
  rewrite <- EF in R3, R4.
  assert (R4' : forall r, In r (printed (sh s)) -> In r F \/ (r = trivial_row (S n) /\ known = [])).
  { intros r Hr. destruct (R4 r Hr) as ([|E0] & _); auto. right. split; auto. destruct known as [|k0 known]; auto. exfalso. apply R5; [discriminate|]. rewrite <- E0. auto. }
  assert (PF : forall r, In r (printed (sh s)) -> facet (S n) V r /\ nform (S n) V r).
  { intros r Hr. assert (G := closure_all_good t order (S n) V E reduced fuel Ht Ho HR HV Hh HE HA a b Fa Fb Dab known start added Hk H2 H3 r).
    assert (Hne : forall x, closure (m_ad_neighbours t order fuel V reduced) (start ++ added) x -> x <> []) by (intros x Hx; apply (good_not_empty t (S n) V reduced HV Hh); apply (closure_all_good t order (S n) V E reduced fuel Ht Ho HR HV Hh HE HA a b Fa Fb Dab known start added Hk H2 H3 x Hx)).
    destruct G as (G1 & G2 & _); auto. apply (ListProofs.c_held _ _ _ _ (ListTheorems.r_contents _ start added threads 0 Hne ls s H4)). right; right; right; right. auto. }
  split; auto. split; [|split].
  - intros f Hf. destruct (R3 f Hf) as (r & Hr & L). exists r. split; auto. split; auto. destruct (FF f Hf) as (Ff & Nf). apply (orbit_carried n V maps reduced HV Hh HL f r Ff Nf). apply L.
  - intros r Hr. split; auto. intros x Hx Cx. destruct (PF r Hr) as (Fr & Nr). destruct (PF x Hx) as (Fx & Nx). assert (Ox := carried_orbit n V maps reduced HV Hh HL r x Fr Nr Fx Nx Cx).
    destruct (R4 r Hr) as (_ & Lr). destruct (R4 x Hx) as (_ & Lx).
    apply (largest_unique EXACT Facet_tag reduced r x r); auto. apply (largest_any (S n) V reduced order HV Ho HA r x Fr Nr Ox). auto.
  - intros t' fuel' C Ht' RF EC. assert (DF : dims (S n) F) by (apply Forall_forall; intros f Hf; apply (FF f Hf)).
    destruct (classes_exact t' Facet_tag reduced (S n) Ht' (a_maps (S n) V reduced HA) fuel' F C DF RF EC) as (C1 & C2). split.
    + intros x Hx. destruct (C1 x Hx) as (_ & _ & f & Hf & L). destruct (R3 f Hf) as (r & Hr & Lr). rewrite (largest_unique EXACT Facet_tag reduced f x r L Lr). auto.
    + intros x Hx. destruct (R4' x Hx) as [Hf|]; auto. left. destruct (C2 x Hf) as (h & y & Hh' & Oh & Hy & L). destruct (FF h Hh') as (Fh & Nh). destruct (R4 x Hx) as (_ & Lx).
      replace x with y; auto. apply (largest_unique EXACT Facet_tag reduced x); auto. apply (largest_any (S n) V reduced order HV Ho HA h x Fh Nh Oh). auto.
Qed.
Print Assumptions C52_symmetric_rows.

(** The text: a point is in the convex hull plus cone iff it satisfies the printed equations and all its images under the maps satisfy all printed inequalities. *)
Theorem C52_symmetric_facets : forall t order n (V E F : list vec) names maps fuel threads known s out,
  t <> INT16 -> sort_order order -> rows_representable t V -> dims (S n) V -> homogenised (S n) V -> three_different_facets (S n) V -> symmetries n V maps -> equations_allow t n E maps ->
  are_facets t (S n) V known -> (0 < threads)%nat -> good_names names -> (names = [] \/ length names = n) ->
  m_extract_equations (arith EXACT) V = Ok E -> m_fme (arith EXACT) order V = Ok F -> Forall negatable_row E -> Forall negatable_row F ->
  m_ad_run t order fuel threads V names maps known s out ->
  exists equations Pe inequalities Pf,
    out = facet_text equations inequalities (match Pe with [] => true | _ => false end) (nonempty maps) /\
    written (denotes names n Equation) equations Pe /\ written (line_denotes names n Inequality) inequalities Pf /\ length Pf = length (printed (sh s)) /\
    forall p : list Q, length p = n ->
      (hull n (points_of V) (rays_of V) p <-> (forall c, In c Pe -> satisfies c p) /\ forall q c, moved maps p q -> In c Pf -> satisfies c q).
Proof.
  intros t order n V E F names maps fuel threads known s out Ht Ho HR HV HH H3 Hsym Hall Hk Hth HN HNl HE HF BE BF Hrun.
  assert (Hx : EXACT <> INT16) by discriminate. assert (HRx := representable_exact V). destruct (homogenised_pos (S n) V HV HH) as (Hn & Hlen & Hnz).
  assert (X := result_equations EXACT (S n) V Hx HRx HV E Hlen Hn HE).
  assert (Hred : exists reduced, m_ad_reduce t V maps = Ok (E, reduced)).
  { destruct Hrun as (E' & reduced & _ & _ & _ & _ & _ & K1 & _). exists reduced. rewrite K1. do 2 f_equal. rewrite X. unfold m_ad_reduce in K1. destruct (m_extract_equations (arith t) V) as [E0| |] eqn:EE; cbn [bind] in K1; try discriminate.
    rewrite <- (result_equations t (S n) V Ht HR HV E0 Hlen Hn EE). destruct E0 as [|e0 E0]; [inversion K1; auto|]. destruct (m_normalize_maps t (e0 :: E0) maps); cbn [bind] in K1; try discriminate. inversion K1; auto. }
  destruct Hred as (reduced & Hred).
  destruct (C52_symmetric_rows t order n V E F names maps reduced fuel threads known s out Ht Ho HR HV HH H3 Hsym Hall Hred Hk Hth HF Hrun) as (R1 & R2 & R3 & _).
  destruct Hrun as (E' & reduced' & start & added & ls & head & lines & K1 & _ & _ & _ & _ & _ & K2 & K3 & ->).
  assert (E' = E /\ reduced' = reduced) as (-> & ->) by (rewrite Hred in K1; inversion K1; auto).
  destruct (reduced_like t n V maps E reduced Ht HR HV HH Hsym Hall Hred) as (HEt & He & HL). assert (HA := likes_acting n V maps reduced HV HH HL).
  destruct (equations_printable EXACT n V E names Hx HRx HV HH HNl HE BE) as [DE PE]. destruct (facets_printable EXACT order n V F names Hx Ho HRx HV HH HNl HF BF) as [DF PF].
  destruct (equations_text t names n E head HN HNl DE PE K2) as (equations & Pe & -> & W1 & Q1).
  assert (Hex := RotationTheorems.hom_ex (S n) V HH). assert (EF := result_fme EXACT order (S n) V Hx Ho HRx HV F Hnz HF).
  set (rows := printed (sh s)) in *.
  assert (DR : dims (S n) rows) by (apply Forall_forall; intros r Hr; destruct (R3 r Hr) as [[Hr'|(-> & _)] _]; [apply (dims_in (S n) F); auto|apply unit_vec_length]).
  destruct (ad_matrix t names n rows HN HNl DR) as (inequalities & Pf & E2 & W2 & Q2).
  { intros r Hr. destruct (R3 r Hr) as [[Hr'|(-> & _)] _]; auto. left. rewrite Forall_forall in PF. auto. }
  rewrite K3 in E2. assert (lines = inequalities) as -> by (unfold say in E2; congruence).
  exists equations, Pe, inequalities, Pf. split; [|split; [|split; [|split]]]; auto; [|exact (forall2_length _ _ _ Q2)|].
  { replace (nonempty maps) with (nonempty reduced); [unfold facet_text; rewrite <- ?app_assoc; reflexivity|]. destruct HL; reflexivity. }
  intros p Hp. rewrite (symmetric_description n V maps reduced HV HH HL order F rows Ho HF) by (auto; first [intros f Hf; destruct (R2 f Hf) as (r & Hr & _ & L); exists r; split; auto; apply L|
    intros r Hr; split; [apply (dims_in (S n) rows); auto|]; destruct (R3 r Hr) as [[Hr'|(-> & _)] _]; [rewrite EF in Hr'; apply (fme_iff (S n) V order HV Ho Hex) in Hr'; apply Hr'|apply (trivial_valid n V HV HH)]]).
  rewrite He. rewrite (represents_satisfied Equation n Pe E p Q1 Hp). apply and_iff_compat_l. split.
  - intros G q c Hq. assert (Hlq : length q = n) by (apply (moved_length n maps p q (fun m Hm => proj1 (symmetries_onto n V maps m Hsym Hm)) Hq); auto). revert c. apply (represents_satisfied Inequality n Pf rows q Q2 Hlq). auto.
  - intros G q r Hq. assert (Hlq : length q = n) by (apply (moved_length n maps p q (fun m Hm => proj1 (symmetries_onto n V maps m Hsym Hm)) Hq); auto). revert r. apply (represents_satisfied Inequality n Pf rows q Q2 Hlq). auto.
Qed.
Print Assumptions C52_symmetric_facets.

(** ** Runs end *)
(** With unbounded integers: no row fails in any run, whatever the schedule, and every run can be continued to its end; then the text is printed. *)
Theorem C52_ends : forall order n (V E F : list vec) names maps reduced known,
  sort_order order -> dims (S n) V -> homogenised (S n) V -> three_different_facets (S n) V -> (maps = [] \/ (symmetries n V maps /\ equations_allow EXACT n E maps)) -> are_facets EXACT (S n) V known ->
  good_names names -> (names = [] \/ length names = n) ->
  m_ad_reduce EXACT V maps = Ok (E, reduced) -> m_fme (arith EXACT) order V = Ok F -> Forall negatable_row E -> Forall negatable_row F ->
  exists enough, forall fuel threads, (enough <= fuel)%nat -> (0 < threads)%nat -> exists start added,
    m_ad_start EXACT order fuel V E reduced known = Ok (Some start) /\ m_ad_known EXACT fuel E reduced known = Ok (Some added) /\
    forall ls s, ListModel.run (m_ad_neighbours EXACT order fuel V reduced) (initial start added threads 0) ls s ->
      (forall r, In r (handed (sh s)) -> m_ad_processed EXACT order fuel V reduced r) /\
      exists ls' s' out, ListModel.run (m_ad_neighbours EXACT order fuel V reduced) s ls' s' /\ m_ad_run EXACT order fuel threads V names maps known s' out.
Proof.
  intros order n V E F names maps reduced known Ho HV HH H3 Hmaps Hk HN HNl Hred HF BE BF. assert (HR := representable_exact V). assert (Ht : EXACT <> INT16) by discriminate.
  destruct H3 as (a & b & c & Fa & Fb & Fc & Dab & Dac & Dbc).
  assert (HA : m_extract_equations (arith EXACT) V = Ok E /\ acting (S n) V reduced).
  { destruct Hmaps as [->|(M1 & M2)].
    - unfold m_ad_reduce in Hred. destruct (m_extract_equations (arith EXACT) V) as [E'| |]; cbn [bind] in Hred; try discriminate. destruct E' as [|e0 E']; cbn [m_normalize_maps mapM bind] in Hred; inversion Hred; split; auto; apply acting_none.
    - destruct (reduced_like EXACT n V maps E reduced Ht HR HV HH M1 M2 Hred) as (HE & _ & HL). split; auto. apply (likes_acting n V maps reduced HV HH HL). }
  destruct HA as (HE & HA).
  exists (length (all_rows order (S n) V)). intros fuel threads Hfuel Hth.
  destruct (start_total order (S n) V E reduced fuel Ho HV HH HE HA Hfuel known Hk) as (start & Es). destruct (known_total order (S n) V E reduced fuel Ho HV HH HE HA Hfuel known Hk) as (added & Ek).
  assert (Ea : m_ad_added EXACT fuel E reduced known added) by (exists (length known); rewrite firstn_all; auto).
  exists start, added. split; auto. split; [exact Ek|]. intros ls s Hrun.
  assert (HP := handed_processed order (S n) V E reduced fuel Ho HV HH HE HA a b Fa Fb Dab Hfuel known start added threads). split; [apply (HP ls s); auto|].
  destruct (exact_finishes order (S n) V E reduced fuel Ho HV HH HE HA a b Fa Fb Dab known start added threads ls s Hk Hth Es Ea Hrun) as (ls' & s' & Hr' & Hend).
  assert (Hall := ListTheorems.run_app _ _ _ _ _ _ Hrun Hr').
  assert (HP' : forall r, In r (handed (sh s')) -> m_ad_processed EXACT order fuel V reduced r) by (intros r; eapply (HP _ s'); eauto).
  destruct (equations_printable EXACT n V E names Ht HR HV HH HNl HE BE) as [DE PE]. destruct (facets_printable EXACT order n V F names Ht Ho HR HV HH HNl HF BF) as [DF PF].
  destruct (matrix_denotes EXACT Equation names n E HN PE DE HNl) as (equations & Pe & E1 & _).
  destruct (run_result EXACT order (S n) V E reduced fuel Ht Ho HR HV HH HE HA a b c Fa Fb Fc Dab Dac Dbc known start added threads _ s' Hk Hth Es Ea Hall Hend HP') as (_ & _ & _ & _ & R4 & _).
  assert (EF := result_fme EXACT order (S n) V Ht Ho HR HV F (proj2 (proj2 (homogenised_pos (S n) V HV HH))) HF). rewrite <- EF in R4.
  destruct (ad_matrix EXACT names n (printed (sh s')) HN HNl) as (inequalities & Pf & E2 & _).
  { apply Forall_forall. intros r Hr. destruct (R4 r Hr) as ([Hq|Hq] & _); [apply (dims_in (S n) F); auto|rewrite Hq; apply unit_vec_length]. }
  { intros r Hr. destruct (R4 r Hr) as ([Hq|Hq] & _); auto. left. rewrite Forall_forall in PF. auto. }
  assert (EH : exists head, m_ad_equations EXACT names E = say head).
  { unfold m_ad_equations. destruct E as [|e0 E0]; [eauto|]. unfold relation_sign in E1. rewrite E1. cbn [say andthen fst snd]. eexists. reflexivity. }
  destruct EH as (head & EH). exists ls', s', (head ++ m_reduced (nonempty reduced) ++ lit "Inequalities:" ++ end_line ++ inequalities). split; auto.
  exists E, reduced, start, added, (ls ++ ls'), head, inequalities. repeat (split; [first [assumption|exact Hall]|]); auto.
Qed.
Print Assumptions C52_ends.

(** ** Example: the unit square with the exchange of the coordinates, two threads *)
Definition exchange2 : lmap := [[(1%nat, 1)]; [(0%nat, 1)]; [(2%nat, 1)]].
Example C52_example :
  three_different_facets 3 square /\ full_dimensional 3 square /\ symmetries 2 square [exchange2] /\ are_facets INT32 3 square [[0; -2; 0]] /\
  exists s, m_ad_run INT32 sorted_order 100 2 square [lit "x"; lit "y"] [exchange2] [] s (lit "Reduced Inequalities:" ++ newline :: lit "-y <= 0" ++ newline :: lit "x <= 1" ++ [newline]).
Proof.
  assert (HV : dims 3 square) by solve_rows.
  assert (HF : m_fme (arith INT32) sorted_order square = Ok [[-1; 0; 0]; [0; -1; 0]; [1; 0; -1]; [0; 1; -1]]) by reflexivity.
  assert (Hf : forall f, In f [[-1; 0; 0]; [0; -1; 0]; [1; 0; -1]; [0; 1; -1]] -> facet 3 square f).
  { intros f Hf. apply (rows_facets INT32 sorted_order 3 square ltac:(discriminate) sorted_order_ok (square_rep _) square_dims _ f) in HF; [tauto| |exact Hf]. exists [1; 0; 1]. split; [cbn; auto|discriminate]. }
  split; [|split; [|split; [|split]]].
  - apply (C09_polytopes 3 square [0; 0; 1] [1; 0; 1] [0; 1; 1]); auto; try (cbn; tauto).
    + intros v Hv. cbn in Hv. intuition (subst; cbn; lia).
    + intros cs Hl E. destruct cs as [|x [|y [|z [|]]]]; try discriminate. cbn in E. inversion E. repeat constructor; lia.
  - intros a Ha H. destruct a as [|x [|y [|z [|]]]]; try discriminate. assert (H1 := H [0; 0; 1] ltac:(cbn; tauto)). assert (H2 := H [1; 0; 1] ltac:(cbn; tauto)). assert (H3 := H [0; 1; 1] ltac:(cbn; tauto)). cbn in H1, H2, H3.
    replace x with 0 by lia. replace y with 0 by lia. replace z with 0 by lia. reflexivity.
  - intros m [<-|[]]. split; [split; [reflexivity|repeat constructor]|]. split; [reflexivity|]. exists [[0; 0; 1]; [0; 1; 1]; [1; 0; 1]; [1; 1; 1]]. split.
    + repeat constructor; exists 1, 1; (split; [lia|split; [lia|reflexivity]]).
    + apply perm_skip, perm_swap.
  - intros r [<-|[]]. split; [|split; [|repeat constructor]].
    + apply (facet_sim 3 square [0; -1; 0]); [reflexivity| |apply Hf; cbn; tauto]. exists 2, 1. split; [lia|]. split; [lia|]. intros v Hv. cbn in Hv. intuition (subst; reflexivity).
    + intros (k & j & Hk & Hj & H). specialize (H [0; 0; 1] ltac:(cbn; tauto)). cbn in H. lia.
  - exists (State (Jobs 2 [[0; -1; 0]; [1; 0; -1]; []] [[]] [[0; -1; 0]; [1; 0; -1]] [[0; -1; 0]; [1; 0; -1]]) None [Stopped; Stopped] []).
    assert (R : exists ls, ListModel.run (m_ad_neighbours INT32 sorted_order 100 square [exchange2]) (initial [[0; -1; 0]; [0; -1; 0]] [] 2 0) ls
      (State (Jobs 2 [[0; -1; 0]; [1; 0; -1]; []] [[]] [[0; -1; 0]; [1; 0; -1]] [[0; -1; 0]; [1; 0; -1]]) None [Stopped; Stopped] [])).
    { apply (exec_all_ok _ (repeat CMain 3 ++ repeat (CThread 0) 17 ++ repeat (CThread 1) 3)). vm_compute. reflexivity. }
    destruct R as (ls & R). exists [], [exchange2], [[0; -1; 0]; [0; -1; 0]], [], ls, [], (lit "-y <= 0" ++ newline :: lit "x <= 1" ++ [newline]).
    split; [vm_compute; reflexivity|]. split; [vm_compute; reflexivity|]. split; [exists 0%nat; split; [reflexivity|left; cbn; auto]|]. split; [exact R|]. split; [split; [reflexivity|split; [reflexivity|]]; cbn; intuition|].
    split; [|split; [reflexivity|split; [vm_compute; reflexivity|reflexivity]]].
    intros r [<-|[<-|[]]]; unfold m_ad_processed; eexists; vm_compute; reflexivity.
Qed.

(** *** A triangle in the plane x + y + z = 1 with the exchange of the first two coordinates *)
Definition simplex3 : list vec := [[1; 0; 0; 1]; [0; 1; 0; 1]; [0; 0; 1; 1]].
Definition exchange_solved : lmap := [[]; [(1%nat, -1); (2%nat, -1); (3%nat, 1)]; [(2%nat, 1)]; [(3%nat, 1)]].
Example C52_equations_example :
  three_different_facets 4 simplex3 /\ symmetries 3 simplex3 [exchange] /\ equations_allow INT32 3 [[1; 1; 1; -1]] [exchange] /\
  m_ad_reduce INT32 simplex3 [exchange] = Ok ([[1; 1; 1; -1]], [exchange_solved]) /\
  exists s, m_ad_run INT32 sorted_order 100 1 simplex3 [lit "x"; lit "y"; lit "z"] [exchange] [] s
    (lit "Equations:" ++ newline :: lit "x +y +z = 1" ++ newline :: newline :: lit "Reduced Inequalities:" ++ newline :: lit "y +z <= 1" ++ newline :: lit "-z <= 0" ++ [newline]).
Proof.
  assert (HV : dims 4 simplex3) by solve_rows.
  split; [|split; [|split; [|split; [vm_compute; reflexivity|]]]].
  - apply (C09_polytopes 4 simplex3 [1; 0; 0; 1] [0; 1; 0; 1] [0; 0; 1; 1]); auto; try (cbn; tauto).
    + intros v Hv. cbn in Hv. intuition (subst; cbn; lia).
    + intros cs Hl E. destruct cs as [|x [|y [|z [|]]]]; try discriminate. cbn in E. inversion E. repeat constructor; lia.
  - intros m [<-|[]]. split; [split; [reflexivity|repeat constructor]|]. split; [reflexivity|]. exists [[0; 1; 0; 1]; [1; 0; 0; 1]; [0; 0; 1; 1]]. split.
    + repeat constructor; exists 1, 1; (split; [lia|split; [lia|reflexivity]]).
    + apply perm_swap.
  - split; [|right; split; [discriminate|repeat constructor]]. split; [repeat constructor|]. intros [|i] Hi; cbn [length] in Hi; [|lia]. exists 0%nat. cbn [nth]. split; [|split; [reflexivity|]].
    + split; [cbn; lia|]. split; [discriminate|]. intros c Hc. lia.
    + intros [|j] Hj Hne; cbn [length] in Hj; lia.
  - exists (State (Jobs 1 [[0; 1; 1; -1]; [0; 0; -1; 0]; []] [[]] [[0; 1; 1; -1]; [0; 0; -1; 0]] [[0; 1; 1; -1]; [0; 0; -1; 0]]) None [Stopped] []).
    assert (R : exists ls, ListModel.run (m_ad_neighbours INT32 sorted_order 100 simplex3 [exchange_solved]) (initial [[0; 1; 1; -1]; [0; 1; 1; -1]; [0; 0; -1; 0]] [] 1 0) ls
      (State (Jobs 1 [[0; 1; 1; -1]; [0; 0; -1; 0]; []] [[]] [[0; 1; 1; -1]; [0; 0; -1; 0]] [[0; 1; 1; -1]; [0; 0; -1; 0]]) None [Stopped] [])).
    { apply (exec_all_ok _ (repeat CMain 4 ++ repeat (CThread 0) 16)). vm_compute. reflexivity. }
    destruct R as (ls & R). exists [[1; 1; 1; -1]], [exchange_solved], [[0; 1; 1; -1]; [0; 1; 1; -1]; [0; 0; -1; 0]], [], ls, (lit "Equations:" ++ newline :: lit "x +y +z = 1" ++ newline :: newline :: []), (lit "y +z <= 1" ++ newline :: lit "-z <= 0" ++ [newline]).
    split; [vm_compute; reflexivity|]. split; [vm_compute; reflexivity|]. split; [exists 0%nat; split; [reflexivity|left; cbn; auto]|]. split; [exact R|]. split; [split; [reflexivity|split; [reflexivity|]]; cbn; intuition|].
    split; [|split; [vm_compute; reflexivity|split; [vm_compute; reflexivity|reflexivity]]].
    intros r [<-|[<-|[]]]; unfold m_ad_processed; eexists; vm_compute; reflexivity.
Qed.
