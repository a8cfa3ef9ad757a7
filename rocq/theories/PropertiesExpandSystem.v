(** * PropertiesExpandSystem: files with reduced inequalities (C60). *)
From Coq Require Import List ZArith QArith Arith Bool Ascii String Lia Lqa Permutation Sorted.
From Verif Require Import Base Spec LinAlg Cone ListUtil ArithModel MatrixModel FmeModel SafeIntModel IntTypes RowLcm StreamModel StreamProofs SortModel CliModel PropertiesCli InputModel InputProofs VertexInput ClassesModel MapInput
  ConstraintModel ConstraintInput ConstraintSection PropertiesVertices PropertiesConstraints OutputModel OutputProofs PropertiesOutput Hull Corners FmeCore FmePure FmePrepare FmeCorrect Refine MatrixRefine FmeRefine FmeTheorems DimTheorems NormTheorems
  Samples ClassesProofs ApplyTheorems OrbitTheorems OrbitExact PropertiesMaps PropertiesFme MapModel MapProofs PropertiesProgram RotationModel RotationTheorems PropertiesRotation HeuristicTheorems
  NormalForm Symmetry Adjacency PropertiesAd HullSame VertexSymmetry VertexImages PropertiesReduced FileModel Expand ExpandMaps FileProofs FileInput SystemFile PropertiesFile PropertiesSystem PropertiesMapFile
  ListModel AdModel VertexAdModel MainModel ModeDetection ListExec PropertiesMain PropertiesMainAd CheckedFile PropertiesExpand.
Import ListNotations.
Open Scope Z_scope.
Open Scope list_scope.

(** ** Specification *)
(** Every point is an image. *)
Definition onto (n : nat) (m : lmap) : Prop := forall q : list Q, length q = n -> exists p : list Q, length p = n /\ same_point (moved_by m p) q.
(** Inequalities that can be listed in a file with these names. *)
Definition listed_inequalities (names : list text) (L : list wide) : Prop := readable_names names /\ Forall (fun k => exists line, constraint_line names Inequality line k) L.
(** The inequalities of the file are those of the classes of [L] (see [system_reduced]). *)
Definition expanded_system (s : system) (L : list wide) : Prop := exists classes,
  Forall2 (class_of facet_step facet_load (s_maps s)) (map wide_row L) classes /\ s_inequalities s = map row_constraint (concat classes).
(** The maps permute the equations up to factors. *)
Definition equations_permuted (s : system) (n : nat) : Prop := forall m, In m (s_maps s) ->
  rearranges (fun k l : wide => exists a, ~ (a == 0)%Q /\ forall p, length p = n -> (excess (snd k) (moved_by m p) == a * excess (snd l) p)%Q) (s_equations s).

(** ** What is reached *)
Lemma listed_good names L : listed_inequalities names L -> Forall (good_constraint Inequality) L.
Proof. intros (H & HL). eapply Forall_impl; [|exact HL]. intros k (line & Hk). apply (constraint_line_row names Inequality line k H Hk). Qed.
Lemma facet_reached_z n maps a b : maps_of_dimension n maps -> length a = S n -> reached facet_step maps a b -> length b = S n /\
  forall x : vec, length x = S n -> exists y g, zmoved maps x y /\ 0 < g /\ g * dot b x = dot a y.
Proof.
  intros Hm La. induction 1 as [|m c b _ [Lc IH] Hin (Lb & _ & g & Hg & E)]; [split; auto; intros x Hx; exists x, 1; split; [constructor|split; lia]|].
  split; [congruence|]. intros x Hx. assert (Ls : length (substitute m x) = S n) by (apply (substitute_length (S n)); auto; apply Hm; auto). destruct (IH (substitute m x) Ls) as (y & k & Hy & Hk & EY).
  exists y, (k * g). split; [apply (zmoved_first maps m); auto|]. split; [nia|]. rewrite <- Z.mul_assoc, E by congruence. auto.
Qed.
Lemma z_facet_reached n maps a : maps_of_dimension n maps -> length a = S n -> forall x y, zmoved maps x y -> length x = S n -> exists b g, reached facet_step maps a b /\ length b = S n /\ 0 < g /\ g * dot b x = dot a y.
Proof.
  intros Hm La x y H. induction H as [x|m x y Hin _ IH]; intros Hx; [exists a, 1; split; [constructor|split; auto; lia]|].
  assert (Ls : length (substitute m x) = S n) by (apply (substitute_length (S n)); auto; apply Hm; auto). destruct (IH Ls) as (b & g & Hb & Lb & Hg & E). assert (Mi : map_in (length b) m) by (rewrite Lb; apply Hm; auto).
  assert (HS : facet_step m b (rnorm (praw Facet_tag m b))) by (apply facet_step_iff; auto). destruct HS as (L2 & HP & k & Hk & EK).
  exists (rnorm (praw Facet_tag m b)), (g * k). split; [apply (reached_step _ _ _ m b); auto; split; auto; split; auto; exists k; auto|]. split; [congruence|]. split; [nia|]. rewrite <- Z.mul_assoc, EK by congruence. auto.
Qed.
Lemma satisfies_row n row (p : list Q) : length row = S n -> int_row row -> length p = n -> (satisfies (snd (row_constraint row)) p <-> (affine row p <= 0)%Q).
Proof.
  intros L I Hp. assert (Hne : row <> []) by (intros ->; discriminate). assert (G := row_constraint_good row Hne I). assert (F : fst (row_constraint row) = n) by (unfold row_constraint; cbn [fst]; rewrite L; reflexivity).
  assert (S1 := proj2 (good_rows Inequality _ n G F) p Hp). rewrite (row_constraint_row row Hne) in S1. unfold satisfies. rewrite <- S1. reflexivity.
Qed.
Lemma satisfies_wide n k (p : list Q) : good_constraint Inequality k -> fst k = n -> length p = n -> (satisfies (snd k) p <-> (affine (wide_row k) p <= 0)%Q).
Proof. intros G F Hp. assert (S1 := proj2 (good_rows Inequality k n G F) p Hp). unfold satisfies. rewrite <- S1. reflexivity. Qed.
Lemma affine_sign row p xs l : clears l p xs -> length row = S (length xs) -> 0 < l -> ((affine row p <= 0)%Q <-> dot row (xs ++ [l]) <= 0).
Proof.
  intros C Hr Hl. assert (E := affine_dot row p xs l C Hr). assert (P : (0 < inject_Z l)%Q) by (change 0%Q with (inject_Z 0); rewrite <- Zlt_Qlt; auto). split; intros H.
  - rewrite Zle_Qle, <- E. change (inject_Z 0) with 0%Q. nra.
  - rewrite Zle_Qle, <- E in H. change (inject_Z 0) with 0%Q in H. nra.
Qed.
Lemma in_classes maps L classes b : Forall2 (class_of facet_step facet_load maps) (map wide_row L) classes ->
  (In b (concat classes) <-> exists k, In k L /\ reached facet_step maps (wide_row k) b).
Proof.
  revert classes. induction L as [|k L IH]; intros classes H; inversion H as [|? c ? cs HC HL]; subst; cbn [concat]; [split; [intros []|intros (k & [] & _)]|]. rewrite in_app_iff, (IH cs HL). destruct HC as (_ & _ & _ & HI & _). rewrite HI. split.
  - intros [K|(k' & K1 & K2)]; [exists k; split; [left|]; auto|exists k'; split; [right|]; auto].
  - intros (k' & [<-|K1] & K2); [left; auto|right; exists k'; auto].
Qed.
Lemma class_rows_int maps L classes b : Forall2 (class_of facet_step facet_load maps) (map wide_row L) classes -> In b (concat classes) -> int_row b.
Proof.
  intros H Hb. assert (G := class_rows_good maps (map wide_row L) classes (wide_rows_nonempty L) H). rewrite Forall_forall in G. apply G; auto.
Qed.

(** ** What the file means (C60) *)
(** A point satisfies the inequalities of the file if and only if all its images satisfy those that are listed. *)
Theorem C60_solutions : forall n s L, maps_of_dimension n (s_maps s) -> listed_inequalities (s_names s) L -> (forall k, In k L -> fst k = n) -> expanded_system s L ->
  forall p : list Q, length p = n -> ((forall k, In k (s_inequalities s) -> satisfies (snd k) p) <-> (forall q k, moved (s_maps s) p q -> In k L -> satisfies (snd k) q)).
Proof.
  intros n s L Hm HL Hn (classes & HC & EI) p Hp. assert (HG := listed_good _ _ HL). rewrite Forall_forall in HG. rewrite EI. set (maps := s_maps s) in *. destruct (clear_point p) as (l & xs & Hl & C). assert (Hx : length xs = n) by (rewrite <- (forall2_length _ _ _ C); auto).
  assert (LX : length (xs ++ [l]) = S n) by (rewrite app_length; cbn; lia). assert (LW : forall k, In k L -> length (wide_row k) = S n) by (intros k Hk; rewrite wide_row_length, (Hn k Hk); auto). split.
  - intros H q k Hq Hk. destruct (moved_z n maps Hm p q Hq xs l Hx C) as (ys & HZ & Hy & CY). destruct (z_facet_reached n maps (wide_row k) Hm (LW k Hk) _ _ HZ LX) as (b & g & Hb & Lb & Hg & E).
    assert (Lq : length q = n) by (rewrite (forall2_length _ _ _ CY); auto). apply (satisfies_wide n); auto. apply (affine_sign _ q ys l); auto; [rewrite Hy; auto|].
    assert (Hin : In b (concat classes)) by (apply (in_classes maps L); auto; exists k; auto). specialize (H (row_constraint b) ltac:(apply in_map; auto)).
    apply (satisfies_row n) in H; auto; [|apply (class_rows_int maps L classes); auto]. apply (affine_sign _ p xs l) in H; auto; [nia|rewrite Hx; auto].
  - intros H k0 Hk0. apply in_map_iff in Hk0 as (b & <- & Hin). assert (Hr := Hin). apply (in_classes maps L) in Hr as (k & Hk & Hr); auto. destruct (facet_reached_z n maps _ _ Hm (LW k Hk) Hr) as (Lb & HZ).
    destruct (HZ _ LX) as (y & g & HY & Hg & E). destruct (z_moved n maps Hm _ _ HY p xs l eq_refl Hx C) as (q & ys & Hq & -> & Hy & CY). assert (Lq : length q = n) by (rewrite (forall2_length _ _ _ CY); auto).
    specialize (H q k Hq Hk). apply (satisfies_wide n) in H; auto. apply (affine_sign _ q ys l) in H; auto; [|rewrite Hy; auto].
    apply (satisfies_row n); auto; [apply (class_rows_int maps L classes); auto|]. apply (affine_sign _ p xs l); auto; [rewrite Hx; auto|nia].
Qed.
Print Assumptions C60_solutions.

(** ** Symmetry *)
Lemma onto_rows n m (a b : vec) : maps_of_dimension n [m] -> onto n m -> length a = S n -> length b = S n -> (forall x : vec, length x = S n -> dot a (substitute m x) = dot b (substitute m x)) -> a = b.
Proof.
  intros Hm HO La Lb H. apply (dot_points n); auto. intros xs l Hx Hl. assert (C := over l xs ltac:(lia)). set (q := map (fun x => inject_Z x / inject_Z l)%Q xs) in *. assert (Lq : length q = n) by (unfold q; rewrite map_length; auto).
  destruct (HO q Lq) as (p & Lp & HS). destruct (clear_point p) as (k & us & Hk & CU). assert (Hu : length us = n) by (rewrite <- (forall2_length _ _ _ CU); auto).
  destruct (moved_substitute n [m] Hm m p us k (or_introl eq_refl) Hu CU) as (ys & E & Hy & CY). assert (HE := H (us ++ [k]) ltac:(rewrite app_length; cbn; lia)). rewrite E in HE.
  assert (Lm : length (moved_by m p) = n) by (rewrite (forall2_length _ _ _ CY); auto).
  assert (EA : forall r : vec, length r = S n -> k * dot r (xs ++ [l]) = l * dot r (ys ++ [k])).
  { intros r Lr. assert (A1 := affine_dot r q xs l C ltac:(rewrite Hx; auto)). assert (A2 := affine_dot r _ ys k CY ltac:(rewrite Hy; auto)).
    assert (A3 : (affine r (moved_by m p) == affine r q)%Q) by (clear - HS; revert r; induction HS as [|x y ps qs E _ IH]; intros [|z r]; cbn [affine]; try reflexivity; rewrite ?E, ?IH; reflexivity).
    apply inject_eq. rewrite !inject_Z_mult, <- A1, <- A2, A3. ring. }
  assert (EA1 := EA a La). assert (EB1 := EA b Lb). nia.
Qed.
Lemma facet_class_permuted n maps r rows m : maps_of_dimension n maps -> length r = S n -> class_of facet_step facet_load maps r rows -> primitive r -> (forall m, In m maps -> onto n m) -> In m maps ->
  Permutation (map (fun x => rnorm (praw Facet_tag m x)) rows) rows.
Proof.
  intros Hm Lr HC HP H1 Hin. assert (HM : forall m', In m' maps -> maps_of_dimension n [m']) by (intros m' Hm' m0 [<-|[]]; apply Hm; auto).
  assert (FD : forall m' x y, In m' maps -> length x = S n -> length y = S n -> dot (praw Facet_tag m' x) y = dot x (substitute m' y)) by (intros m' x y Hm' Lx Ly; apply (facet_dot (S n)); auto; apply Hm; auto).
  assert (HD : forall x, In x rows -> length x = S n /\ primitive x).
  { intros x Hx. apply HC in Hx. induction Hx as [|m' x y Hx [L P] Hin' Hs]; auto. assert (Mi : map_in (length x) m') by (rewrite L; apply Hm; auto). apply (facet_step_iff m' x y Mi) in Hs. subst y.
    split; [rewrite rnorm_length, praw_length; auto|]. apply rnorm_primitive. intros E. assert (X0 : x = vzero (S n)).
    { apply (onto_rows n m'); auto; [apply vzero_length|]. intros y Hy. rewrite <- (FD m' x y) by auto. rewrite E, praw_length, L. rewrite !dot_vzero_l. reflexivity. }
    subst x. apply primitive_rgcd in P. assert (rgcd (vzero (S n)) = 0) by (apply rgcd_0; rewrite vzero_length; auto). lia. }
  assert (HN : NoDup rows) by (apply sorted_nodup, HC).
  assert (HI : incl (map (fun x => rnorm (praw Facet_tag m x)) rows) rows).
  { intros y Hy. apply in_map_iff in Hy as (x & <- & Hx). destruct (HD x Hx) as [Lx _]. apply HC. apply HC in Hx. apply (reached_step _ _ _ m x); auto. apply facet_step_iff; auto. rewrite Lx. apply Hm; auto. }
  apply NoDup_Permutation_bis; auto; [|rewrite map_length; auto].
  assert (INJ : forall x y, In x rows -> In y rows -> rnorm (praw Facet_tag m x) = rnorm (praw Facet_tag m y) -> x = y).
  { intros x y Hx Hy E. destruct (HD x Hx) as [Lx Px]. destruct (HD y Hy) as [Ly Py]. assert (PR : prop_rows (praw Facet_tag m x) (praw Facet_tag m y)) by (apply (prop_trans _ (rnorm (praw Facet_tag m x))); [apply prop_rnorm|rewrite E; apply prop_sym, prop_rnorm]).
    destruct PR as (a & b & Ha & Hb & EE). apply primitive_same; auto. exists a, b. split; auto. split; auto. apply (onto_rows n m); auto; rewrite ?vscale_length; auto.
    intros z Hz. rewrite !dot_vscale_l, <- !(FD m) by auto. rewrite <- !dot_vscale_l, EE. reflexivity. }
  clear HI HD HC. induction rows as [|x rows IH]; cbn [map]; [constructor|]. apply NoDup_cons_iff in HN as [N1 N2]. constructor.
  - intros K. apply in_map_iff in K as (y & E & Hy). apply INJ in E; [subst; auto|right; auto|left; auto].
  - apply IH; auto. intros a b Ha Hb. apply INJ; right; auto.
Qed.
(** If the listed rows have no common factor and every point is an image, the maps are symmetries of what the reduced section stands for. *)
Theorem C60_constraint_symmetric : forall n s L, maps_of_dimension n (s_maps s) -> (forall m, In m (s_maps s) -> onto n m) -> listed_inequalities (s_names s) L -> (forall k, In k L -> fst k = n) ->
  Forall (fun k => primitive (wide_row k)) L -> expanded_system s L -> equations_permuted s n -> constraint_symmetries s n.
Proof.
  intros n s L Hm H1 HL Hn HP (classes & HC & EI) HE m Hin. destruct (Hm m Hin) as (M1 & M2). split; auto. split; auto. split; [|apply HE; auto]. rewrite EI. clear EI HE. set (maps := s_maps s) in *.
  clear HL. revert classes HC. induction L as [|k L IH]; intros classes HC; inversion HC as [|? c ? cs HK HT]; subst; cbn [concat map]; [exists []; split; constructor|].
  apply Forall_cons_iff in HP as [Pk HP]. rewrite map_app. apply rearranges_app; [|apply IH; auto; intros; apply Hn; right; auto].
  assert (Lk : length (wide_row k) = S n) by (rewrite wide_row_length, (Hn k (or_introl eq_refl)); auto). assert (QP := facet_class_permuted n maps (wide_row k) c m Hm Lk HK Pk H1 Hin).
  apply (rearranges_map row_constraint (fun a b : vec => b = rnorm (praw Facet_tag m a))).
  2:{ exists (map (fun x => rnorm (praw Facet_tag m x)) c). split; auto. clear. induction c; constructor; auto. }
  intros a b Ha Hb ->. set (b := rnorm (praw Facet_tag m a)) in *. assert (CI := class_int Facet_tag maps (wide_row k) c HK). rewrite Forall_forall in CI. destruct (CI a Ha) as (La & Ia). destruct (CI b Hb) as (Lb & Ib). rewrite Lk in La, Lb.
  assert (Mi : map_in (length a) m) by (rewrite La; auto). destruct (proj2 (facet_step_iff m a b Mi) eq_refl) as (_ & _ & g & Hg & E).
  exists (inject_Z g). split; [change 0%Q with (inject_Z 0); rewrite <- Zlt_Qlt; auto|]. intros p Hp.
  assert (Lp : length (moved_by m p) = n) by (apply (moved_length n [m] p); auto; [intros m0 [<-|[]]; auto|]; apply (moved_first [m] m); [left; auto|constructor]).
  assert (AW : forall r q, length r = S n -> int_row r -> length q = n -> (affine r q == excess (snd (row_constraint r)) q)%Q).
  { intros r q Lr Ir Lq. assert (Hne : r <> []) by (intros ->; discriminate). rewrite <- (affine_wide Inequality (row_constraint r) n); auto; [rewrite row_constraint_row by auto; reflexivity|apply row_constraint_good; auto|]. unfold row_constraint. cbn [fst]. rewrite Lr. reflexivity. }
  rewrite <- !AW by auto. apply (rows_excess n); auto. rewrite <- La. auto.
Qed.
Print Assumptions C60_constraint_symmetric.

(** ** The whole program (C60) *)
(** The solutions of the file: the points that satisfy the equations, and all of whose images satisfy the listed inequalities. *)
Definition solves_all_images (s : system) (L : list wide) (p : list Q) : Prop := (forall k, In k (s_equations s) -> satisfies (snd k) p) /\ forall q k, moved (s_maps s) p q -> In k L -> satisfies (snd k) q.
Lemma solutions_expanded n s L p : maps_of_dimension n (s_maps s) -> listed_inequalities (s_names s) L -> (forall k, In k L -> fst k = n) -> expanded_system s L -> length p = n ->
  (all_satisfied (constraints_of s) p <-> solves_all_images s L p).
Proof.
  intros Hm HL Hn HE Hp. unfold solves_all_images. rewrite <- (C60_solutions n s L Hm HL Hn HE p Hp). unfold all_satisfied, constraints_of. split.
  - intros H. split; intros k Hk; apply H, in_map, in_app_iff; auto.
  - intros [H1 H2] k Hk. apply in_map_iff in Hk as (w & <- & Hk). apply in_app_iff in Hk as [Hk|Hk]; auto.
Qed.
Lemma expanded_fits n s L : (forall k, In k L -> fst k = n) -> expanded_system s L -> L <> [] -> (s_names s = [] \/ length (s_names s) = n) -> (s_dimension s = None \/ s_dimension s = Some (Z.of_nat n)) -> fits_together s n.
Proof.
  intros Hn (classes & HC & EI) Hne H1 H2. split; [|split; [|auto]].
  - rewrite EI. destruct L as [|k L]; [congruence|]. inversion HC as [|? c ? cs HK HT]; subst. destruct HK as (_ & _ & _ & HI & _). assert (Hr := proj2 (HI _) (reached_start _ _ _)). cbn [concat]. destruct c; [destruct Hr|]. discriminate.
  - rewrite EI. intros k Hk. apply in_map_iff in Hk as (b & <- & Hb). unfold row_constraint. cbn [fst]. clear - Hn HC Hb. revert classes HC Hb. induction L as [|k L IH]; intros classes HC Hb; inversion HC as [|? c ? cs HK HT]; subst; [destruct Hb|].
    cbn [concat] in Hb. apply in_app_iff in Hb as [Hb|Hb]; [|apply (IH ltac:(intros; apply Hn; right; auto) cs); auto]. assert (CI := class_int Facet_tag (s_maps s) (wide_row k) c HK). rewrite Forall_forall in CI. rewrite (proj1 (CI b Hb)), wide_row_length. cbn. apply Hn. left. auto.
Qed.
(** Vertex enumeration by double description: points and rays whose images generate exactly the solutions. *)
Theorem C60_vertices : forall t order fs args name so content s n L (F : list vec),
  t <> INT16 -> sort_order order -> Forall ordinary args -> chooses_method args DoubleDescription -> chooses_type args t ->
  asks args name so -> fs name = Some content -> early_keyword content -> system_text no_system (Some content) s -> ~ describes_hull content -> describes_system content ->
  (0 < n)%nat -> (s_names s = [] \/ length (s_names s) = n) -> (s_dimension s = None \/ s_dimension s = Some (Z.of_nat n)) -> equations_fit s n ->
  maps_of_dimension n (s_maps s) -> (forall m, In m (s_maps s) -> onto n m) -> listed_inequalities (s_names s) L -> (forall k, In k L -> fst k = n) -> L <> [] -> Forall (fun k => primitive (wide_row k)) L ->
  expanded_system s L -> equations_permuted s n -> pointed n (constraints_of s) ->
  m_fme (arith t) order (system_rows s so) = Ok F -> Forall negatable_row F ->
  exists fuel0, forall texts fuel hardware out, (fuel0 <= fuel)%nat -> m_main texts order fs fuel hardware args out (Status 0) ->
    exists vertices P rays R,
      out = vertex_text vertices rays (match P with [] => true | _ => false end) (match R with [] => true | _ => false end) (nonempty (s_maps s)) /\
      section_lines vertices P /\ section_lines rays R /\
      forall p : list Q, length p = n -> (solves_all_images s L p <-> hull_of_all n (image_points (s_maps s) P) (image_rays (s_maps s) R) p).
Proof.
  intros t order fs args name so content s n L F Ht Ho HO HM HT HA HF HK HX HS1 HS2 H0 Hd1 Hd2 He Hm H1 HL Hn Hne HP HE Hq HPt HFm BF.
  assert (Hsym := C60_constraint_symmetric n s L Hm H1 HL Hn HP HE Hq). assert (Hfit := expanded_fits n s L Hn HE Hne Hd1 Hd2).
  destruct (C53_vertices_reduced t order fs args name so content s n F) as (f0 & K); auto. exists f0. intros texts fuel hardware out Hf H.
  destruct (K texts fuel hardware out Hf H) as (vertices & P & rays & R & K1 & K2 & K3 & K4 & _). exists vertices, P, rays, R. split; auto. split; auto. split; auto. intros p Hp. rewrite <- (solutions_expanded n s L p) by auto. rewrite (K4 p Hp).
  split; intros (points & directions & A & B & C); exists points, directions; (split; [|split; [|exact C]]).
  - apply Forall_forall. intros q Hq'. destruct (A q Hq') as (q0 & Hin & Hmv). apply in_map_iff in Hin as (p0 & <- & Hin). exists p0. auto.
  - apply Forall_forall. intros q Hq'. destruct (B q Hq') as (q0 & Hin & Hmv). apply in_map_iff in Hin as (p0 & <- & Hin). exists p0. auto.
  - rewrite Forall_forall in A. intros q Hq'. destruct (A q Hq') as (p0 & Hin & Hmv). exists (coordinates_of p0). split; auto. apply in_map. auto.
  - rewrite Forall_forall in B. intros q Hq'. destruct (B q Hq') as (p0 & Hin & Hmv). exists (coordinates_of p0). split; auto. apply in_map. auto.
Qed.
Print Assumptions C60_vertices.

(** ** Reduced inequalities without maps (C60) *)
(** A text, read with these names, with a section of reduced inequalities before which no maps are declared. *)
Inductive no_maps_for (names : list text) : text -> Prop :=
| unmapped_constraints title lines P tail Q o : readable_names names -> keyword_line reduced_inequality_words title -> written (constraint_line names Inequality) lines P -> follows (constraint_line names Inequality) tail Q o ->
    no_maps_for names (title ++ newline :: lines ++ tail)
| unmapped_other line t : plain_line line \/ keyword_line end_words line -> no_maps_for names t -> no_maps_for names (line ++ newline :: t)
| unmapped_naming title body names' sp line r : keyword_line names_words title -> names_text body names' -> spaces sp -> sp <> [] -> keyword_line all_words line -> no_maps_for names' (sp ++ line ++ newline :: r) ->
    no_maps_for names (title ++ newline :: body ++ sp ++ line ++ newline :: r)
| unmapped_before type title lines P tail Q t : readable_names names -> keyword_line (match type with Equation => equation_words | Inequality => plain_inequality_words end) title ->
    written (constraint_line names type) lines P -> follows (constraint_line names type) tail Q (Some t) -> no_maps_for names t -> t <> [] -> no_maps_for names (title ++ newline :: lines ++ tail).
Lemma unmapped_throws_system names t : no_maps_for names t -> exists fuel0, forall fuel, (fuel0 <= fuel)%nat -> forall token d s, o_maps d = [] -> o_names d = names -> left_over s (Some t) -> t <> [] -> outer_loop fuel false token d s = Throw.
Proof.
  intros H. induction H as [names title lines P tail Q o HN HK HW HF|names line t HP HT IH|names title body names' sp line r HK HB Hsp Hne HL HT IH|names type title lines P tail Q t HN HK HW HF HT IH Hne].
  - destruct (section_rows names Inequality title lines P tail Q o HN (words_right _ _ _ HK) HW HF) as (s & E2 & Hs).
    exists 1%nat. intros fuel Hf token d s0 Hd Hd2 Hs0 _. destruct fuel as [|fuel]; [lia|]. destruct Hs0 as [->|[E _]]; [|destruct title; discriminate].
    destruct (title_advance reduced_inequality_words title token (lines ++ tail) eq_refl HK) as (w & Hw & E & Nn). cbn [outer_loop]. change (ok (opened (title ++ newline :: lines ++ tail))) with true. cbn [negb]. rewrite E. cbn [bind].
    change (ok (opened (title ++ newline :: lines ++ tail))) with true. cbn [negb].
    dispatch w Hw (fun w => negb (m_is_dimension (lit w)) && negb (m_is_names (lit w)) && negb (m_is_maps (lit w)) && negb (m_is_equations (lit w)) && negb (m_is_inequalities (lit w)) && m_is_reduced_inequalities (lit w)).
    unfold m_read_reduced_inequalities. rewrite Hd2, E2, Hd. cbn [bind]. unfold m_normalize_maps. cbn [mapM bind]. reflexivity.
  - assert (Ht : t <> []) by (destruct HT; destruct title || destruct line0; discriminate). destruct IH as (f0 & IH). exists (S (S f0)). intros fuel Hf token d s0 Hd Hd2 Hs0 _. destruct fuel as [|fuel]; [lia|]. destruct Hs0 as [->|[E _]]; [|destruct line; discriminate].
    destruct HP as [HP|HP]; [rewrite outer_skip by auto; apply IH; [lia|auto|auto|left; reflexivity|auto]|].
    destruct (title_advance end_words line token t eq_refl HP) as (w & Hw & E & Nn). cbn [outer_loop]. change (ok (opened (line ++ newline :: t))) with true. cbn [negb]. rewrite E. cbn [bind].
    change (ok (opened (line ++ newline :: t))) with true. cbn [negb].
    dispatch w Hw (fun w => negb (m_is_dimension (lit w)) && negb (m_is_names (lit w)) && negb (m_is_maps (lit w)) && negb (m_is_equations (lit w)) && negb (m_is_inequalities (lit w)) && negb (m_is_reduced_inequalities (lit w))).
    rewrite getline_newline by auto. apply IH; [lia|auto|auto|left; reflexivity|auto].
  - destruct IH as (f0 & IH). exists (S f0). intros fuel Hf token d s0 Hd Hd2 Hs0 _. destruct fuel as [|fuel]; [lia|]. destruct Hs0 as [->|[E _]]; [|destruct title; discriminate].
    destruct (title_advance names_words title token (body ++ sp ++ line ++ newline :: r) eq_refl HK) as (w & Hw & E & Nn). cbn [outer_loop].
    change (ok (opened (title ++ newline :: body ++ sp ++ line ++ newline :: r))) with true. cbn [negb]. rewrite E. cbn [bind].
    change (ok (opened (title ++ newline :: body ++ sp ++ line ++ newline :: r))) with true. cbn [negb].
    dispatch w Hw (fun w => negb (m_is_dimension (lit w)) && m_is_names (lit w)).
    rewrite (names_section_ok title body names' sp line r) by auto. cbn [bind fst snd]. apply IH; [lia|auto|auto|left; reflexivity|]. destruct sp; [congruence|discriminate].
  - destruct IH as (f0 & IH). destruct type.
    + destruct (section_rows names Equation title lines P tail Q (Some t) HN HK HW HF) as (s & E2 & Hs).
      exists (S f0). intros fuel Hf token d s0 Hd Hd2 Hs0 _. destruct fuel as [|fuel]; [lia|]. destruct Hs0 as [->|[E _]]; [|destruct title; discriminate].
      destruct (title_advance equation_words title token (lines ++ tail) eq_refl HK) as (w & Hw & E & Nn). cbn [outer_loop]. change (ok (opened (title ++ newline :: lines ++ tail))) with true. cbn [negb]. rewrite E. cbn [bind].
      change (ok (opened (title ++ newline :: lines ++ tail))) with true. cbn [negb].
      dispatch w Hw (fun w => negb (m_is_dimension (lit w)) && negb (m_is_names (lit w)) && negb (m_is_maps (lit w)) && m_is_equations (lit w)).
      rewrite Hd2, E2. cbn [bind fst snd]. apply IH; [lia|auto|auto|exact Hs|auto].
    + destruct (section_rows names Inequality title lines P tail Q (Some t) HN (words_left _ _ _ HK) HW HF) as (s & E2 & Hs).
      exists (S f0). intros fuel Hf token d s0 Hd Hd2 Hs0 _. destruct fuel as [|fuel]; [lia|]. destruct Hs0 as [->|[E _]]; [|destruct title; discriminate].
      destruct (title_advance plain_inequality_words title token (lines ++ tail) eq_refl HK) as (w & Hw & E & Nn). cbn [outer_loop]. change (ok (opened (title ++ newline :: lines ++ tail))) with true. cbn [negb]. rewrite E. cbn [bind].
      change (ok (opened (title ++ newline :: lines ++ tail))) with true. cbn [negb].
      dispatch w Hw (fun w => negb (m_is_dimension (lit w)) && negb (m_is_names (lit w)) && negb (m_is_maps (lit w)) && negb (m_is_equations (lit w)) && m_is_inequalities (lit w)).
      unfold m_read_inequalities. rewrite Hd2, E2. cbn [bind fst snd]. apply IH; [lia|auto|auto|exact Hs|auto].
Qed.
Theorem C60_constraints_refused : forall order fs args name so content, Forall ordinary args -> (exists m, chooses_method args m) -> (exists t, chooses_type args t) ->
  asks args name so -> fs name = Some content -> early_keyword content -> no_maps_for [] content -> ~ describes_hull content -> describes_system content ->
  exists fuel0, forall texts fuel hardware, (fuel0 <= fuel)%nat -> only_ends (m_main texts order fs fuel hardware args) [] (Status 1).
Proof.
  intros order fs args name so content HO (m & HM) (t & HT) HA HF HK HX HS1 HS2. destruct (unmapped_throws_system [] content HX) as (f0 & K). exists f0. intros texts fuel hardware Hf out e.
  destruct (C53_mode fs args name content HO (proj1 HA) HF) as (_ & _ & M). rewrite (main_mode texts order fs fuel hardware args _ (M (conj HS1 HS2))), (vertex_main order fs fuel hardware args m t HM HT).
  destruct (asks_file_ok args name so (asks_asks_file _ _ _ HA)) as (A1 & A3 & A4).
  assert (EI : m_input_inequalities fs fuel args = Throw).
  { unfold m_input_inequalities. rewrite A1. cbn [bind]. unfold m_open. rewrite HF. cbn [bind]. rewrite early_keyword_ok by auto. cbn [negb]. rewrite A3. rewrite (K fuel Hf [] no_outer); auto; [left; reflexivity|]. destruct HX; destruct title || destruct line; discriminate. }
  destruct m; unfold m_vertex_ad, m_vertex_program; rewrite EI; cbn [calco m_dd_ends m_caught]; reflexivity.
Qed.
Print Assumptions C60_constraints_refused.

(** *** Example: the quadrant x >= 0, y >= 0, of which one inequality is listed *)
Open Scope nat_scope.
Definition quadrant : text := line "Names:" ++ line "x y" ++ line "" ++ line "Maps:" ++ line "y x" ++ line "" ++ line "Reduced Inequalities:" ++ line "-x <= 0".
Definition quadrant_listed : list wide := [(2, {| terms := [(0, (-1)%Z)]; operator := LessEqual; constant := 0 |})].
Definition quadrant_system : system :=
  {| s_equations := []; s_inequalities := map row_constraint [[-1; 0; 0]; [0; -1; 0]]%Z; s_names := [lit "x"; lit "y"]; s_maps := [[[(1, 1%Z)]; [(0, 1%Z)]; [(2, 1%Z)]]]; s_dimension := None |}.
Lemma quadrant_class : class_of facet_step facet_load (s_maps quadrant_system) [-1; 0; 0]%Z [[-1; 0; 0]; [0; -1; 0]]%Z.
Proof.
  set (m := [[(1, 1%Z)]; [(0, 1%Z)]; [(2, 1%Z)]] : lmap).
  assert (S1 : forall a b : vec, length a = 3 -> facet_step m a b <-> b = rnorm (praw Facet_tag m a)) by (intros a b La; apply facet_step_iff; rewrite La; split; [reflexivity|repeat constructor]).
  assert (HR : forall x, reached facet_step (s_maps quadrant_system) [-1; 0; 0]%Z x <-> In x [[-1; 0; 0]; [0; -1; 0]]%Z).
  { intros x. split.
    - induction 1 as [|m' x y _ IH [<-|[]] Hs]; [left; reflexivity|]. change [[(1, 1%Z)]; [(0, 1%Z)]; [(2, 1%Z)]] with m in Hs. destruct IH as [<-|[<-|[]]]; apply S1 in Hs; auto; subst y; vm_compute; auto.
    - intros [<-|[<-|[]]]; [constructor|]. apply (reached_step _ _ _ m [-1; 0; 0]%Z); [constructor|left; reflexivity|]. apply S1; reflexivity. }
  split; [constructor; [split; [reflexivity|repeat constructor]|constructor]|]. split; [repeat constructor; cbv; discriminate|].
  split; [constructor; [constructor; constructor|constructor; [exists []; left; exists (-1)%Z, 0%Z, [0%Z; 0%Z], [(-1)%Z; 0%Z]; split; [reflexivity|split; [reflexivity|lia]]|constructor]]|]. split; [intros x; symmetry; apply HR|].
  intros x m' k Hx [<-|[]]. apply HR in Hx. destruct Hx as [<-|[<-|[]]]; destruct k as [|[|[|k]]]; vm_compute; discriminate.
Qed.
Lemma quadrant_text : system_text no_system (Some quadrant) quadrant_system.
Proof.
  apply (system_names no_system (lit "Names:") (lit "x y") [lit "x"; lit "y"] [newline; newline] (lit "Maps:") (line "y x" ++ line "" ++ line "Reduced Inequalities:" ++ line "-x <= 0"));
    try (apply keyword_itself; vm_compute; tauto); try discriminate; try apply xy_text.
  - repeat constructor.
  - assert (PL : MapInput.plain_line []). { destruct (plain_or_keyword [] ltac:(intros [])) as [H|H]; [exact H|discriminate H]. }
    apply (system_line _ []); [left; exact PL|]. apply (system_line _ []); [left; exact PL|].
    apply (system_maps _ (lit "Maps:") (line "y x" ++ line "") [[[(1, 1%Z)]; [(0, 1%Z)]]] (line "Reduced Inequalities:" ++ line "-x <= 0") [] (Some (line "Reduced Inequalities:" ++ line "-x <= 0"))); cbn [s_names].
    + apply xy_good.
    + apply keyword_itself. vm_compute. tauto.
    + apply (written_line _ (lit "y x") _ (line "") []); [exact exchange_line|apply (written_blank _ [] [] []); constructor].
    + apply (follows_keyword _ (lit "Reduced Inequalities:")); [apply keyword_itself; vm_compute; tauto|reflexivity].
    + apply (system_reduced _ (lit "Reduced Inequalities:") (line "-x <= 0") quadrant_listed [] [] None [[[-1; 0; 0]; [0; -1; 0]]]%Z); cbn [s_names s_equations s_maps].
      * exact xy_names.
      * apply keyword_itself. vm_compute. tauto.
      * apply (written_line _ (lit "-x <= 0")); [exact segment_left|constructor].
      * apply follows_end; constructor.
      * reflexivity.
      * discriminate.
      * constructor; [|constructor]. repeat (constructor; [split; [repeat constructor; intros []|reflexivity]|]). constructor.
      * constructor; [exact quadrant_class|constructor].
      * apply system_none.
Qed.
(** The hypotheses of C60_vertices and what the program prints; and the same file without the maps. *)
Example C60_constraint_example : forall texts,
  ~ describes_hull quadrant /\ describes_system quadrant /\ early_keyword quadrant /\ system_text no_system (Some quadrant) quadrant_system /\ equations_fit quadrant_system 2 /\ maps_of_dimension 2 (s_maps quadrant_system) /\
  (forall m, In m (s_maps quadrant_system) -> onto 2 m) /\ listed_inequalities (s_names quadrant_system) quadrant_listed /\ Forall (fun k => primitive (wide_row k)) quadrant_listed /\ expanded_system quadrant_system quadrant_listed /\
  equations_permuted quadrant_system 2 /\ pointed 2 (constraints_of quadrant_system) /\
  (exists F : list vec, m_fme (arith SAFE) sorted_order (system_rows quadrant_system NoSorting) = Ok F /\ Forall negatable_row F) /\
  only_ends (m_main texts sorted_order (one_file quadrant) 40 4 dd_args) (line "Reduced Vertices:" ++ line "0 0 " ++ line "Reduced Rays:" ++ line "  1  0") (Status 0) /\
  no_maps_for [] (line "Names:" ++ line "x y" ++ line "" ++ line "Reduced Inequalities:" ++ line "-x <= 0") /\
  only_ends (m_main texts sorted_order (one_file (line "Names:" ++ line "x y" ++ line "" ++ line "Reduced Inequalities:" ++ line "-x <= 0")) 40 4 dd_args) [] (Status 1).
Proof.
  intros texts. destruct asks_dd as (_ & D1 & D2).
  assert (M : ~ describes_hull quadrant /\ describes_system quadrant).
  { split.
    - intros [H|H]; revert H; apply not_said; exists false, false, true; (split; [vm_compute; reflexivity|auto]).
    - exists (lit "Reduced Inequalities:"). split; [|apply keyword_itself; vm_compute; tauto].
      exists (line "Names:" ++ line "x y" ++ line "" ++ line "Maps:" ++ line "y x" ++ line ""), (newline :: line "-x <= 0").
      split; [reflexivity|]. split; [right; eexists (line "Names:" ++ line "x y" ++ line "" ++ line "Maps:" ++ line "y x"); reflexivity|]. split; [right; eexists; reflexivity|cbn; intuition discriminate]. }
  destruct M as (M1 & M2). split; auto. split; auto. split.
  { exists (lit "Names:"). split; [exists [], (newline :: line "x y" ++ line "" ++ line "Maps:" ++ line "y x" ++ line "" ++ line "Reduced Inequalities:" ++ line "-x <= 0")|].
    - split; [reflexivity|]. split; [cbn; lia|]. split; [constructor|]. split; [cbn; intuition discriminate|]. right. eexists. reflexivity.
    - apply keyword_itself. vm_compute. tauto. }
  split; [exact quadrant_text|]. split; [intros k []|]. split. { intros m [<-|[]]. split; [split; [reflexivity|repeat constructor]|reflexivity]. }
  split. { intros m [<-|[]] [|a [|b [|]]] Hq; try discriminate. exists [b; a]. split; [reflexivity|]. unfold moved_by. cbn. constructor; [unfold inject_Z; lra|constructor; [unfold inject_Z; lra|constructor]]. }
  split. { split; [exact xy_names|]. constructor; [|constructor]. exists (lit "-x <= 0"). exact segment_left. }
  split. { constructor; [|constructor]. apply primitive_rgcd. reflexivity. }
  split. { exists [[[-1; 0; 0]; [0; -1; 0]]]%Z. split; [constructor; [exact quadrant_class|constructor]|reflexivity]. }
  split. { intros m Hm. exists []. split; constructor. }
  split. { intros [|a [|b [|]]] Hd H; try discriminate. assert (H1 := H _ (or_introl eq_refl)). assert (H2 := H _ (or_intror (or_introl eq_refl))). unfold linear_form, coordinate_of in H1, H2. cbn in H1, H2. unfold inject_Z in *.
    intros [|[|j]]; cbn [nth]; [lra|lra|destruct j; reflexivity]. }
  split; [eexists; split; [vm_compute; reflexivity|repeat constructor; unfold negatable_row; repeat constructor; lia]|]. split; [|split].
  - assert (MD : m_detect_mode (one_file quadrant) dd_args = Ok VertexEnumeration) by (vm_compute; reflexivity). intros out e.
    rewrite (main_mode texts sorted_order (one_file quadrant) 40 4 dd_args _ MD), (vertex_main sorted_order (one_file quadrant) 40 4 dd_args _ SAFE D1 D2).
    assert (E : m_vertex_program SAFE sorted_order (one_file quadrant) 40 dd_args = Some (line "Reduced Vertices:" ++ line "0 0 " ++ line "Reduced Rays:" ++ line "  1  0", Ok tt)) by (vm_compute; reflexivity). rewrite E, dd_ends. reflexivity.
  - assert (PL : MapInput.plain_line []). { destruct (plain_or_keyword [] ltac:(intros [])) as [H|H]; [exact H|discriminate H]. }
    apply (unmapped_naming [] (lit "Names:") (lit "x y") [lit "x"; lit "y"] [newline; newline] (lit "Reduced Inequalities:") (line "-x <= 0")); try (apply keyword_itself; vm_compute; tauto); try discriminate; try apply xy_text; [repeat constructor|].
    apply (unmapped_other _ []); [left; exact PL|]. apply (unmapped_other _ []); [left; exact PL|].
    apply (unmapped_constraints _ (lit "Reduced Inequalities:") (line "-x <= 0") quadrant_listed [] [] None); [exact xy_names|apply keyword_itself; vm_compute; tauto|apply (written_line _ (lit "-x <= 0")); [exact segment_left|constructor]|apply follows_end; constructor].
  - set (f := line "Names:" ++ line "x y" ++ line "" ++ line "Reduced Inequalities:" ++ line "-x <= 0"). assert (MD : m_detect_mode (one_file f) dd_args = Ok VertexEnumeration) by (vm_compute; reflexivity). intros out e.
    rewrite (main_mode texts sorted_order (one_file f) 40 4 dd_args _ MD), (vertex_main sorted_order (one_file f) 40 4 dd_args _ SAFE D1 D2).
    assert (E : m_vertex_program SAFE sorted_order (one_file f) 40 dd_args = Some ([], Throw)) by (vm_compute; reflexivity). rewrite E. reflexivity.
Qed.
