(** * PropertiesSame: the output of double description depends only on the set that the input describes (C65). *)
From Coq Require Import List ZArith QArith Arith Bool Ascii String Lia Lqa Permutation.
From Verif Require Import Base Spec LinAlg Cone ListUtil ArithModel MatrixModel FmeModel SafeIntModel IntTypes StreamModel StreamProofs InputModel ClassesModel ClassesProofs MapModel SortModel SortProofs PropertiesSort
  CliModel PropertiesCli IntLcm InputProofs VertexInput ConstraintModel ConstraintInput ConstraintSection PropertiesVertices PropertiesConstraints MapInput OutputModel OutputProofs PropertiesOutput FileModel FileProofs
  Hull Corners FmeCore FmePure FmePrepare FmeCorrect FmeRefine FmeTheorems DimTheorems PropertiesFme NormalForm GaussSame ConeSame PropertiesProgram HullSame FileInput SystemFile PropertiesFile PropertiesSystem Samples.
Import ListNotations.
Open Scope Z_scope.
Open Scope list_scope.

(** ** From sets of points to cones *)
Lemma far_along (a w v : vec) : length a = length w -> length v = length w -> (forall s, 0 <= s -> dot a (vadd w (vscale s v)) <= 0) -> dot a v <= 0.
Proof.
  intros La Lv H. destruct (Z_le_gt_dec (dot a v) 0) as [|K]; auto. exfalso. specialize (H (1 + Z.abs (dot a w)) ltac:(lia)). rewrite dot_vadd_r, dot_vscale_r in H by (rewrite ?vscale_length; congruence). nia.
Qed.
Lemma point_last n y : length y = S n -> 0 < nth n y 0 -> exists xs l, y = xs ++ [l] /\ length xs = n /\ 0 < l /\ Forall2 (fun q x => q * inject_Z l == inject_Z x)%Q (map (fun x => inject_Z x / inject_Z l)%Q xs) xs.
Proof.
  intros Hl Hp. destruct (row_split n y Hl) as (xs & b & -> & Hx & Hn & _). exists xs, b. rewrite Hn in Hp. split; auto. split; auto. split; auto. apply over. lia.
Qed.
Lemma cone_row n V v : dims n V -> In v V -> in_cone n V v.
Proof.
  intros HV Hv. apply farkas; auto; try (apply (dims_in n V); auto).
Qed.
Lemma cone_ray n V w v s : dims n V -> In w V -> In v V -> 0 <= s -> in_cone n V (vadd w (vscale s v)).
Proof.
  intros HV Hw Hv Hs. assert (Lw := dims_in n V w HV Hw). assert (Lv := dims_in n V v HV Hv). apply farkas; auto.
  - apply vadd_length_eq; auto. rewrite vscale_length; auto.
  - intros a La Ha. rewrite dot_vadd_r, dot_vscale_r by (rewrite ?vscale_length; congruence). assert (A := Ha w Hw). assert (B := Ha v Hv). nia.
Qed.
Lemma hull_included n (V1 V2 : list vec) : dims (S n) V1 -> dims (S n) V2 -> homogenised (S n) V1 -> homogenised (S n) V2 ->
  (forall p : list Q, length p = n -> hull n (points_of V1) (rays_of V1) p -> hull n (points_of V2) (rays_of V2) p) -> included (S n) V1 V2.
Proof.
  intros D1 D2 H1 H2 H v Hv. assert (Lv := dims_in _ _ v D1 Hv). destruct (proj2 H1) as (w & Hw & Pw). assert (Lw := dims_in _ _ w D1 Hw). apply farkas; auto. intros a La Va.
  apply (far_along a w v); try congruence. intros s Hs. assert (Ly : length (vadd w (vscale s v)) = S n) by (apply vadd_length_eq; rewrite ?vscale_length; auto).
  apply (in_cone_valid (S n) V2); auto. replace (S n - 1)%nat with n in Pw by lia.
  destruct (point_last n (vadd w (vscale s v)) Ly) as (xs & l & E & Hx & Hl & HX).
  { assert (B := proj1 H1 v Hv). replace (S n - 1)%nat with n in B by lia. rewrite nth_vadd by (rewrite vscale_length; congruence). rewrite nth_vscale. nia. }
  rewrite E. apply (hull_in_cone n V2 xs l _ (homogenised_rows n V2 D2 H2) Hx Hl HX). apply H; [rewrite map_length; auto|].
  apply (hull_in_cone n V1 xs l _ (homogenised_rows n V1 D1 H1) Hx Hl HX). rewrite <- E. apply cone_ray; auto.
Qed.
Lemma solutions_included n (A1 A2 : list vec) : dims (S n) A1 -> dims (S n) A2 -> In (unit_vec (S n) n (-1)) A2 -> (exists p : list Q, length p = n /\ solves A2 p) ->
  (forall p : list Q, length p = n -> solves A2 p -> solves A1 p) -> included (S n) A1 A2.
Proof.
  intros D1 D2 U2 (p0 & L0 & S0) H a Ha. assert (La := dims_in _ _ a D1 Ha). apply farkas; auto. intros y Ly Vy. rewrite dot_comm.
  destruct (clear_point p0) as (l0 & xs0 & P0 & X0). assert (Lx0 : length xs0 = n) by (rewrite <- (forall2_length _ _ _ X0); auto). assert (W := proj1 (solution_rows n A2 p0 xs0 l0 D2 Lx0 P0 X0) S0).
  assert (Y : solution (S n) A2 y) by (split; auto; intros b Hb; rewrite dot_comm; apply Vy; auto).
  destruct (solution_last n A2 y U2 Y) as (ys & c & Ey & Lys & Pc).
  assert (Lw : length (xs0 ++ [l0]) = S n) by (rewrite app_length; cbn; lia).
  apply (far_along a (xs0 ++ [l0]) y); try congruence. intros s Hs. assert (Z2 := solution_plus (S n) A2 _ _ D2 W (solution_times (S n) A2 s y Hs Y)).
  destruct (point_last n (vadd (xs0 ++ [l0]) (vscale s y)) (proj1 Z2)) as (xs & l & E & Hx & Hl & HX).
  { rewrite nth_vadd by (rewrite vscale_length; congruence). rewrite nth_vscale, Ey, !app_nth2 by lia. rewrite Lys, Lx0, Nat.sub_diag. cbn [nth]. nia. }
  rewrite E in *. assert (K := H _ ltac:(rewrite map_length; exact Hx) (proj2 (solution_rows n A2 _ xs l D2 Hx Hl HX) Z2)). apply (proj1 (solution_rows n A1 _ xs l D1 Hx Hl HX) K); auto.
Qed.

(** ** C65: rows *)
(** Two lists of generators of the same cone, with any order of elimination: the same equations, as identical lists, and the same set of facet rows. *)
Theorem C65_rows : forall t1 t2 o1 o2 n (V1 V2 E1 E2 F1 F2 : list vec), t1 <> INT16 -> t2 <> INT16 -> sort_order o1 -> sort_order o2 ->
  rows_representable t1 V1 -> rows_representable t2 V2 -> dims n V1 -> dims n V2 -> homogenised n V1 -> homogenised n V2 ->
  (forall x, in_cone n V1 x <-> in_cone n V2 x) ->
  m_extract_equations (arith t1) V1 = Ok E1 -> m_extract_equations (arith t2) V2 = Ok E2 -> m_fme (arith t1) o1 V1 = Ok F1 -> m_fme (arith t2) o2 V2 = Ok F2 ->
  E1 = E2 /\ forall f, In f F1 <-> In f F2.
Proof.
  intros t1 t2 o1 o2 n V1 V2 E1 E2 F1 F2 T1 T2 O1 O2 R1 R2 D1 D2 H1 H2 HC HE1 HE2 HF1 HF2.
  destruct (homogenised_pos n V1 D1 H1) as (A1 & A2 & A3). destruct (homogenised_pos n V2 D2 H2) as (B1 & B2 & B3).
  assert (I12 : included n V1 V2) by (intros v Hv; apply HC, cone_row; auto). assert (I21 : included n V2 V1) by (intros v Hv; apply HC, cone_row; auto).
  assert (X : forall V, homogenised n V -> exists v, In v V /\ nth (n - 1) v 0 <> 0) by (intros V (_ & v & Hv & P); exists v; split; auto; lia).
  rewrite (result_equations t1 n V1 T1 R1 D1 E1 A2 A1 HE1), (result_equations t2 n V2 T2 R2 D2 E2 B2 B1 HE2). split; [apply (eqs_included n V1 V2); auto|].
  rewrite (result_fme t1 o1 n V1 T1 O1 R1 D1 F1 A3 HF1), (result_fme t2 o2 n V2 T2 O2 R2 D2 F2 B3 HF2). intros f. split; apply rows_included; auto.
Qed.
Print Assumptions C65_rows.

(** ** C65: calls *)
(** Facet enumeration by double description, for two lists of points and rays with the same hull, the same names and the same maps (in whatever order the elimination proceeds): unless an overflow
    stops one of the computations, the same text is printed, character by character, and the program ends in the same way. *)
Theorem C65_facets : forall t o1 o2 n (V1 V2 E1 E2 F1 F2 : list vec) names maps fuel, t <> INT16 -> sort_order o1 -> sort_order o2 ->
  rows_representable t V1 -> rows_representable t V2 -> dims (S n) V1 -> dims (S n) V2 -> homogenised (S n) V1 -> homogenised (S n) V2 ->
  (forall p : list Q, length p = n -> (hull n (points_of V1) (rays_of V1) p <-> hull n (points_of V2) (rays_of V2) p)) ->
  m_extract_equations (arith t) V1 = Ok E1 -> m_extract_equations (arith t) V2 = Ok E2 -> m_fme (arith t) o1 V1 = Ok F1 -> m_fme (arith t) o2 V2 = Ok F2 ->
  m_facet_call t o1 fuel V1 names maps = m_facet_call t o2 fuel V2 names maps.
Proof.
  intros t o1 o2 n V1 V2 E1 E2 F1 F2 names maps fuel Ht O1 O2 R1 R2 D1 D2 H1 H2 HH HE1 HE2 HF1 HF2.
  destruct (homogenised_pos (S n) V1 D1 H1) as (A1 & A2 & A3). destruct (homogenised_pos (S n) V2 D2 H2) as (B1 & B2 & B3).
  assert (I12 : included (S n) V1 V2) by (apply hull_included; auto; intros; apply HH; auto). assert (I21 : included (S n) V2 V1) by (apply hull_included; auto; intros; apply HH; auto).
  assert (X : forall V, homogenised (S n) V -> exists v, In v V /\ nth (S n - 1) v 0 <> 0) by (intros V (_ & v & Hv & P); exists v; split; auto; lia).
  assert (EE : E1 = E2) by (rewrite (result_equations t (S n) V1 Ht R1 D1 E1 A2 A1 HE1), (result_equations t (S n) V2 Ht R2 D2 E2 B2 B1 HE2); apply (eqs_included (S n) V1 V2); auto).
  assert (EF : forall f, In f F1 <-> In f F2) by (rewrite (result_fme t o1 (S n) V1 Ht O1 R1 D1 F1 A3 HF1), (result_fme t o2 (S n) V2 Ht O2 R2 D2 F2 B3 HF2); intros f; split; apply rows_included; auto).
  unfold m_facet_call. change (num (arith t)) with Z in *. rewrite HE1, HE2, EE. destruct (m_normalize_maps t E2 maps) as [reduced| |]; auto.
  rewrite HF1, HF2. cbn [bind]. rewrite (classes_of_same t fuel Facet_tag reduced F1 F2 EF). reflexivity.
Qed.
Print Assumptions C65_facets.
(** Vertex enumeration by double description, for two systems of inequalities with the same solutions, if there are any. *)
Theorem C65_vertices : forall t o1 o2 n (A1 A2 F1 F2 : list vec) maps fuel, t <> INT16 -> sort_order o1 -> sort_order o2 ->
  rows_representable t A1 -> rows_representable t A2 -> dims (S n) A1 -> dims (S n) A2 -> In (unit_vec (S n) n (-1)) A1 -> In (unit_vec (S n) n (-1)) A2 ->
  (exists p : list Q, length p = n /\ solves A1 p) -> (forall p : list Q, length p = n -> (solves A1 p <-> solves A2 p)) ->
  m_fme (arith t) o1 A1 = Ok F1 -> m_fme (arith t) o2 A2 = Ok F2 ->
  m_vertex_call t o1 fuel A1 maps = m_vertex_call t o2 fuel A2 maps.
Proof.
  intros t o1 o2 n A1 A2 F1 F2 maps fuel Ht O1 O2 R1 R2 D1 D2 U1 U2 (p0 & L0 & S0) HS HF1 HF2.
  assert (I12 : included (S n) A1 A2) by (apply solutions_included; auto; [exists p0; split; auto; apply HS; auto|intros; apply HS; auto]).
  assert (I21 : included (S n) A2 A1) by (apply solutions_included; auto; [exists p0; auto|intros; apply HS; auto]).
  assert (X : forall A : list vec, In (unit_vec (S n) n (-1)) A -> exists v, In v A /\ nth (S n - 1) v 0 <> 0).
  { intros A U. exists (unit_vec (S n) n (-1)). split; auto. rewrite <- trivial_unit. replace (S n - 1)%nat with n by lia. rewrite app_nth2 by (rewrite repeat_length; lia). rewrite repeat_length, Nat.sub_diag. cbn. lia. }
  assert (N : forall A : list vec, In (unit_vec (S n) n (-1)) A -> nonzero (S n) A).
  { intros A U. destruct (X A U) as (v & Hv & K). exists v. split; auto. intros ->. apply K. apply nth_vzero. }
  assert (EF : forall f, In f F1 <-> In f F2) by (rewrite (result_fme t o1 (S n) A1 Ht O1 R1 D1 F1 (N A1 U1) HF1), (result_fme t o2 (S n) A2 Ht O2 R2 D2 F2 (N A2 U2) HF2); intros f; split; apply rows_included; auto).
  unfold m_vertex_call. change (num (arith t)) with Z in *. rewrite HF1, HF2. cbn [bind]. rewrite (classes_of_same t fuel Vertex_tag maps F1 F2 EF). reflexivity.
Qed.
Print Assumptions C65_vertices.

(** ** C65: files *)
(** Two files with points and rays that have the same hull, with the same names and maps, in whatever order and however often the points and rays are listed, whatever the length of the rays,
    and whatever sorting is asked for: double description prints the same text for both. *)
Theorem C65_facet_files : forall t o1 o2 fs1 args1 name1 so1 content1 c1 fs2 args2 name2 so2 content2 c2 n (E1 E2 F1 F2 : list vec), t <> INT16 -> sort_order o1 -> sort_order o2 ->
  asks args1 name1 so1 -> fs1 name1 = Some content1 -> early_keyword content1 -> file_text nothing (Some content1) c1 -> agree c1 n -> c_points c1 <> [] ->
  asks args2 name2 so2 -> fs2 name2 = Some content2 -> early_keyword content2 -> file_text nothing (Some content2) c2 -> agree c2 n -> c_points c2 <> [] ->
  c_names c1 = c_names c2 -> c_maps c1 = c_maps c2 ->
  (forall p : list Q, length p = n ->
    (hull n (map coordinates_of (c_points c1)) (map coordinates_of (c_rays c1)) p <-> hull n (map coordinates_of (c_points c2)) (map coordinates_of (c_rays c2)) p)) ->
  m_extract_equations (arith t) (file_rows c1 so1) = Ok E1 -> m_fme (arith t) o1 (file_rows c1 so1) = Ok F1 ->
  m_extract_equations (arith t) (file_rows c2 so2) = Ok E2 -> m_fme (arith t) o2 (file_rows c2 so2) = Ok F2 ->
  exists fuel0, forall fuel, (fuel0 <= fuel)%nat -> m_facet_program t o1 fs1 fuel args1 = m_facet_program t o2 fs2 fuel args2.
Proof.
  intros t o1 o2 fs1 args1 name1 so1 content1 c1 fs2 args2 name2 so2 content2 c2 n E1 E2 F1 F2 Ht O1 O2 HA1 HF1 HK1 HT1 HG1 Hne1 HA2 HF2 HK2 HT2 HG2 Hne2 EN EM HH X1 Y1 X2 Y2.
  assert (S1 := file_is_sane (Some content1) c1 HT1). assert (S2 := file_is_sane (Some content2) c2 HT2).
  destruct (file_rows_facts c1 so1 n S1 HG1 Hne1) as (P1 & D1 & H1 & R1). destruct (file_rows_facts c2 so2 n S2 HG2 Hne2) as (P2 & D2 & H2 & R2).
  destruct (input_vertices_ok fs1 args1 name1 so1 content1 c1 HA1 HF1 HK1 HT1) as (f1 & K1). destruct (input_vertices_ok fs2 args2 name2 so2 content2 c2 HA2 HF2 HK2 HT2) as (f2 & K2).
  assert (HC : forall c, sane c -> agree c n -> m_consistent_vertices (map point_row (c_points c)) (map ray_row (c_rays c)) (c_names c) (c_maps c) (match c_dimension c with Some d => d | None => size_max end) = Ok tt).
  { intros c HS HG. apply consistent_iff; [|apply agree_iff; eauto]. destruct HS as (_ & _ & Hd). destruct (c_dimension c); unfold size_max in *; lia. }
  exists (f1 + f2)%nat. intros fuel Hf. unfold m_facet_program. rewrite (K1 fuel), (K2 fuel), (HC c1 S1 HG1), (HC c2 S2 HG2) by lia. cbn [calco]. rewrite !cast_rows_same, EN, EM by auto.
  apply (C65_facets t o1 o2 n (file_rows c1 so1) (file_rows c2 so2) E1 E2 F1 F2); auto. intros p Hp.
  rewrite (rows_hull n (c_points c1) (c_rays c1) _ p ltac:(apply S1) ltac:(apply S1) P1), (rows_hull n (c_points c2) (c_rays c2) _ p ltac:(apply S2) ltac:(apply S2) P2). apply HH; auto.
Qed.
Print Assumptions C65_facet_files.
(** Two files with systems of equations and inequalities that have the same solutions, if there are any, and the same maps. *)
Theorem C65_vertex_files : forall t o1 o2 fs1 args1 name1 so1 content1 s1 fs2 args2 name2 so2 content2 s2 n (F1 F2 : list vec), t <> INT16 -> sort_order o1 -> sort_order o2 ->
  asks args1 name1 so1 -> fs1 name1 = Some content1 -> early_keyword content1 -> system_text no_system (Some content1) s1 -> fits_together s1 n -> equations_fit s1 n ->
  asks args2 name2 so2 -> fs2 name2 = Some content2 -> early_keyword content2 -> system_text no_system (Some content2) s2 -> fits_together s2 n -> equations_fit s2 n ->
  s_maps s1 = s_maps s2 -> (exists p : list Q, length p = n /\ all_satisfied (constraints_of s1) p) ->
  (forall p : list Q, length p = n -> (all_satisfied (constraints_of s1) p <-> all_satisfied (constraints_of s2) p)) ->
  m_fme (arith t) o1 (system_rows s1 so1) = Ok F1 -> m_fme (arith t) o2 (system_rows s2 so2) = Ok F2 ->
  exists fuel0, forall fuel, (fuel0 <= fuel)%nat -> m_vertex_program t o1 fs1 fuel args1 = m_vertex_program t o2 fs2 fuel args2.
Proof.
  intros t o1 o2 fs1 args1 name1 so1 content1 s1 fs2 args2 name2 so2 content2 s2 n F1 F2 Ht O1 O2 HA1 HF1 HK1 HT1 HG1 He1 HA2 HF2 HK2 HT2 HG2 He2 EM (p0 & L0 & S0) HH Y1 Y2.
  assert (S1 := system_sound _ _ _ HT1 no_system_sound). assert (S2 := system_sound _ _ _ HT2 no_system_sound).
  destruct (system_rows_facts s1 so1 n HG1 He1 S1) as (D1 & U1 & R1). destruct (system_rows_facts s2 so2 n HG2 He2 S2) as (D2 & U2 & R2).
  destruct (input_inequalities_ok fs1 args1 name1 so1 content1 s1 HA1 HF1 HK1 HT1) as (f1 & K1). destruct (input_inequalities_ok fs2 args2 name2 so2 content2 s2 HA2 HF2 HK2 HT2) as (f2 & K2).
  assert (C1 := proj2 (fits_together_iff s1 S1) (ex_intro _ n HG1)). assert (C2 := proj2 (fits_together_iff s2 S2) (ex_intro _ n HG2)).
  exists (f1 + f2)%nat. intros fuel Hf. unfold m_vertex_program. rewrite (K1 fuel), (K2 fuel), C1, C2 by lia. cbn [calco]. rewrite !cast_rows_same, EM by auto.
  apply (C65_vertices t o1 o2 n (system_rows s1 so1) (system_rows s2 so2) F1 F2); auto.
  - exists p0. split; auto. apply (solves_system s1 so1 n); auto.
  - intros p Hp. rewrite (solves_system s1 so1 n p), (solves_system s2 so2 n p) by auto. apply HH; auto.
Qed.
Print Assumptions C65_vertex_files.

(** ** Examples *)
(** The half strip of C48_example once more, with other points and another ray in another order: the same text is printed. *)
Definition half_strip_again : text := line "Names:" ++ line "x y" ++ line "" ++ line "Vertices:" ++ line "1/2 1" ++ line "1/2 0" ++ line "0 0" ++ line "1/2 1" ++ line "" ++ line "Rays:" ++ line "0 2".
Definition half_strip_again_contents : contents :=
  {| c_points := [[(1, 2); (1, 1)]; [(1, 2); (0, 1)]; [(0, 1); (0, 1)]; [(1, 2); (1, 1)]]; c_rays := [[(0, 1); (2, 1)]]; c_names := [lit "x"; lit "y"]; c_maps := []; c_dimension := None |}.
Lemma half_and b y : forallb is_digit (lit b) = true -> lit b <> [] -> decimal (lit b) = y -> -1000 <= y <= 1000 -> coordinates (lit "1/2" ++ lit " " ++ lit b) [(1, 2); (y, 1)].
Proof.
  intros H1 H2 H3 H4. apply (coordinates_more (lit "1/2") 1 2 (lit " ") (lit b)); [|repeat constructor|discriminate|].
  - apply (coordinate_fraction (lit "1") 1 [] [] (lit "2") 2); try (apply small_int; lia); try constructor; try lia; try discriminate; repeat constructor.
  - rewrite <- (app_nil_r (lit b)). apply (coordinates_last (lit b) y 1 []); [apply whole_coordinate; auto|constructor].
Qed.
Lemma half_strip_again_text : file_text nothing (Some half_strip_again) half_strip_again_contents.
Proof.
  assert (FW : forall c, Forall (fun d => is_space d = false) [c] -> forallb (fun w => negb (text_eqb [c] (lit w))) all_words = true -> free_word [c]).
  { intros c H1 H2. split; [split; [discriminate|auto]|]. intros w Hw E. rewrite forallb_forall in H2. specialize (H2 w Hw). rewrite <- E in H2. destruct (text_eqb_spec [c] [c]); [discriminate|congruence]. }
  assert (KL : forall words w, In w words -> keyword_line words (lit w)) by (intros words w Hw; exists [], w, []; rewrite app_nil_r; repeat split; auto; constructor).
  apply (file_names nothing (lit "Names:") (lit "x y") [lit "x"; lit "y"] [newline; newline] (lit "Vertices:") (line "1/2 1" ++ line "1/2 0" ++ line "0 0" ++ line "1/2 1" ++ line "" ++ line "Rays:" ++ line "0 2"));
    try (apply KL; cbn; tauto); try discriminate.
  - apply (names_cons [] (lit "x") (lit " y") [lit "y"]); [constructor|apply FW; [repeat constructor|reflexivity]|reflexivity|].
    apply (names_cons (lit " ") (lit "y") [] []); [repeat constructor|apply FW; [repeat constructor|reflexivity]|reflexivity|constructor].
  - repeat constructor.
  - assert (PL : plain_line []). { destruct (plain_or_keyword [] ltac:(intros [])) as [H|H]; [exact H|discriminate H]. }
    apply (file_line _ []); [left; exact PL|]. apply (file_line _ []); [left; exact PL|].
    apply (file_points _ (lit "Vertices:") (line "1/2 1" ++ line "1/2 0" ++ line "0 0" ++ line "1/2 1" ++ line "") (c_points half_strip_again_contents) (line "Rays:" ++ line "0 2") [] (Some (line "Rays:" ++ line "0 2"))).
    + apply KL; cbn; tauto.
    + apply (section_point [] (lit "1/2 1") [(1, 2); (1, 1)] (line "1/2 0" ++ line "0 0" ++ line "1/2 1" ++ line "")); [repeat constructor|apply (half_and "1" 1); try reflexivity; try discriminate; lia|].
      apply (section_point [] (lit "1/2 0") [(1, 2); (0, 1)] (line "0 0" ++ line "1/2 1" ++ line "")); [repeat constructor|apply (half_and "0" 0); try reflexivity; try discriminate; lia|].
      apply (section_point [] (lit "0 0") [(0, 1); (0, 1)] (line "1/2 1" ++ line "")); [repeat constructor|apply (two_wholes "0" "0" 0 0); try reflexivity; try discriminate; lia|].
      apply (section_point [] (lit "1/2 1") [(1, 2); (1, 1)] (line "")); [repeat constructor|apply (half_and "1" 1); try reflexivity; try discriminate; lia|apply (section_blank [] []); [constructor|constructor]].
    + apply (follow_keyword (lit "Rays:") (line "0 2")). apply KL. cbn. tauto.
    + exists (map (row_of false) (c_points half_strip_again_contents)). split; [|repeat constructor; cbv; discriminate].
      repeat (constructor; [apply represents_iff; [repeat constructor; try (apply small_int; cbn; lia); discriminate|reflexivity]|]). constructor.
    + apply (file_rays _ (lit "Rays:") (line "0 2") [[(0, 1); (2, 1)]] [] [] None).
      * apply KL; cbn; tauto.
      * apply (section_point [] (lit "0 2") [(0, 1); (2, 1)] []); [repeat constructor|apply (two_wholes "0" "2" 0 2); try reflexivity; try discriminate; lia|constructor].
      * apply follow_end. constructor. constructor.
      * exists (map (row_of true) [[(0, 1); (2, 1)]]). split; [|repeat constructor; cbv; discriminate].
        constructor; [|constructor]; (apply represents_ray_iff; [|split; [reflexivity|cbv; split; discriminate]]); repeat constructor; try (apply small_int; cbn; lia); discriminate.
      * apply file_none.
Qed.
Lemma half_strip_hulls p : length p = 2%nat ->
  (hull 2 (map coordinates_of (c_points half_strip_contents)) (map coordinates_of (c_rays half_strip_contents)) p <->
   hull 2 (map coordinates_of (c_points half_strip_again_contents)) (map coordinates_of (c_rays half_strip_again_contents)) p).
Proof.
  intros _. split; intros (mus & nus & L1 & L2 & P1 & P2 & S & H).
  - destruct mus as [|a [|b [|? ?]]]; try discriminate L1. destruct nus as [|c [|? ?]]; try discriminate L2. rewrite Forall_forall in P1, P2. cbn [In] in P1, P2. assert (Pa := P1 a ltac:(auto)). assert (Pb := P1 b ltac:(auto)). assert (Pc := P2 c ltac:(auto)). exists [0%Q; b; a; 0%Q], [(c / 2)%Q].
    assert (Ph : (0 <= c / 2)%Q) by (apply Qle_shift_div_l; lra).
    split; auto. split; auto. split; [repeat (constructor; [lra|]); constructor|]. split; [repeat (constructor; [lra|]); constructor|]. split; [revert S; cbn; intros S; lra|]. intros j Hj. rewrite <- (H j Hj). destruct j as [|[|j]]; [| |lia]; cbn; field.
  - destruct mus as [|a [|b [|c [|d [|? ?]]]]]; try discriminate L1. destruct nus as [|e [|? ?]]; try discriminate L2. rewrite Forall_forall in P1, P2. cbn [In] in P1, P2.
    assert (Pa := P1 a ltac:(auto)). assert (Pb := P1 b ltac:(auto)). assert (Pc := P1 c ltac:(auto)). assert (Pd := P1 d ltac:(auto)). assert (Pe := P2 e ltac:(auto)). exists [c; (a + b + d)%Q], [(a + d + 2 * e)%Q].
    split; auto. split; auto. split; [repeat (constructor; [lra|]); constructor|]. split; [repeat (constructor; [lra|]); constructor|]. split; [revert S; cbn; intros S; lra|]. intros j Hj. rewrite <- (H j Hj). destruct j as [|[|j]]; [| |lia]; cbn; field.
Qed.
Lemma names_first l r : early_keyword (line "Names:" ++ l ++ r).
Proof.
  exists (lit "Names:"). split; [exists [], (newline :: l ++ r)|].
  - split; [reflexivity|]. split; [cbn; lia|]. split; [constructor|]. split; [cbn; intuition discriminate|]. right. eexists. reflexivity.
  - exists [], "Names:"%string, []. split; [reflexivity|]. split; [vm_compute; tauto|]. split; constructor.
Qed.
Example C65_facet_files_example :
  (exists fuel0, forall fuel, (fuel0 <= fuel)%nat -> m_facet_program SAFE sorted_order (one_file half_strip) fuel [lit "f"] = m_facet_program SAFE sorted_order (one_file half_strip_again) fuel [lit "f"]) /\
  file_rows half_strip_contents NoSorting <> file_rows half_strip_again_contents NoSorting /\
  m_facet_program SAFE sorted_order (one_file half_strip_again) 20 [lit "f"] = Some (line "Inequalities:" ++ line "-x <= 0" ++ line "-y <= 0" ++ line "2x <= 1", Ok tt).
Proof.
  split; [|split; [vm_compute; discriminate|vm_compute; reflexivity]].
  assert (G : forall c, c_points c <> [] -> (forall p, In p (c_points c ++ c_rays c) -> length p = 2%nat) -> c_maps c = [] -> c_names c = [lit "x"; lit "y"] -> c_dimension c = None -> agree c 2).
  { intros c H1 H2 H3 H4 H5. split; [intros E; apply app_eq_nil in E as [E _]; auto|]. split; auto. rewrite H3, H4, H5. split; [intros m []|]. split; [right; reflexivity|left; reflexivity]. }
  apply (C65_facet_files SAFE sorted_order sorted_order (one_file half_strip) [lit "f"] (lit "f") NoSorting half_strip half_strip_contents (one_file half_strip_again) [lit "f"] (lit "f") NoSorting half_strip_again
    half_strip_again_contents 2 [] [] [[-1; 0; 0]; [0; -1; 0]; [2; 0; -1]] (match m_fme (arith SAFE) sorted_order (file_rows half_strip_again_contents NoSorting) with Ok F => F | _ => [] end)); try discriminate; try reflexivity; try apply sorted_order_ok; try apply asks_plain; try apply names_first;
    try apply half_strip_text; try apply half_strip_again_text; try apply half_strip_hulls.
  - apply G; try discriminate; try reflexivity. cbn. intuition (subst; reflexivity).
  - apply G; try discriminate; try reflexivity. cbn. intuition (subst; reflexivity).
Qed.
(** A triangle, and the same triangle with its inequalities in another order, multiplied, and with a redundant one. *)
Definition triangle_system : list vec := [[-1; 0; 0]; [0; -1; 0]; [1; 1; -1]; [0; 0; -1]].
Definition triangle_again : list vec := [[1; 0; -1]; [2; 2; -2]; [0; -3; 0]; [-1; 0; 0]; [0; 0; -1]].
Example C65_vertices_example : forall fuel maps, m_vertex_call SAFE sorted_order fuel triangle_system maps = m_vertex_call SAFE sorted_order fuel triangle_again maps.
Proof.
  assert (R : forall l : list vec, Forall (Forall int_range) l -> rows_representable SAFE l) by (intros l H; eapply Forall_impl; [|exact H]; intros r Hr; eapply Forall_impl; [|exact Hr]; intros z Hz; apply int_representable; [discriminate|auto]).
  assert (D : forall l : list vec, forallb (fun r => (length r =? 3)%nat && forallb (fun z => (-9 <=? z) && (z <=? 9)) r) l = true -> dims 3 l /\ Forall (Forall int_range) l).
  { intros l H. split; apply Forall_forall; intros r Hr; rewrite forallb_forall in H; specialize (H r Hr); apply andb_true_iff in H as [H1 H2]; [apply Nat.eqb_eq; auto|].
    apply Forall_forall. intros z Hz. rewrite forallb_forall in H2. specialize (H2 z Hz). apply small_int. lia. }
  destruct (D triangle_system eq_refl) as [D1 I1]. destruct (D triangle_again eq_refl) as [D2 I2].
  intros fuel maps. apply (C65_vertices SAFE sorted_order sorted_order 2 triangle_system triangle_again [[1; 0; 1]; [0; 1; 1]; [0; 0; 1]] [[1; 0; 1]; [0; 1; 1]; [0; 0; 1]] maps fuel); auto; try discriminate; try apply sorted_order_ok.
  - right. right. right. left. reflexivity.
  - right. right. right. right. left. reflexivity.
  - exists [0%Q; 0%Q]. split; auto. intros a [<-|[<-|[<-|[<-|[]]]]]; vm_compute; discriminate.
  - intros [|x [|y [|? ?]]] Hp; try discriminate Hp. split; intros H.
    + assert (A := H _ (or_introl eq_refl)). assert (B := H _ (or_intror (or_introl eq_refl))). assert (C := H _ (or_intror (or_intror (or_introl eq_refl)))). cbn in A, B, C. unfold inject_Z in A, B, C.
      intros a [<-|[<-|[<-|[<-|[<-|[]]]]]]; cbn; unfold inject_Z; lra.
    + assert (A := H _ (or_intror (or_introl eq_refl))). assert (B := H _ (or_intror (or_intror (or_introl eq_refl)))). assert (C := H _ (or_intror (or_intror (or_intror (or_introl eq_refl))))). cbn in A, B, C. unfold inject_Z in A, B, C.
      intros a [<-|[<-|[<-|[<-|[]]]]]; cbn; unfold inject_Z; lra.
Qed.
