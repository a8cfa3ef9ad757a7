(** * PropertiesMapFile: facet and vertex enumeration of a whole file with maps (C48, C50). *)
From Coq Require Import List ZArith QArith Arith Bool Ascii String Lia Lqa Permutation.
From Verif Require Import Base Spec LinAlg Cone ListUtil ArithModel MatrixModel FmeModel SafeIntModel IntTypes RowLcm StreamModel StreamProofs InputModel InputProofs ClassesModel
  ConstraintModel ConstraintInput ConstraintSection PropertiesVertices PropertiesConstraints OutputModel OutputProofs PropertiesOutput Hull Corners FmeCore FmePure FmePrepare FmeCorrect FmeRefine FmeTheorems DimTheorems NormTheorems
  Samples ClassesProofs ApplyTheorems OrbitTheorems OrbitExact PropertiesMaps PropertiesFme MapModel PropertiesProgram PropertiesRotation PropertiesValidity
  NormalForm Symmetry AdTheorems Adjacency MapNormalize PropertiesNormalize PropertiesAd VertexInput SortModel SortProofs PropertiesSort CliModel FileModel FileProofs FileInput SystemFile HullSame PropertiesFile PropertiesSystem VertexSymmetry VertexImages PropertiesReduced.
Import ListNotations.
Open Scope Z_scope.
Open Scope list_scope.

(** ** Facets *)
(** The maps of the file permute the points of the file, and they permute the rays up to their length.  A map has an image for each of the [n] coordinates (and, last, for the constant 1);
    an image has terms (coordinate, coefficient), where coordinate [n] is the constant. *)
Definition rearranges {X} (R : X -> X -> Prop) (V : list X) : Prop := exists W, Forall2 R V W /\ Permutation W V.
Definition file_symmetries (c : contents) (n : nat) : Prop := forall m, In m (c_maps c) ->
  map_in (S n) m /\ nth n m [] = [(n, 1)] /\
  rearranges (fun p q => same_point (moved_by m (coordinates_of p)) (coordinates_of q)) (c_points c) /\
  rearranges (fun d e => multiple (turned_by m (coordinates_of d)) (coordinates_of e)) (c_rays c).

Lemma rearranges_perm {X} (R : X -> X -> Prop) V V' : Permutation V V' -> rearranges R V -> rearranges R V'.
Proof.
  intros HP (W & HW & HWP). destruct (Permutation_Forall2 HP HW) as (W' & P1 & H1). exists W'. split; auto.
  apply (Permutation_trans (Permutation_sym P1)). apply (Permutation_trans HWP). auto.
Qed.
Lemma rearranges_map {X Y} (f : X -> Y) (P : X -> X -> Prop) (R : Y -> Y -> Prop) V : (forall x y, In x V -> In y V -> P x y -> R (f x) (f y)) -> rearranges P V -> rearranges R (map f V).
Proof.
  intros H (W & HW & HP). exists (map f W). split; [|apply Permutation_map; auto].
  assert (K : forall y, In y W -> In y V) by (intros y Hy; apply (Permutation_in _ HP); auto). clear HP.
  assert (G : forall V0, (forall x, In x V0 -> In x V) -> Forall2 P V0 W -> Forall2 R (map f V0) (map f W)).
  { clear HW. intros V0 HV0 HW. induction HW as [|x y V0 W E _ IH]; cbn [map]; constructor; [apply H; auto; [apply HV0|apply K]; left; auto|].
    apply IH; [intros z Hz; apply K; right; auto|intros z Hz; apply HV0; right; auto]. }
  apply G; auto.
Qed.
Lemma rearranges_app {X} (R : X -> X -> Prop) V V' : rearranges R V -> rearranges R V' -> rearranges R (V ++ V').
Proof. intros (W & HW & HP) (W' & HW' & HP'). exists (W ++ W'). split; [apply Forall2_app; auto|apply Permutation_app; auto]. Qed.
Lemma point_row_stands n p : proper p -> length p = n -> point_stands n (coordinates_of p) (point_row p).
Proof.
  intros Hp Hl. assert (K := point_row_same p Hp). assert (C := common_pos p Hp). exists (entries (common p) p), (common p). split; [reflexivity|].
  assert (Le : length (entries (common p) p) = n) by (assert (L := proj1 (row_lengths p)); unfold point_row in L; rewrite app_length in L; cbn in L; lia). split; auto. split; auto.
  apply (clears_same (common p) (point_of_row (point_row p))).
  - unfold same_point in *. clear - K. induction K as [|x y X Y E _ IH]; constructor; auto. rewrite E. reflexivity.
  - unfold point_of_row, point_row. rewrite last_last, removelast_last. apply over. lia.
Qed.
Lemma ray_row_stands n p : proper p -> length p = n -> direction_stands n (coordinates_of p) (ray_row p).
Proof.
  intros Hp Hl. destruct (point_row_stands n p Hp Hl) as (xs & l & E & Hx & Hl' & HX). unfold point_row in E. apply app_inj_tail in E. destruct E as (<- & <-).
  exists (entries (common p) p), (common p). split; [reflexivity|auto].
Qed.
Lemma file_symmetric c so n : sane c -> agree c n -> file_symmetries c n -> symmetries n (file_rows c so) (c_maps c).
Proof.
  intros ((P1 & _) & (R1 & _) & _) (_ & HL & _) Hsym m Hm.
  assert (Hmaps : forall m, In m (c_maps c) -> map_in (S n) m /\ nth n m [] = [(n, 1)]) by (intros m0 Hm0; destruct (Hsym m0 Hm0) as (A1 & A2 & _); auto).
  destruct (Hsym m Hm) as (M1 & M2 & MP & MR). split; auto. split; auto.
  rewrite Forall_forall in P1, R1.
  apply (rearranges_perm _ (map ray_row (c_rays c) ++ map point_row (c_points c))); [unfold file_rows; apply Permutation_app; apply m_sort_perm|].
  apply rearranges_app.
  - revert MR. apply rearranges_map. intros d e Hd He K. destruct (ray_row_stands n d (R1 d Hd) (HL d ltac:(apply in_app_iff; auto))) as (xs & l & -> & Hx & Hl & HX).
    destruct (turned_substitute n (c_maps c) Hmaps m _ xs l Hm Hx HX) as (ys & E & Hy & HY). rewrite E.
    apply (direction_same n (turned_by m (coordinates_of d)) (coordinates_of e)); auto; [exists ys, l; auto|apply ray_row_stands; auto; apply HL; apply in_app_iff; auto].
  - revert MP. apply rearranges_map. intros d e Hd He K. destruct (point_row_stands n d (P1 d Hd) (HL d ltac:(apply in_app_iff; auto))) as (xs & l & -> & Hx & Hl & HX).
    destruct (moved_substitute n (c_maps c) Hmaps m _ xs l Hm Hx HX) as (ys & E & Hy & HY). rewrite E.
    apply (point_same n (moved_by m (coordinates_of d)) (coordinates_of e)); auto; [exists ys, l; auto|apply point_row_stands; auto; apply HL; apply in_app_iff; auto].
Qed.

(** Once the fuel suffices, more does not change the output. *)
Lemma facet_call_mono t order f f' V names maps out : (f <= f')%nat -> m_facet_call t order f V names maps = Some (out, Ok tt) -> m_facet_call t order f' V names maps = Some (out, Ok tt).
Proof.
  intros Hf H. unfold m_facet_call in *. destruct (m_extract_equations (arith t) V) as [E| |]; auto. destruct (m_normalize_maps t E maps) as [reduced| |]; auto.
  destruct (m_fme (arith t) order V) as [F| |]; auto. cbn [bind] in *. destruct (m_classes_of (arith t) f Facet_tag reduced F) as [[R|]| |] eqn:EC.
  - rewrite (classes_mono (arith t) f f' Facet_tag reduced F R Hf EC). auto.
  - exfalso. match type of H with (match ?p with _ => _ end = _) => destruct p as [x [[]| |]] end; discriminate.
  - exfalso. match type of H with (Some (?p ;; _) = _) => destruct p as [x [[]| |]] end; cbn [andthen fst snd] in H; discriminate.
  - exfalso. match type of H with (Some (?p ;; _) = _) => destruct p as [x [[]| |]] end; cbn [andthen fst snd] in H; discriminate.
Qed.
Lemma vertex_call_mono t order f f' A maps out : (f <= f')%nat -> m_vertex_call t order f A maps = Some (out, Ok tt) -> m_vertex_call t order f' A maps = Some (out, Ok tt).
Proof.
  intros Hf H. unfold m_vertex_call in *. destruct (m_fme (arith t) order A) as [F| |]; auto. cbn [bind] in *. destruct (m_classes_of (arith t) f Vertex_tag maps F) as [[R|]| |] eqn:EC; try discriminate.
  rewrite (classes_mono (arith t) f f' Vertex_tag maps F R Hf EC). auto.
Qed.

(** What the program reads. *)
Lemma facet_program_reads t order fs args name so content c n : t <> INT16 -> asks args name so -> fs name = Some content -> early_keyword content -> file_text nothing (Some content) c -> agree c n ->
  exists fuel0, forall fuel, (fuel0 <= fuel)%nat -> m_facet_program t order fs fuel args = m_facet_call t order fuel (file_rows c so) (c_names c) (c_maps c).
Proof.
  intros Ht HA HF HK HT HG. assert (HS := file_is_sane (Some content) c HT). destruct (input_vertices_ok fs args name so content c HA HF HK HT) as (f0 & K).
  assert (HC : m_consistent_vertices (map point_row (c_points c)) (map ray_row (c_rays c)) (c_names c) (c_maps c) (match c_dimension c with Some d => d | None => size_max end) = Ok tt).
  { apply consistent_iff; [|apply agree_iff; eauto]. destruct HS as (_ & _ & Hd). destruct (c_dimension c); unfold size_max in *; lia. }
  exists f0. intros fuel Hfuel. unfold m_facet_program. rewrite (K fuel) by lia. rewrite HC. cbn [calco]. rewrite cast_rows_same by auto. reflexivity.
Qed.

(** Facet enumeration of a file with points, rays and maps that are symmetries: if the program succeeds, a point is in the convex hull of the points plus the conical hull of the rays iff it
    satisfies the printed equations and all its images under the maps of the file satisfy the printed inequalities.  Of every class of facets that the maps carry to each other exactly one
    is printed ([F] are the rows of all facets, [R] the rows of the printed ones). *)
Theorem C48_reduced : forall t order fs args name so content c n (E F : list vec),
  t <> INT16 -> sort_order order -> asks args name so -> fs name = Some content -> early_keyword content -> file_text nothing (Some content) c ->
  agree c n -> c_points c <> [] -> file_symmetries c n -> maps_normalise t n E (c_maps c) -> good_names (c_names c) ->
  m_extract_equations (arith t) (file_rows c so) = Ok E -> m_fme (arith t) order (file_rows c so) = Ok F -> Forall negatable_row E -> Forall negatable_row F ->
  exists fuel0, forall fuel out, (fuel0 <= fuel)%nat -> m_facet_program t order fs fuel args = Some (out, Ok tt) ->
  exists equations Pe inequalities Pf (R : list vec),
    out = facet_text equations inequalities (match Pe with [] => true | _ => false end) (nonempty (c_maps c)) /\
    written (denotes (c_names c) n Equation) equations Pe /\ written (denotes (c_names c) n Inequality) inequalities Pf /\ represents_all Inequality n Pf R /\
    (forall p : list Q, length p = n ->
      (hull n (map coordinates_of (c_points c)) (map coordinates_of (c_rays c)) p <->
       (forall k, In k Pe -> satisfies k p) /\ forall q k, moved (c_maps c) p q -> In k Pf -> satisfies k q)) /\
    NoDup R /\ (forall r, In r R -> In r F) /\
    (forall f, In f F -> exists r, In r R /\ carried (file_rows c so) (c_maps c) f r /\ forall x, In x R -> carried (file_rows c so) (c_maps c) f x -> x = r).
Proof.
  intros t order fs args name so content c n E F Ht Ho HA HF HK HT HG Hne Hsym Hnorm HN HE HFm BE BF. assert (HS := file_is_sane (Some content) c HT).
  destruct (file_rows_facts c so n HS HG Hne) as (HP & HD & HH & HR). assert (HNl : c_names c = [] \/ length (c_names c) = n) by apply HG.
  destruct (facet_program_reads t order fs args name so content c n Ht HA HF HK HT HG) as (f0 & K). exists f0. intros fuel out Hfuel Hout. rewrite (K fuel Hfuel) in Hout.
  destruct (C45_reduced t order n (file_rows c so) E F (c_names c) (c_maps c) fuel out Ht Ho (HR t Ht) HD HH (file_symmetric c so n HS HG Hsym) Hnorm HN HNl HE HFm BE BF Hout)
    as (equations & Pe & inequalities & Pf & R & E1 & W1 & W2 & W3 & HX & X1 & X2 & X3).
  exists equations, Pe, inequalities, Pf, R. split; auto. split; auto. split; auto. split; auto. split; auto.
  intros p Hp. rewrite <- (HX p Hp). symmetry. apply rows_hull; auto; apply HS.
Qed.
Print Assumptions C48_reduced.
(** With unbounded integers it succeeds, if the maps can be normalised. *)
Theorem C48_reduced_ends : forall order fs args name so content c n (E F : list vec) reduced,
  sort_order order -> asks args name so -> fs name = Some content -> early_keyword content -> file_text nothing (Some content) c ->
  agree c n -> c_points c <> [] -> file_symmetries c n -> maps_normalise EXACT n E (c_maps c) -> good_names (c_names c) ->
  m_extract_equations (arith EXACT) (file_rows c so) = Ok E -> m_fme (arith EXACT) order (file_rows c so) = Ok F -> Forall negatable_row E -> Forall negatable_row F ->
  m_normalize_maps EXACT E (c_maps c) = Ok reduced ->
  exists fuel0 out, forall fuel, (fuel0 <= fuel)%nat -> m_facet_program EXACT order fs fuel args = Some (out, Ok tt).
Proof.
  intros order fs args name so content c n E F reduced Ho HA HF HK HT HG Hne Hsym Hnorm HN HE HFm BE BF HM. assert (HS := file_is_sane (Some content) c HT).
  destruct (file_rows_facts c so n HS HG Hne) as (HP & HD & HH & HR). assert (HNl : c_names c = [] \/ length (c_names c) = n) by apply HG.
  destruct (facet_program_reads EXACT order fs args name so content c n ltac:(discriminate) HA HF HK HT HG) as (f0 & K).
  destruct (C45_reduced_ends order n (file_rows c so) E F (c_names c) (c_maps c) reduced Ho HD HH (file_symmetric c so n HS HG Hsym) Hnorm HN HNl HE HFm BE BF HM) as (f1 & K1).
  destruct (K1 f1 (le_n _)) as (out & Ho1). exists (f0 + f1)%nat, out. intros fuel Hfuel. rewrite (K fuel) by lia. apply (facet_call_mono EXACT order f1 fuel); [lia|auto].
Qed.
Print Assumptions C48_reduced_ends.

(** *** Example: a file with points (1/2, 0) and (0, 1/2), rays (1, 0) and (0, 2), and the map that exchanges x and y *)
Open Scope nat_scope.
Definition mirror : text := line "Names:" ++ line "x y" ++ line "" ++ line "Maps:" ++ line "y x" ++ line "" ++ line "Vertices:" ++ line "1/2 0" ++ line "0 1/2" ++ line "" ++ line "Rays:" ++ line "1 0" ++ line "0 2".
Definition mirror_contents : contents :=
  {| c_points := [[(1, 2); (0, 1)]; [(0, 1); (1, 2)]]%Z; c_rays := [[(1, 1); (0, 1)]; [(0, 1); (2, 1)]]%Z; c_names := [lit "x"; lit "y"];
     c_maps := [[[(1, 1%Z)]; [(0, 1%Z)]; [(2, 1%Z)]]]; c_dimension := None |}.
Lemma half_coordinate : coordinate (lit "1/2") 1 2.
Proof. apply (coordinate_fraction (lit "1") 1 [] [] (lit "2") 2); try (apply small_int; lia); try constructor; try lia; try discriminate; repeat constructor. Qed.
Lemma xy_variable i : (i < 2)%nat -> variable [lit "x"; lit "y"] (nth i [lit "x"; lit "y"] []) i.
Proof. intros Hi. destruct i as [|[|i]]; [| |lia]; (split; [reflexivity|split; [repeat constructor|cbn; repeat split; discriminate]]). Qed.
Example mirror_text : file_text nothing (Some mirror) mirror_contents.
Proof.
  assert (FW : forall c, Forall (fun d => is_space d = false) [c] -> forallb (fun w => negb (text_eqb [c] (lit w))) MapInput.all_words = true -> free_word [c]).
  { intros c H1 H2. split; [split; [discriminate|auto]|]. intros w Hw E. rewrite forallb_forall in H2. specialize (H2 w Hw). rewrite <- E in H2. destruct (text_eqb_spec [c] [c]); [discriminate|congruence]. }
  assert (KL : forall words w, In w words -> keyword_line words (lit w)) by (intros words w Hw; exists [], w, []; rewrite app_nil_r; repeat split; auto; constructor).
  assert (PL : MapInput.plain_line []). { destruct (plain_or_keyword [] ltac:(intros [])) as [H|H]; [exact H|discriminate H]. }
  apply (file_names nothing (lit "Names:") (lit "x y") [lit "x"; lit "y"] [newline; newline] (lit "Maps:")
    (line "y x" ++ line "" ++ line "Vertices:" ++ line "1/2 0" ++ line "0 1/2" ++ line "" ++ line "Rays:" ++ line "1 0" ++ line "0 2")); try (apply KL; cbn; tauto); try discriminate.
  - apply (names_cons [] (lit "x") (lit " y") [lit "y"]); [constructor|apply FW; [repeat constructor|reflexivity]|reflexivity|].
    apply (names_cons (lit " ") (lit "y") [] []); [repeat constructor|apply FW; [repeat constructor|reflexivity]|reflexivity|constructor].
  - repeat constructor.
  - apply (file_line _ []); [left; exact PL|]. apply (file_line _ []); [left; exact PL|].
    apply (file_maps _ (lit "Maps:") (line "y x" ++ line "") [[[(1, 1%Z)]; [(0, 1%Z)]]] (line "Vertices:" ++ line "1/2 0" ++ line "0 1/2" ++ line "" ++ line "Rays:" ++ line "1 0" ++ line "0 2") []
      (Some (line "Vertices:" ++ line "1/2 0" ++ line "0 1/2" ++ line "" ++ line "Rays:" ++ line "1 0" ++ line "0 2"))).
    + cbn [c_names]. apply xy_good.
    + apply KL. cbn. tauto.
    + cbn [c_names]. apply (written_line _ (lit "y x") [[(1, 1%Z)]; [(0, 1%Z)]] (line "") []); [|apply (written_blank _ [] [] []); constructor].
      exists [], (lit "y x"), []. split; [reflexivity|]. split; [constructor|]. split; [|split; [constructor|split; [reflexivity|split; [reflexivity|]]]].
      * apply (MapInput.images_more _ (lit "y") [(1, 1%Z)] (lit " ") (lit "x") [[(0, 1%Z)]]); try discriminate; [|repeat constructor|].
        -- apply (MapInput.image_variable _ [] (lit "y") 1 1 [] []); [constructor|apply (xy_variable 1); lia|repeat constructor|exact I|constructor].
        -- apply MapInput.images_one; [|discriminate]. apply (MapInput.image_variable _ [] (lit "x") 1 0 [] []); [constructor|apply (xy_variable 0); lia|repeat constructor|exact I|constructor].
      * destruct (plain_or_keyword (lit "y x")) as [H|H]; [cbn; intuition discriminate|exact H|]. discriminate H.
    + apply (follows_keyword _ (lit "Vertices:") (line "1/2 0" ++ line "0 1/2" ++ line "" ++ line "Rays:" ++ line "1 0" ++ line "0 2")); [apply KL; cbn; tauto|reflexivity].
    + apply (file_points _ (lit "Vertices:") (line "1/2 0" ++ line "0 1/2" ++ line "") [[(1, 2); (0, 1)]; [(0, 1); (1, 2)]]%Z (line "Rays:" ++ line "1 0" ++ line "0 2") [] (Some (line "Rays:" ++ line "1 0" ++ line "0 2"))).
      * apply KL; cbn; tauto.
      * apply (section_point [] (lit "1/2 0") [(1, 2); (0, 1)]%Z (line "0 1/2" ++ line "")); [repeat constructor| |].
        { apply (coordinates_more (lit "1/2") 1 2 (lit " ") (lit "0")); [apply half_coordinate|repeat constructor|discriminate|]. apply (coordinates_last (lit "0") 0 1 []); [apply whole_coordinate; try reflexivity; try discriminate; lia|constructor]. }
        apply (section_point [] (lit "0 1/2") [(0, 1); (1, 2)]%Z (line "")); [repeat constructor| |apply (section_blank [] []); [constructor|constructor]].
        apply (coordinates_more (lit "0") 0 1 (lit " ") (lit "1/2")); [apply whole_coordinate; try reflexivity; try discriminate; lia|repeat constructor|discriminate|]. apply (coordinates_last (lit "1/2") 1 2 []); [apply half_coordinate|constructor].
      * apply (follow_keyword (lit "Rays:") (line "1 0" ++ line "0 2")). apply KL. cbn. tauto.
      * exists (map (row_of false) [[(1, 2); (0, 1)]; [(0, 1); (1, 2)]]%Z). split; [|repeat constructor; cbv; discriminate].
        constructor; [|constructor; [|constructor]]; (apply represents_iff; [|reflexivity]); repeat constructor; try (apply small_int; cbn; lia); discriminate.
      * apply (file_rays _ (lit "Rays:") (line "1 0" ++ line "0 2") [[(1, 1); (0, 1)]; [(0, 1); (2, 1)]]%Z [] [] None).
        -- apply KL; cbn; tauto.
        -- apply (section_point [] (lit "1 0") [(1, 1); (0, 1)]%Z (line "0 2")); [repeat constructor|apply (two_wholes "1" "0" 1 0); try reflexivity; try discriminate; lia|].
           apply (section_point [] (lit "0 2") [(0, 1); (2, 1)]%Z []); [repeat constructor|apply (two_wholes "0" "2" 0 2); try reflexivity; try discriminate; lia|constructor].
        -- apply follow_end. constructor. constructor.
        -- exists (map (row_of true) [[(1, 1); (0, 1)]; [(0, 1); (2, 1)]]%Z). split; [|repeat constructor; cbv; discriminate].
           constructor; [|constructor; [|constructor]]; (apply represents_ray_iff; [|split; [reflexivity|cbv; split; discriminate]]); repeat constructor; try (apply small_int; cbn; lia); discriminate.
        -- apply file_none.
Qed.
Example C48_reduced_example :
  asks [lit "f"] (lit "f") NoSorting /\ one_file mirror (lit "f") = Some mirror /\ early_keyword mirror /\ agree mirror_contents 2 /\ file_symmetries mirror_contents 2 /\
  maps_normalise SAFE 2 [] (c_maps mirror_contents) /\ good_names (c_names mirror_contents) /\
  m_extract_equations (arith SAFE) (file_rows mirror_contents NoSorting) = Ok [] /\
  (exists F : list vec, m_fme (arith SAFE) sorted_order (file_rows mirror_contents NoSorting) = Ok F /\ Forall negatable_row F) /\
  m_facet_program SAFE sorted_order (one_file mirror) 40 [lit "f"] = Some (line "Reduced Inequalities:" ++ line "-2x -2y <= -1" ++ line "-y <= 0", Ok tt).
Proof.
  split; [apply asks_plain|]. split; [reflexivity|]. split.
  { exists (lit "Names:"). split; [exists [], (newline :: line "x y" ++ line "" ++ line "Maps:" ++ line "y x" ++ line "" ++ line "Vertices:" ++ line "1/2 0" ++ line "0 1/2" ++ line "" ++ line "Rays:" ++ line "1 0" ++ line "0 2")|].
    - split; [reflexivity|]. split; [cbn; lia|]. split; [constructor|]. split; [cbn; intuition discriminate|]. right. eexists. reflexivity.
    - exists [], "Names:"%string, []. split; [reflexivity|]. split; [vm_compute; tauto|]. split; constructor. }
  split. { split; [discriminate|]. split; [cbn; intuition (subst; reflexivity)|]. split; [cbn; intuition (subst; reflexivity)|]. split; [right; reflexivity|left; reflexivity]. }
  split.
  { intros m [<-|[]]. split; [split; [reflexivity|repeat constructor]|]. split; [reflexivity|]. split.
    - exists [[(0, 1); (1, 2)]; [(1, 2); (0, 1)]]%Z. split; [|apply perm_swap]. repeat constructor; vm_compute; reflexivity.
    - exists [[(0, 1); (2, 1)]; [(1, 1); (0, 1)]]%Z. split; [|apply perm_swap]. constructor; [|constructor; [|constructor]].
      + exists (1 # 2)%Q. split; [reflexivity|]. intros [|[|[|j]]]; vm_compute; reflexivity.
      + exists 2%Q. split; [reflexivity|]. intros [|[|[|j]]]; vm_compute; reflexivity. }
  split. { split; [split; [constructor|intros i Hi; cbn in Hi; lia]|split; [left; reflexivity|repeat constructor]]. }
  split. { apply xy_good. }
  split; [vm_compute; reflexivity|]. split; [eexists; split; [vm_compute; reflexivity|repeat constructor; unfold negatable_row; repeat constructor; lia]|]. vm_compute. reflexivity.
Qed.

(** ** Vertices *)
Open Scope Z_scope.
(** By how much a point violates a constraint (negative if it satisfies an inequality strictly). *)
Definition excess (k : constraint) (p : list Q) : Q :=
  match operator k with GreaterEqual => (inject_Z (constant k) - linear_form (terms k) p)%Q | _ => (linear_form (terms k) p - inject_Z (constant k))%Q end.
(** The maps of the file permute the inequalities up to positive factors, and the equations up to factors. *)
Definition constraint_symmetries (s : system) (n : nat) : Prop := forall m, In m (s_maps s) ->
  map_in (S n) m /\ nth n m [] = [(n, 1)] /\
  rearranges (fun k l : wide => exists a, (0 < a)%Q /\ forall p, length p = n -> (excess (snd k) (moved_by m p) == a * excess (snd l) p)%Q) (s_inequalities s) /\
  rearranges (fun k l : wide => exists a, ~ (a == 0)%Q /\ forall p, length p = n -> (excess (snd k) (moved_by m p) == a * excess (snd l) p)%Q) (s_equations s).

Lemma affine_wide type k n p : good_constraint type k -> fst k = n -> length p = n -> (affine (wide_row k) p == excess (snd k) p)%Q.
Proof.
  intros (HK & HT & _) <- Hp. unfold wide_row, row_for_constraint, excess. destruct k as [w [ts op b]]. cbn [fst snd terms operator constant] in *.
  assert (E : (affine (coefficient_row w ts b) p == linear_form ts p - inject_Z b)%Q).
  { unfold coefficient_row. rewrite affine_app by (rewrite coefficients_length; auto). rewrite affine_coefficients by auto. rewrite inject_Z_opp. ring. }
  destruct op; cbn [oriented]; auto. rewrite affine_opp by (unfold coefficient_row; rewrite app_length, coefficients_length; cbn; lia). rewrite E. ring.
Qed.
(** Two rows that agree on all points agree everywhere. *)
Lemma dot_points n (u w : vec) : length u = S n -> length w = S n -> (forall xs l, length xs = n -> 0 < l -> dot u (xs ++ [l]) = dot w (xs ++ [l])) -> u = w.
Proof.
  intros Hu Hw H. assert (D : forall v xs l, length v = S n -> length xs = n -> dot v (xs ++ [l]) = dot v (xs ++ [0]) + nth n v 0 * l).
  { intros v xs l Hv Hx. destruct (row_split n v Hv) as (ys & b & -> & Hy & Hb & _). rewrite !dot_snoc by congruence. rewrite nth_snoc with (n := n) by auto. rewrite Nat.eqb_refl. ring. }
  assert (L : nth n u 0 = nth n w 0).
  { assert (K1 := H (vzero n) 1 ltac:(apply vzero_length) ltac:(lia)). assert (K2 := H (vzero n) 2 ltac:(apply vzero_length) ltac:(lia)).
    rewrite (D u), (D w) in K1, K2 by (auto; apply vzero_length). lia. }
  apply (vec_ext_nth (S n)); auto. intros j Hj. destruct (Nat.eq_dec j n) as [->|Hjn]; auto.
  assert (U : forall v, length v = S n -> dot v (unit_vec n j 1 ++ [1]) = nth j v 0 + nth n v 0).
  { intros v Hv. destruct (row_split n v Hv) as (ys & b & -> & Hy & Hb & _). rewrite dot_snoc by (rewrite unit_vec_length; auto). rewrite !(nth_snoc n) by auto. rewrite Nat.eqb_refl. destruct (Nat.eqb_spec j n); [lia|].
    rewrite dot_comm. rewrite dot_unit by (try lia; auto). ring. }
  assert (K := H (unit_vec n j 1) 1 ltac:(apply unit_vec_length) ltac:(lia)). rewrite (U u), (U w) in K by auto. lia.
Qed.
Lemma excess_rows n m (a b : vec) (q : Q) : map_in (S n) m -> nth n m [] = [(n, 1)] -> length a = S n -> length b = S n ->
  (forall p : list Q, length p = n -> (affine a (moved_by m p) == q * affine b p)%Q) ->
  forall x, length x = S n -> Z.pos (Qden q) * dot a (substitute m x) = Qnum q * dot b x.
Proof.
  intros Hm Hlast La Lb H x Lx. rewrite <- (pull_dot (S n) m Hm a x) by auto. rewrite <- !dot_vscale_l. f_equal. apply (dot_points n); rewrite ?vscale_length; auto; [rewrite (pull_length (S n)); auto|].
  intros xs l Hx Hl. rewrite !dot_vscale_l. rewrite (pull_dot (S n) m Hm a) by (auto; rewrite app_length; cbn; lia).
  assert (C := over l xs ltac:(lia)). set (p := map (fun x => inject_Z x / inject_Z l)%Q xs) in *. assert (Lp : length p = n) by (unfold p; rewrite map_length; auto).
  destruct (moved_substitute n [m] ltac:(intros m0 [<-|[]]; auto) m p xs l (or_introl eq_refl) Hx C) as (ys & E & Hy & CY). rewrite E.
  assert (A1 := affine_dot a _ ys l CY ltac:(rewrite Hy; auto)). assert (A2 := affine_dot b _ xs l C ltac:(rewrite Hx; auto)). specialize (H p Lp).
  apply inject_eq. rewrite !inject_Z_mult, <- A1, <- A2, H. destruct q as [qn qd]. cbn [Qnum Qden]. rewrite (Qmake_Qdiv qn qd). assert (N := inject_zero (Z.pos qd) ltac:(lia)). field. auto.
Qed.
Lemma rearranges_both (R : vec -> vec -> Prop) (V : list vec) : rearranges (fun a b => (R a b /\ R (map Z.opp a) (map Z.opp b)) \/ (R a (map Z.opp b) /\ R (map Z.opp a) b)) V -> rearranges R (both_sides V).
Proof.
  intros (W & HW & HP). assert (G : exists W', Forall2 R (both_sides V) W' /\ Permutation W' (both_sides W)).
  { clear HP. induction HW as [|a b V W E _ (W' & K1 & K2)]; [exists []; split; constructor|]. cbn [both_sides flat_map app]. fold (both_sides V) (both_sides W). destruct E as [(E1 & E2)|(E1 & E2)].
    - exists (b :: map Z.opp b :: W'). split; [constructor; auto|]. apply perm_skip, perm_skip. auto.
    - exists (map Z.opp b :: b :: W'). split; [constructor; auto|]. apply (Permutation_trans (perm_swap _ _ _)). apply perm_skip, perm_skip. auto. }
  destruct G as (W' & K1 & K2). exists W'. split; auto. apply (Permutation_trans K2). unfold both_sides. apply Permutation_flat_map. auto.
Qed.
Lemma opp_scale (v : vec) : map Z.opp v = vscale (-1) v.
Proof. unfold vscale. apply map_ext. intros z. lia. Qed.
Lemma system_symmetric s so n : fits_together s n -> equations_fit s n -> sound_system s -> constraint_symmetries s n -> system_symmetries n (system_rows s so) (s_maps s).
Proof.
  intros H1 H2 HS Hsym m Hm. destruct (Hsym m Hm) as (M1 & M2 & MI & ME). split; auto. split; auto. destruct (system_rows_form s so n H1 H2) as (rows & -> & HP & HD).
  destruct HS as (S1 & S2 & _). rewrite Forall_forall in S1, S2.
  assert (LI : forall k, In k (s_inequalities s) -> length (wide_row k) = S n) by (intros k Hk; rewrite wide_row_length; f_equal; apply H1; auto).
  assert (LE : forall k, In k (s_equations s) -> length (wide_row k) = S n) by (intros k Hk; rewrite wide_row_length; f_equal; apply H2; auto).
  assert (LM : forall p, length p = n -> length (moved_by m p) = n) by (intros p Hp; apply (moved_length n [m] p); auto; [intros m0 [<-|[]]; auto|]; apply (moved_first [m] m); [left; auto|constructor]).
  change (rearranges (fun a b => exists j k, 0 < j /\ 0 < k /\ forall x, length x = S n -> j * dot a (substitute m x) = k * dot b x) (rows ++ [unit_vec (S n) n (-1)])).
  apply rearranges_app; [apply (rearranges_perm _ _ _ HP); unfold stated_rows; apply rearranges_app|].
  - revert MI. apply rearranges_map. intros k l Hk Hl (q & Hq & E). exists (Z.pos (Qden q)), (Qnum q). split; [lia|]. split; [unfold Qlt in Hq; cbn in Hq; lia|].
    apply (excess_rows n); auto. intros p Hp. rewrite (affine_wide Inequality k n), (affine_wide Inequality l n); auto; try (apply H1; auto).
  - apply rearranges_both. revert ME. apply rearranges_map. intros k l Hk Hl (q & Hq & E).
    assert (X := excess_rows n m (wide_row k) (wide_row l) q M1 M2 (LE k Hk) (LE l Hl)).
    assert (Y : forall x, length x = S n -> Z.pos (Qden q) * dot (wide_row k) (substitute m x) = Qnum q * dot (wide_row l) x).
    { apply X. intros p Hp. rewrite (affine_wide Equation k n), (affine_wide Equation l n); auto; try (apply H2; auto); [apply (S1 l Hl)|apply (S1 k Hk)]. }
    assert (Nq : Qnum q <> 0) by (intros Z0; apply Hq; unfold Qeq; cbn; lia). rewrite !opp_scale. destruct (Z.lt_trichotomy (Qnum q) 0) as [Hs|[Hs|Hs]]; [right|lia|left].
    + split; exists (Z.pos (Qden q)), (- Qnum q); (split; [lia|split; [lia|]]); intros x Hx; specialize (Y x Hx); rewrite ?dot_vscale_l; nia.
    + split; exists (Z.pos (Qden q)), (Qnum q); (split; [lia|split; [lia|]]); intros x Hx; specialize (Y x Hx); rewrite ?dot_vscale_l; nia.
  - exists [unit_vec (S n) n (-1)]. split; [|apply Permutation_refl]. constructor; [|constructor]. exists 1, 1. split; [lia|]. split; [lia|]. intros x Hx.
    rewrite !dot_unit by (try lia; unfold substitute; rewrite ?map_length; auto; apply M1).
    assert (L := sub_last (S n) m). replace (S n - 1)%nat with n in L by lia. rewrite (L M2 x). ring.
Qed.
Lemma vertex_program_reads t order fs args name so content s n : t <> INT16 -> asks args name so -> fs name = Some content -> early_keyword content -> system_text no_system (Some content) s -> fits_together s n ->
  exists fuel0, forall fuel, (fuel0 <= fuel)%nat -> m_vertex_program t order fs fuel args = m_vertex_call t order fuel (system_rows s so) (s_maps s).
Proof.
  intros Ht HA HF HK HT Hn. assert (HS := system_sound _ _ _ HT no_system_sound). destruct (input_inequalities_ok fs args name so content s HA HF HK HT) as (f0 & K).
  assert (EC := proj2 (fits_together_iff s HS) (ex_intro _ n Hn)). exists f0. intros fuel Hfuel. unfold m_vertex_program. rewrite (K fuel) by lia. rewrite EC. cbn [calco]. rewrite cast_rows_same by auto. reflexivity.
Qed.
Lemma system_corner s so n p : fits_together s n -> equations_fit s n -> sound_system s -> (vertex_of n (all_satisfied (constraints_of s)) p <-> corner n (system_rows s so) p).
Proof.
  intros Hn He HS. unfold vertex_of, corner. split; intros (V1 & V2 & V3); split; auto; (split; [apply (solves_system s so n); auto|]); intros q r c Hq Hr Sq Sr; apply V3; auto; apply (solves_system s so n); auto.
Qed.
Lemma system_extreme s so n d : fits_together s n -> equations_fit s n -> sound_system s -> (extreme_move n (constraints_of s) d <-> extreme_direction n (system_rows s so) d).
Proof.
  intros Hn He HS. unfold extreme_move, extreme_direction. split; intros (V1 & V2 & V3 & V4); split; auto; (split; [apply (recedes_system s so n); auto|]); (split; [auto|]); intros u v Hu Hv Su Sv; apply V4; auto;
    apply (recedes_system s so n); auto.
Qed.

(** Vertex enumeration of a file with equations, inequalities and maps that are symmetries: if the program succeeds, it prints one vertex of every class of vertices that the maps carry to each
    other, and one direction of every class of extreme directions; the images of what is printed generate the solutions. *)
Theorem C50_reduced : forall t order fs args name so content s n (F : list vec),
  t <> INT16 -> sort_order order -> asks args name so -> fs name = Some content -> early_keyword content -> system_text no_system (Some content) s ->
  fits_together s n -> equations_fit s n -> (0 < n)%nat -> constraint_symmetries s n -> pointed n (constraints_of s) ->
  m_fme (arith t) order (system_rows s so) = Ok F -> Forall negatable_row F ->
  exists fuel0, forall fuel out, (fuel0 <= fuel)%nat -> m_vertex_program t order fs fuel args = Some (out, Ok tt) ->
  exists vertices P rays R,
    out = vertex_text vertices rays (match P with [] => true | _ => false end) (match R with [] => true | _ => false end) (nonempty (s_maps s)) /\
    section_lines vertices P /\ section_lines rays R /\
    (forall p : list Q, length p = n -> (all_satisfied (constraints_of s) p <-> exists points directions,
      (forall q, In q points -> exists q0, In q0 (map coordinates_of P) /\ moved (s_maps s) q0 q) /\ (forall d, In d directions -> exists d0, In d0 (map coordinates_of R) /\ turned (s_maps s) d0 d) /\
      hull n points directions p)) /\
    (forall q, In q (map coordinates_of P) -> vertex_of n (all_satisfied (constraints_of s)) q) /\
    (forall p, vertex_of n (all_satisfied (constraints_of s)) p -> exists q p', In q (map coordinates_of P) /\ moved (s_maps s) p p' /\ same_point p' q) /\
    listed_once (fun p q => exists p', moved (s_maps s) p p' /\ same_point p' q) (map coordinates_of P) /\
    (forall d, In d (map coordinates_of R) -> extreme_move n (constraints_of s) d) /\
    (forall d, extreme_move n (constraints_of s) d -> exists e d', In e (map coordinates_of R) /\ turned (s_maps s) d d' /\ multiple d' e) /\
    listed_once (fun d e => exists d', turned (s_maps s) d d' /\ multiple d' e) (map coordinates_of R).
Proof.
  intros t order fs args name so content s n F Ht Ho HA HF HK HT Hn He H0 Hsym HP HE HB. assert (HS := system_sound _ _ _ HT no_system_sound).
  destruct (system_rows_facts s so n Hn He HS) as (HD & HU & HR). destruct (vertex_program_reads t order fs args name so content s n Ht HA HF HK HT Hn) as (f0 & K).
  assert (NL := pointed_no_line s so n Hn He HS HP). exists f0. intros fuel out Hfuel Hout. rewrite (K fuel Hfuel) in Hout.
  destruct (C46_reduced t order n (system_rows s so) F (s_maps s) fuel out Ht Ho (HR t Ht) HD H0 NL HU (system_symmetric s so n Hn He HS Hsym) HE HB Hout)
    as (vertices & P & rays & R & E1 & L1 & L2 & X1 & X2 & X3 & X4 & X5 & X6 & X7).
  assert (SC := fun p => system_corner s so n p Hn He HS). assert (SE := fun p => system_extreme s so n p Hn He HS).
  exists vertices, P, rays, R. split; auto. split; auto. split; auto. split; [|split; [|split; [|split; [|split; [|split]]]]]; auto.
  - intros p Hp. rewrite <- (X1 p Hp). symmetry. apply (solves_system s so n); auto.
  - intros q Hq. apply SC. auto.
  - intros p Hp. apply X3. apply SC. auto.
  - intros d Hd. apply SE. auto.
  - intros d Hd. apply X6. apply SE. auto.
Qed.
Print Assumptions C50_reduced.
(** With unbounded integers it succeeds. *)
Theorem C50_reduced_ends : forall order fs args name so content s n (F : list vec),
  sort_order order -> asks args name so -> fs name = Some content -> early_keyword content -> system_text no_system (Some content) s ->
  fits_together s n -> equations_fit s n -> (0 < n)%nat -> constraint_symmetries s n -> pointed n (constraints_of s) ->
  m_fme (arith EXACT) order (system_rows s so) = Ok F -> Forall negatable_row F ->
  exists fuel0 out, forall fuel, (fuel0 <= fuel)%nat -> m_vertex_program EXACT order fs fuel args = Some (out, Ok tt).
Proof.
  intros order fs args name so content s n F Ho HA HF HK HT Hn He H0 Hsym HP HE HB. assert (HS := system_sound _ _ _ HT no_system_sound). assert (Ht : EXACT <> INT16) by discriminate.
  destruct (system_rows_facts s so n Hn He HS) as (HD & HU & HR). destruct (vertex_program_reads EXACT order fs args name so content s n Ht HA HF HK HT Hn) as (f0 & K).
  assert (NL := pointed_no_line s so n Hn He HS HP).
  destruct (C46_reduced_ends order n (system_rows s so) F (s_maps s) (length F) Ho HD H0 NL HU (system_symmetric s so n Hn He HS Hsym) HE HB (le_n _)) as (out & Hout).
  exists (f0 + length F)%nat, out. intros fuel Hfuel. rewrite (K fuel) by lia. apply (vertex_call_mono EXACT order (length F) fuel); [lia|auto].
Qed.
Print Assumptions C50_reduced_ends.

(** *** Example: the segment x + y = 1, x >= 0, 2y >= 0 with the map that exchanges x and y *)
Open Scope nat_scope.
Definition swapped : text := line "Names:" ++ line "x y" ++ line "" ++ line "Maps:" ++ line "y x" ++ line "" ++ line "Equations:" ++ line "x + y = 1" ++ line "" ++ line "Inequalities:" ++ line "-x <= 0" ++ line "2y >= 0".
Definition swapped_system : system :=
  {| s_equations := s_equations segment_system; s_inequalities := s_inequalities segment_system; s_names := [lit "x"; lit "y"]; s_maps := [[[(1, 1%Z)]; [(0, 1%Z)]; [(2, 1%Z)]]]; s_dimension := None |}.
Lemma exchange_line : MapInput.map_line [lit "x"; lit "y"] (lit "y x") [[(1, 1%Z)]; [(0, 1%Z)]].
Proof.
  exists [], (lit "y x"), []. split; [reflexivity|]. split; [constructor|]. split; [|split; [constructor|split; [reflexivity|split; [reflexivity|]]]].
  - apply (MapInput.images_more _ (lit "y") [(1, 1%Z)] (lit " ") (lit "x") [[(0, 1%Z)]]); try discriminate; [|repeat constructor|].
    + apply (MapInput.image_variable _ [] (lit "y") 1 1 [] []); [constructor|apply (xy_variable 1); lia|repeat constructor|exact I|constructor].
    + apply MapInput.images_one; [|discriminate]. apply (MapInput.image_variable _ [] (lit "x") 1 0 [] []); [constructor|apply (xy_variable 0); lia|repeat constructor|exact I|constructor].
  - destruct (plain_or_keyword (lit "y x")) as [H|H]; [cbn; intuition discriminate|exact H|]. discriminate H.
Qed.
Example swapped_text : system_text no_system (Some swapped) swapped_system.
Proof.
  apply (system_names no_system (lit "Names:") (lit "x y") [lit "x"; lit "y"] [newline; newline] (lit "Maps:")
    (line "y x" ++ line "" ++ line "Equations:" ++ line "x + y = 1" ++ line "" ++ line "Inequalities:" ++ line "-x <= 0" ++ line "2y >= 0"));
    try (apply keyword_itself; vm_compute; tauto); try discriminate; try apply xy_text.
  - repeat constructor.
  - assert (PL : MapInput.plain_line []). { destruct (plain_or_keyword [] ltac:(intros [])) as [H|H]; [exact H|discriminate H]. }
    apply (system_line _ []); [left; exact PL|]. apply (system_line _ []); [left; exact PL|].
    apply (system_maps _ (lit "Maps:") (line "y x" ++ line "") [[[(1, 1%Z)]; [(0, 1%Z)]]] (line "Equations:" ++ line "x + y = 1" ++ line "" ++ line "Inequalities:" ++ line "-x <= 0" ++ line "2y >= 0") []
      (Some (line "Equations:" ++ line "x + y = 1" ++ line "" ++ line "Inequalities:" ++ line "-x <= 0" ++ line "2y >= 0"))); cbn [s_names].
    + apply xy_good.
    + apply keyword_itself. vm_compute. tauto.
    + apply (written_line _ (lit "y x") _ (line "") []); [exact exchange_line|apply (written_blank _ [] [] []); constructor].
    + apply (follows_keyword _ (lit "Equations:")); [apply keyword_itself; vm_compute; tauto|reflexivity].
    + apply (system_equations _ (lit "Equations:") (line "x + y = 1" ++ line "") [(2, {| terms := [(0, 1%Z); (1, 1%Z)]; operator := Equal; constant := 1 |})]
        (line "Inequalities:" ++ line "-x <= 0" ++ line "2y >= 0") [] (Some (line "Inequalities:" ++ line "-x <= 0" ++ line "2y >= 0"))); cbn [s_names].
      * exact xy_names.
      * apply keyword_itself. vm_compute. tauto.
      * apply (written_line _ (lit "x + y = 1")); [exact segment_equation|]. apply (written_blank _ [] []); [constructor|constructor].
      * apply (follows_keyword _ (lit "Inequalities:")); [apply keyword_itself; vm_compute; tauto|reflexivity].
      * constructor; [|constructor]. split; [repeat constructor; cbn; lia|cbn; lia].
      * apply (system_inequalities _ (lit "Inequalities:") (line "-x <= 0" ++ line "2y >= 0")
          [(2, {| terms := [(0, (-1)%Z)]; operator := LessEqual; constant := 0 |}); (2, {| terms := [(1, 2%Z)]; operator := GreaterEqual; constant := 0 |})] [] [] None); cbn [s_names].
        -- exact xy_names.
        -- apply keyword_itself. vm_compute. tauto.
        -- apply (written_line _ (lit "-x <= 0")); [exact segment_left|]. apply (written_line _ (lit "2y >= 0")); [exact segment_below|constructor].
        -- apply follows_end; constructor.
        -- apply system_none.
Qed.
Example C50_reduced_example :
  asks [lit "f"] (lit "f") NoSorting /\ one_file swapped (lit "f") = Some swapped /\ early_keyword swapped /\ fits_together swapped_system 2 /\ equations_fit swapped_system 2 /\
  constraint_symmetries swapped_system 2 /\ pointed 2 (constraints_of swapped_system) /\
  (exists F : list vec, m_fme (arith SAFE) sorted_order (system_rows swapped_system NoSorting) = Ok F /\ Forall negatable_row F) /\
  m_vertex_program SAFE sorted_order (one_file swapped) 40 [lit "f"] = Some (line "Reduced Vertices:" ++ line "1 0 ", Ok tt).
Proof.
  split; [apply asks_plain|]. split; [reflexivity|]. split.
  { exists (lit "Names:"). split; [exists [], (newline :: line "x y" ++ line "" ++ line "Maps:" ++ line "y x" ++ line "" ++ line "Equations:" ++ line "x + y = 1" ++ line "" ++ line "Inequalities:" ++ line "-x <= 0" ++ line "2y >= 0")|].
    - split; [reflexivity|]. split; [cbn; lia|]. split; [constructor|]. split; [cbn; intuition discriminate|]. right. eexists. reflexivity.
    - apply keyword_itself. vm_compute. tauto. }
  split. { split; [discriminate|]. split; [cbn; intuition (subst; reflexivity)|]. split; [right; reflexivity|left; reflexivity]. }
  split. { intros k [<-|[]]. reflexivity. }
  split.
  { intros m [<-|[]]. split; [split; [reflexivity|repeat constructor]|]. split; [reflexivity|].
    assert (X : forall p : list Q, length p = 2 -> exists a b, p = [a; b]) by (intros [|a [|b [|]]] Hp; try discriminate; eauto). split.
    - exists [(2, {| terms := [(1, 2%Z)]; operator := GreaterEqual; constant := 0 |}); (2, {| terms := [(0, (-1)%Z)]; operator := LessEqual; constant := 0 |})]. split; [|apply perm_swap].
      apply Forall2_cons; [|apply Forall2_cons; [|constructor]]; [exists (1 # 2)%Q|exists 2%Q]; (split; [reflexivity|]); intros p Hp; destruct (X p Hp) as (a & b & ->);
        unfold excess, linear_form, coordinate_of, moved_by; cbn [snd terms operator constant fold_right map removelast app nth fst]; unfold inject_Z; ring.
    - eexists. split; [|apply Permutation_refl]. apply Forall2_cons; [|constructor]. exists 1%Q. split; [discriminate|]. intros p Hp. destruct (X p Hp) as (a & b & ->).
      unfold excess, linear_form, coordinate_of, moved_by; cbn [snd terms operator constant fold_right map removelast app nth fst]; unfold inject_Z; ring. }
  split; [apply C50_example|].
  split; [eexists; split; [vm_compute; reflexivity|repeat constructor; unfold negatable_row; repeat constructor; lia]|]. vm_compute. reflexivity.
Qed.
