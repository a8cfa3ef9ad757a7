(** * PropertiesFile: whole files, and facet enumeration from the file to the text that is printed (C47, C48). *)
From Coq Require Import List ZArith QArith Arith Bool Ascii String Lia Permutation.
From Verif Require Import Base Spec LinAlg ListUtil ArithModel MatrixModel FmeModel SafeIntModel IntTypes StreamModel StreamProofs ClassesModel MapModel ValidityModel SortModel SortProofs PropertiesSort CliModel PropertiesCli
  IntLcm InputModel InputProofs VertexInput ConstraintModel ConstraintInput ConstraintSection PropertiesVertices PropertiesConstraints MapInput OutputModel OutputProofs PropertiesOutput FileModel FileProofs Hull PropertiesProgram HullSame
  FmeTheorems PropertiesFme FileInput Samples.
Import ListNotations.
Open Scope nat_scope.
Open Scope list_scope.

(** ** C47: consistency *)
(** The check of an inner description accepts exactly the descriptions with at least one row in which the rows and maps have the same width, the names and the dimension (if they are given) one less. *)
Theorem C47_consistency : forall conv cone names maps d, (0 <= d <= 2 ^ 64 - 1)%Z ->
  m_consistent_vertices conv cone names maps d =
    (if match m_consistent_vertices conv cone names maps d with Ok _ => true | _ => false end then Ok tt else Throw) /\
  (m_consistent_vertices conv cone names maps d = Ok tt <->
    exists n, conv ++ cone <> [] /\ (forall r, In r (conv ++ cone) -> length r = n) /\ (forall m, In m maps -> length m = n) /\
      (names = [] \/ length names + 1 = n) /\ (d = (2 ^ 64 - 1)%Z \/ (d + 1 = Z.of_nat n)%Z)).
Proof.
  intros conv cone names maps d Hd. split; [destruct (consistent_total conv cone names maps d) as [E|E]; rewrite E; reflexivity|]. apply consistent_iff. exact Hd.
Qed.
Print Assumptions C47_consistency.
(** An outer description: the widths of the equations and of the maps are not checked. *)
Theorem C47_outer_consistency : forall rows names d, (0 <= d <= 2 ^ 64 - 1)%Z ->
  m_consistent_inequalities rows names d =
    (if match m_consistent_inequalities rows names d with Ok _ => true | _ => false end then Ok tt else Throw) /\
  (m_consistent_inequalities rows names d = Ok tt <->
    exists n, rows <> [] /\ (forall r, In r rows -> length r = n) /\ (names = [] \/ length names + 1 = n) /\ (d = (2 ^ 64 - 1)%Z \/ (d + 1 = Z.of_nat n)%Z)).
Proof.
  intros rows names d Hd. unfold m_consistent_inequalities. destruct rows as [|first rows]; [split; [reflexivity|]; split; [discriminate|intros (n & K & _); congruence]|]. set (n := length first). split.
  - destruct (range_total (first :: rows) n) as [R|R]; rewrite R; cbn [bind]; auto. destruct (declared_total names d n) as [E|E]; rewrite E; reflexivity.
  - destruct (range_total (first :: rows) n) as [R|R]; rewrite R; cbn [bind].
    + rewrite declared_iff by exact Hd. rewrite (range_iff (first :: rows) n) in R. split; [intros [K1 K2]; exists n; repeat (split; auto); discriminate|].
      intros (m & _ & K & K1 & K2). assert (m = n) by (symmetry; apply K; left; auto). subst m. auto.
    + split; [discriminate|]. intros (m & _ & K & _). assert (m = n) by (symmetry; apply K; left; auto). subst m. apply (range_iff (first :: rows) n) in K. congruence.
Qed.
Print Assumptions C47_outer_consistency.

(** ** C47: the whole file *)
(** A file that is written as the grammar [file_text] says, with a keyword among its first twenty lines, is read as the rows of its rays and points if its contents fit together, and rejected otherwise. *)
Theorem C47_read : forall fs args name so t c, asks args name so -> fs name = Some t -> early_keyword t -> file_text nothing (Some t) c ->
  exists fuel0, forall fuel, fuel0 <= fuel ->
    ((exists n, agree c n) -> exists V, m_input_vertices fs fuel args = Ok (Some (V, c_names c, c_maps c, [])) /\
       exists rays points, V = rays ++ points /\ Permutation (map ray_row (c_rays c)) rays /\ Permutation (map point_row (c_points c)) points /\
         (so = NoSorting -> rays = map ray_row (c_rays c) /\ points = map point_row (c_points c)) /\ ordered so rays /\ ordered so points) /\
    ((forall n, ~ agree c n) -> m_input_vertices fs fuel args = Throw).
Proof.
  intros fs args name so t c HA HF HE HT. destruct (input_vertices_ok fs args name so t c HA HF HE HT) as (fuel0 & K). exists fuel0. intros fuel Hf. rewrite (K fuel Hf).
  assert (HS := file_is_sane (Some t) c HT). assert (HI := agree_iff c HS).
  assert (HC := consistent_iff (map point_row (c_points c)) (map ray_row (c_rays c)) (c_names c) (c_maps c) (match c_dimension c with Some d => d | None => size_max end)).
  assert (HD : (0 <= match c_dimension c with Some d => d | None => size_max end <= size_max)%Z) by (destruct HS as (_ & _ & Hd); destruct (c_dimension c); unfold size_max in *; lia). specialize (HC HD).
  split.
  - intros HG. assert (HG' := proj2 HC (proj2 HI HG)). rewrite HG'. exists (file_rows c so). split; auto. exists (m_sort so (map ray_row (c_rays c))), (m_sort so (map point_row (c_points c))).
    split; auto. split; [apply m_sort_perm|]. split; [apply m_sort_perm|]. split; [intros ->; auto|]. destruct HG as (n & _ & Hl & _). split; apply (C34_ordered so (S n)); apply Forall_forall; intros r Hr;
      apply in_map_iff in Hr as (p & <- & Hp); destruct (row_lengths p) as [R1 R2]; [rewrite R2|rewrite R1]; f_equal; apply Hl; apply in_app_iff; auto.
  - intros HN. destruct (consistent_total (map point_row (c_points c)) (map ray_row (c_rays c)) (c_names c) (c_maps c) (match c_dimension c with Some d => d | None => size_max end)) as [E|E]; rewrite E; auto.
    exfalso. apply HC, HI in E as (n & E). exact (HN n E).
Qed.
Print Assumptions C47_read.

(** Without a keyword among the first twenty lines the file is rejected. *)
Theorem C47_no_keyword : forall fs fuel args name t, m_filename args = Ok name -> fs name = Some t -> ~ early_keyword t ->
  m_input_vertices fs fuel args = Throw /\ m_input_inequalities fs fuel args = Throw.
Proof.
  intros fs fuel args name t HN HF HK.
  assert (E := contains_keywords_no 20 t [] (fun line Hl Hk => HK (ex_intro _ line (conj Hl Hk)))).
  assert (EK : m_contains_keywords (opened t) = (false, snd (m_contains_keywords (opened t)))).
  { unfold m_contains_keywords. rewrite tellg_opened. destruct (contains_keywords_loop 20 [] (opened t)) as [b s]. cbn [fst] in E. subst b. reflexivity. }
  unfold m_input_vertices, m_input_inequalities. rewrite HN. cbn [bind]. unfold m_open. rewrite HF. cbn [bind]. rewrite EK. auto.
Qed.
Print Assumptions C47_no_keyword.

(** ** C48: from the file to the text *)
Lemma cast_rows_same t V : t <> INT16 -> m_cast_rows t V = V.
Proof.
  intros Ht. unfold m_cast_rows. rewrite <- (map_id V) at 2. apply map_ext. intros row. rewrite <- (map_id row) at 2. apply map_ext. intros z. destruct t; [congruence|reflexivity..].
Qed.
Lemma int_representable t z : t <> INT16 -> int_range z -> representable t z.
Proof.
  intros Ht [H1 H2]. unfold StreamModel.int_min, StreamModel.int_max in *. assert (F : forall w, (32 <= w)%Z -> fits w z = true).
  { intros w Hw. unfold fits. assert (K := Z.pow_le_mono_r 2 31 (w - 1) ltac:(lia) ltac:(lia)). change (2 ^ 31)%Z with 2147483648%Z in K. apply andb_true_iff. rewrite !Z.leb_le. unfold SafeIntModel.int_min, SafeIntModel.int_max. lia. }
  destruct t; [congruence|apply F; lia..|exact I].
Qed.
Lemma file_rows_facts c so n : sane c -> agree c n -> c_points c <> [] ->
  Permutation (map ray_row (c_rays c) ++ map point_row (c_points c)) (file_rows c so) /\ dims (S n) (file_rows c so) /\ homogenised (S n) (file_rows c so) /\
  forall t, t <> INT16 -> rows_representable t (file_rows c so).
Proof.
  intros ((P1 & P2) & (R1 & R2) & _) (_ & HL & _) Hne. rewrite Forall_forall in P1.
  assert (HP : Permutation (map ray_row (c_rays c) ++ map point_row (c_points c)) (file_rows c so)) by (unfold file_rows; apply Permutation_app; apply m_sort_perm).
  assert (HI : forall (Q : vec -> Prop), (forall q, In q (c_rays c) -> Q (ray_row q)) -> (forall q, In q (c_points c) -> Q (point_row q)) -> Forall Q (file_rows c so)).
  { intros Q K1 K2. apply (Permutation_Forall HP). apply Forall_app. split; apply Forall_forall; intros r Hr; apply in_map_iff in Hr as (q & <- & Hq); auto. }
  assert (LR : forall q, In q (c_points c ++ c_rays c) -> length (point_row q) = S n /\ length (ray_row q) = S n).
  { intros q Hq. destruct (row_lengths q) as [K1 K2]. rewrite K1, K2, (HL q Hq). auto. }
  split; auto. split; [|split].
  - apply HI; intros q Hq; apply LR; apply in_app_iff; auto.
  - assert (NP : forall q, In q (c_points c) -> (0 < nth n (point_row q) 0)%Z).
    { intros q Hq. destruct (LR q ltac:(apply in_app_iff; auto)) as [K _]. destruct (row_split n (point_row q) K) as (xs & b & E & Hx & E1 & E2 & _). rewrite E1, <- E2. unfold point_row. rewrite last_last. apply common_pos; auto. }
    assert (NR : forall q, In q (c_rays c) -> nth n (ray_row q) 0%Z = 0%Z).
    { intros q Hq. destruct (LR q ltac:(apply in_app_iff; auto)) as [_ K]. destruct (row_split n (ray_row q) K) as (xs & b & E & Hx & E1 & E2 & _). rewrite E1, <- E2. unfold ray_row. rewrite last_last. auto. }
    unfold homogenised. replace (S n - 1) with n by lia. split.
    + apply Forall_forall. apply HI; intros q Hq; [rewrite (NR q Hq); lia|specialize (NP q Hq); lia].
    + destruct (c_points c) as [|q P] eqn:E; [congruence|]. exists (point_row q). split; [|apply NP; left; auto]. apply (Permutation_in _ HP). apply in_app_iff. right. left. auto.
  - intros t Ht. apply HI; intros q Hq; apply Forall_forall; intros z Hz; apply int_representable; auto.
    + rewrite Forall_forall in R2. assert (K := R2 (ray_row q) ltac:(apply in_map; auto)). unfold int_row in K. rewrite Forall_forall in K. auto.
    + rewrite Forall_forall in P2. assert (K := P2 (point_row q) ltac:(apply in_map; auto)). unfold int_row in K. rewrite Forall_forall in K. auto.
Qed.
(** Facet enumeration of a file with points and rays and without maps: unless an overflow stops the computation, the program prints equations and inequalities whose common solutions are exactly
    the points of the convex hull of the points in the file plus the conical hull of the rays in the file. *)
Theorem C48_facets : forall t order fs args name so content c n (E F : list vec),
  t <> INT16 -> sort_order order -> asks args name so -> fs name = Some content -> early_keyword content -> file_text nothing (Some content) c ->
  agree c n -> c_points c <> [] -> c_maps c = [] -> good_names (c_names c) ->
  m_extract_equations (arith t) (file_rows c so) = Ok E -> m_fme (arith t) order (file_rows c so) = Ok F -> Forall negatable_row E -> Forall negatable_row F ->
  exists equations Pe inequalities Pf,
    written (denotes (c_names c) n Equation) equations Pe /\ written (denotes (c_names c) n Inequality) inequalities Pf /\
    (exists fuel0, forall fuel, fuel0 <= fuel ->
      m_facet_program t order fs fuel args = Some (facet_text equations inequalities (match Pe with [] => true | _ => false end) false, Ok tt)) /\
    forall p : list Q, length p = n ->
      (hull n (map coordinates_of (c_points c)) (map coordinates_of (c_rays c)) p <-> forall k, In k (Pe ++ Pf) -> satisfies k p).
Proof.
  intros t order fs args name so content c n E F Ht Ho HA HF HK HT HG Hne HM HN HE HFm BE BF. assert (HS := file_is_sane (Some content) c HT).
  destruct (file_rows_facts c so n HS HG Hne) as (HP & HD & HH & HR). assert (HNl : c_names c = [] \/ length (c_names c) = n) by apply HG.
  destruct (input_vertices_ok fs args name so content c HA HF HK HT) as (f0 & K).
  assert (HC : m_consistent_vertices (map point_row (c_points c)) (map ray_row (c_rays c)) (c_names c) (c_maps c) (match c_dimension c with Some d => d | None => size_max end) = Ok tt).
  { apply consistent_iff; [|apply agree_iff; eauto]. destruct HS as (_ & _ & Hd). destruct (c_dimension c); unfold size_max in *; lia. }
  assert (CF := fun fuel Hfuel => C45_facets t order n (file_rows c so) E F (c_names c) fuel Ht Ho (HR t Ht) HD HH HN HNl HE HFm BE BF Hfuel).
  destruct (CF (length F) (le_n _)) as (equations & Pe & inequalities & Pf & E1 & W1 & W2 & HX). exists equations, Pe, inequalities, Pf. split; auto. split; auto. split.
  - exists (f0 + length F). intros fuel Hfuel. unfold m_facet_program. rewrite (K fuel) by lia. rewrite HC. cbn [calco]. rewrite cast_rows_same by auto. rewrite HM.
    rewrite <- E1. clear - HFm Hfuel. unfold m_facet_call. change (num (arith t)) with Z in *.
    destruct (m_extract_equations (arith t) (file_rows c so)) as [E| |]; auto. cbn [m_normalize_maps mapM]. rewrite HFm. cbn [bind].
    destruct (classes_none t Facet_tag F (length F) (le_n _)) as (out & EO & _). rewrite EO, (classes_mono (arith t) (length F) fuel Facet_tag [] F out ltac:(lia) EO). reflexivity.
  - intros p Hp. rewrite <- (HX p Hp). symmetry. apply rows_hull; auto; apply HS.
Qed.
Print Assumptions C48_facets.
(** With SafeInteger (option "-i safe"): if the exact results can be printed, the program prints a right description or stops with status 1. *)
Theorem C48_safe : forall order fs args name so content c n (E F : list vec),
  sort_order order -> asks args name so -> fs name = Some content -> early_keyword content -> file_text nothing (Some content) c ->
  agree c n -> c_points c <> [] -> c_maps c = [] -> good_names (c_names c) ->
  m_extract_equations (arith EXACT) (file_rows c so) = Ok E -> m_fme (arith EXACT) order (file_rows c so) = Ok F -> Forall negatable_row E -> Forall negatable_row F ->
  (exists fuel0 out, forall fuel, fuel0 <= fuel -> m_facet_program SAFE order fs fuel args = Some (out, Throw)) \/
  exists equations Pe inequalities Pf,
    written (denotes (c_names c) n Equation) equations Pe /\ written (denotes (c_names c) n Inequality) inequalities Pf /\
    (exists fuel0, forall fuel, fuel0 <= fuel ->
      m_facet_program SAFE order fs fuel args = Some (facet_text equations inequalities (match Pe with [] => true | _ => false end) false, Ok tt)) /\
    forall p : list Q, length p = n ->
      (hull n (map coordinates_of (c_points c)) (map coordinates_of (c_rays c)) p <-> forall k, In k (Pe ++ Pf) -> satisfies k p).
Proof.
  intros order fs args name so content c n E F Ho HA HF HK HT HG Hne HM HN HE HFm BE BF. assert (HS := file_is_sane (Some content) c HT).
  destruct (file_rows_facts c so n HS HG Hne) as (HP & HD & HH & HR). assert (HNl : c_names c = [] \/ length (c_names c) = n) by apply HG.
  assert (Ht : SAFE <> INT16) by discriminate. assert (HRs := HR SAFE Ht).
  destruct (C21_safe_elimination order (S n) (file_rows c so) Ho HRs HD (proj2 (proj2 (homogenised_pos _ _ HD HH)))) as (S1 & _ & S2).
  destruct S2 as [S2|S2]; [|left].
  - rewrite HE in S2. destruct S1 as [S1|S1]; [|left].
    + right. rewrite HFm in S1. exact (C48_facets SAFE order fs args name so content c n E F Ht Ho HA HF HK HT HG Hne HM HN S2 S1 BE BF).
    + destruct (equations_printable SAFE n (file_rows c so) E (c_names c) Ht HRs HD HH HNl S2 BE) as [DE PE].
      destruct (matrix_denotes SAFE Equation (c_names c) n E HN PE DE HNl) as (equations & Pe & E1 & _). unfold relation_sign in E1.
      destruct (input_vertices_ok fs args name so content c HA HF HK HT) as (f0 & K).
      assert (HC : m_consistent_vertices (map point_row (c_points c)) (map ray_row (c_rays c)) (c_names c) (c_maps c) (match c_dimension c with Some d => d | None => size_max end) = Ok tt).
      { apply consistent_iff; [|apply agree_iff; eauto]. destruct HS as (_ & _ & Hd). destruct (c_dimension c); unfold size_max in *; lia. }
      exists f0. destruct E as [|e0 E']; eexists; intros fuel Hf; unfold m_facet_program; rewrite (K fuel Hf), HC; cbn [calco]; rewrite cast_rows_same by auto; rewrite HM;
      unfold m_facet_call; change (num (arith SAFE)) with Z in *; rewrite S2; cbn [m_normalize_maps mapM]; rewrite S1; cbn [bind].
      * cbn [say andthen fst snd]. reflexivity.
      * rewrite E1. cbn [say andthen fst snd]. reflexivity.
  - destruct (input_vertices_ok fs args name so content c HA HF HK HT) as (f0 & K).
    assert (HC : m_consistent_vertices (map point_row (c_points c)) (map ray_row (c_rays c)) (c_names c) (c_maps c) (match c_dimension c with Some d => d | None => size_max end) = Ok tt).
    { apply consistent_iff; [|apply agree_iff; eauto]. destruct HS as (_ & _ & Hd). destruct (c_dimension c); unfold size_max in *; lia. }
    exists f0. eexists. intros fuel Hf. unfold m_facet_program. rewrite (K fuel Hf), HC. cbn [calco]. rewrite cast_rows_same by auto.
    unfold m_facet_call. change (num (arith SAFE)) with Z in *. rewrite S2. reflexivity.
Qed.
Print Assumptions C48_safe.

(** ** A concrete file *)
Definition line (l : string) : text := lit l ++ [newline].
Definition half_strip : text := line "Names:" ++ line "x y" ++ line "" ++ line "Vertices:" ++ line "0 0" ++ line "1/2 0" ++ line "" ++ line "Rays:" ++ line "0 1".
Definition half_strip_contents : contents :=
  {| c_points := [[(0, 1); (0, 1)]; [(1, 2); (0, 1)]]%Z; c_rays := [[(0, 1); (1, 1)]]%Z; c_names := [lit "x"; lit "y"]; c_maps := []; c_dimension := None |}.
Lemma whole_coordinate w z : forallb is_digit (lit w) = true -> lit w <> [] -> decimal (lit w) = z -> (-1000 <= z <= 1000)%Z -> coordinate (lit w) z 1.
Proof. intros. apply coordinate_integer; [apply PropertiesVertices.int_text; auto|apply small_int; auto]. Qed.
Lemma two_wholes a b x y : forallb is_digit (lit a) = true -> lit a <> [] -> decimal (lit a) = x -> (-1000 <= x <= 1000)%Z -> forallb is_digit (lit b) = true -> lit b <> [] -> decimal (lit b) = y -> (-1000 <= y <= 1000)%Z ->
  coordinates (lit a ++ lit " " ++ lit b) [(x, 1); (y, 1)]%Z.
Proof.
  intros. apply (coordinates_more (lit a) x 1 (lit " ") (lit b)); [apply whole_coordinate; auto|repeat constructor|discriminate|]. rewrite <- (app_nil_r (lit b)). apply (coordinates_last (lit b) y 1 []); [apply whole_coordinate; auto|constructor].
Qed.
Example half_strip_text : file_text nothing (Some half_strip) half_strip_contents.
Proof.
  assert (FW : forall c, Forall (fun d => is_space d = false) [c] -> forallb (fun w => negb (text_eqb [c] (lit w))) all_words = true -> free_word [c]).
  { intros c H1 H2. split; [split; [discriminate|auto]|]. intros w Hw E. rewrite forallb_forall in H2. specialize (H2 w Hw). rewrite <- E in H2. destruct (text_eqb_spec [c] [c]); [discriminate|congruence]. }
  assert (KL : forall words w, In w words -> keyword_line words (lit w)) by (intros words w Hw; exists [], w, []; rewrite app_nil_r; repeat split; auto; constructor).
  apply (file_names nothing (lit "Names:") (lit "x y") [lit "x"; lit "y"] [newline; newline] (lit "Vertices:") (line "0 0" ++ line "1/2 0" ++ line "" ++ line "Rays:" ++ line "0 1")); try (apply KL; cbn; tauto); try discriminate.
  - apply (names_cons [] (lit "x") (lit " y") [lit "y"]); [constructor|apply FW; [repeat constructor|reflexivity]|reflexivity|].
    apply (names_cons (lit " ") (lit "y") [] []); [repeat constructor|apply FW; [repeat constructor|reflexivity]|reflexivity|constructor].
  - repeat constructor.
  - assert (PL : plain_line []). { destruct (plain_or_keyword [] ltac:(intros [])) as [H|H]; [exact H|discriminate H]. }
    apply (file_line _ []); [left; exact PL|]. apply (file_line _ []); [left; exact PL|].
    apply (file_points _ (lit "Vertices:") (line "0 0" ++ line "1/2 0" ++ line "") [[(0, 1); (0, 1)]; [(1, 2); (0, 1)]]%Z (line "Rays:" ++ line "0 1") [] (Some (line "Rays:" ++ line "0 1"))).
    + apply KL; cbn; tauto.
    + apply (section_point [] (lit "0 0") [(0, 1); (0, 1)]%Z (line "1/2 0" ++ line "")); [repeat constructor|apply (two_wholes "0" "0" 0 0); try reflexivity; try discriminate; lia|].
      apply (section_point [] (lit "1/2 0") [(1, 2); (0, 1)]%Z (line "")); [repeat constructor| |apply (section_blank [] []); [constructor|constructor]].
      apply (coordinates_more (lit "1/2") 1 2 (lit " ") (lit "0")); [|repeat constructor|discriminate|].
      * apply (coordinate_fraction (lit "1") 1 [] [] (lit "2") 2); try (apply small_int; lia); try constructor; try lia; try discriminate; repeat constructor.
      * apply (coordinates_last (lit "0") 0 1 []); [apply whole_coordinate; try reflexivity; try discriminate; lia|constructor].
    + apply (follow_keyword (lit "Rays:") (line "0 1")). apply KL. cbn. tauto.
    + exists (map (row_of false) [[(0, 1); (0, 1)]; [(1, 2); (0, 1)]]%Z). split; [|repeat constructor; cbv; discriminate].
      constructor; [|constructor; [|constructor]]; (apply represents_iff; [|reflexivity]); repeat constructor; try (apply small_int; cbn; lia); discriminate.
    + apply (file_rays _ (lit "Rays:") (line "0 1") [[(0, 1); (1, 1)]]%Z [] [] None).
      * apply KL; cbn; tauto.
      * apply (section_point [] (lit "0 1") [(0, 1); (1, 1)]%Z []); [repeat constructor|apply (two_wholes "0" "1" 0 1); try reflexivity; try discriminate; lia|constructor].
      * apply follow_end. constructor. constructor.
      * exists (map (row_of true) [[(0, 1); (1, 1)]]%Z). split; [|repeat constructor; cbv; discriminate].
        constructor; [|constructor]; (apply represents_ray_iff; [|split; [reflexivity|cbv; split; discriminate]]); repeat constructor; try (apply small_int; cbn; lia); discriminate.
      * apply file_none.
Qed.
Definition one_file (content : text) : files := fun name => if text_eqb name (lit "f") then Some content else None.
Lemma asks_plain : asks [lit "f"] (lit "f") NoSorting.
Proof.
  split; [apply line_free; [split; [discriminate|intros (p & E); discriminate]|apply PropertiesCli.line_end]|].
  assert (N : forall x, unset x [lit "f"]). { intros x. constructor; [|constructor]. intros [(p & E)|(p & E)]; discriminate. }
  split; [apply N|]. split; [intros [E|[]]; discriminate|]. split; [intros [E|[]]; discriminate|]. left. split; [apply N|reflexivity].
Qed.
Lemma xy_good : good_names [lit "x"; lit "y"].
Proof.
  split; [repeat constructor; cbn; intuition discriminate|]. split; [repeat (constructor; [split; [repeat constructor|cbn; repeat split; discriminate]|]); constructor|].
  split; [|repeat constructor]. intros [|[|i]] [|[|j]] m n v Hij Em En; try lia; cbn in Em, En; try (destruct j; discriminate); try (destruct i; discriminate);
    injection Em as <-; injection En as <-; left; cbn; discriminate.
Qed.
Example C48_example :
  asks [lit "f"] (lit "f") NoSorting /\ one_file half_strip (lit "f") = Some half_strip /\ early_keyword half_strip /\ agree half_strip_contents 2 /\ good_names (c_names half_strip_contents) /\
  file_rows half_strip_contents NoSorting = [[0; 1; 0]; [0; 0; 1]; [1; 0; 2]]%Z /\
  m_extract_equations (arith SAFE) (file_rows half_strip_contents NoSorting) = Ok [] /\
  m_fme (arith SAFE) sorted_order (file_rows half_strip_contents NoSorting) = Ok [[-1; 0; 0]; [0; -1; 0]; [2; 0; -1]]%Z /\
  m_facet_program SAFE sorted_order (one_file half_strip) 20 [lit "f"] = Some (line "Inequalities:" ++ line "-x <= 0" ++ line "-y <= 0" ++ line "2x <= 1", Ok tt).
Proof.
  split; [apply asks_plain|]. split; [reflexivity|]. split.
  { exists (lit "Names:"). split; [exists [], (newline :: line "x y" ++ line "" ++ line "Vertices:" ++ line "0 0" ++ line "1/2 0" ++ line "" ++ line "Rays:" ++ line "0 1")|].
    - split; [reflexivity|]. split; [cbn; lia|]. split; [constructor|]. split; [cbn; intuition discriminate|]. right. eexists. reflexivity.
    - exists [], "Names:"%string, []. split; [reflexivity|]. split; [vm_compute; tauto|]. split; constructor. }
  split. { split; [discriminate|]. split; [cbn; intuition (subst; reflexivity)|]. split; [intros m []|]. split; [right; reflexivity|left; reflexivity]. }
  split. { apply xy_good. }
  split; [reflexivity|]. split; [reflexivity|]. split; [vm_compute; reflexivity|]. vm_compute. reflexivity.
Qed.

(** ** C38: the dimension *)
(** A dimension that is given as the grammar [file_text] says (a line DIM, DIM=, DIMENSION, ... that is followed by '=', unless it ends with it, and a number on the next line) is honoured: a file with a
    point or ray of another dimension is rejected, and so is one with other numbers of names or images. *)
Theorem C38_dimension_partial : forall fs args name so t c d, asks args name so -> fs name = Some t -> early_keyword t -> file_text nothing (Some t) c -> c_dimension c = Some d ->
  (exists p, In p (c_points c ++ c_rays c) /\ Z.of_nat (length p) <> d) \/ (c_names c <> [] /\ Z.of_nat (length (c_names c)) <> d) \/ (exists m, In m (c_maps c) /\ Z.of_nat (length m) <> (d + 1)%Z) ->
  exists fuel0, forall fuel, fuel0 <= fuel -> m_input_vertices fs fuel args = Throw.
Proof.
  intros fs args name so t c d HA HF HE HT HD HB. destruct (C47_read fs args name so t c HA HF HE HT) as (f0 & K). exists f0. intros fuel Hf. apply (proj2 (K fuel Hf)).
  intros n (H1 & H2 & H3 & H4 & [H5|H5]); [congruence|]. assert (d = Z.of_nat n) by congruence. subst d. destruct HB as [(p & Hp & HB)|[(N & HB)|(m & Hm & HB)]].
  - apply HB. rewrite (H2 p Hp). auto.
  - destruct H4 as [H4|H4]; [congruence|]. apply HB. rewrite H4. auto.
  - apply HB. rewrite (H3 m Hm). lia.
Qed.
Print Assumptions C38_dimension_partial.
Lemma dim_line_plain ds : ds <> [] -> digits ds -> plain_line (lit "DIM=" ++ ds).
Proof.
  intros Hn Hd. assert (S : Forall (fun c => is_space c = false /\ c <> newline) (lit "DIM=" ++ ds)).
  { apply Forall_app. split; [repeat constructor; discriminate|]. eapply Forall_impl; [|exact Hd]. cbn beta. intros c Hc. assert (Hs := digit_space c Hc). split; auto. intros ->. discriminate. }
  destruct (plain_or_keyword (lit "DIM=" ++ ds)) as [H|H]; auto.
  { intros K. rewrite Forall_forall in S. apply (S newline K). reflexivity. }
  exfalso. assert (E : m_trim (lit "DIM=" ++ ds) = lit "DIM=" ++ ds).
  { assert (B : Forall (fun c => is_blank c = false) (lit "DIM=" ++ ds)) by (eapply Forall_impl; [|exact S]; intros c [Hc _]; destruct (is_blank c) eqn:Eb; auto; rewrite blank_space in Hc; [discriminate|auto]).
    replace (lit "DIM=" ++ ds) with ([] ++ (lit "DIM=" ++ ds) ++ []) at 1 by apply app_nil_r. apply trim_word; [constructor|constructor| |].
    - reflexivity.
    - apply Forall_rev in B. destruct (rev (lit "DIM=" ++ ds)) as [|c l]; [exact I|]. apply Forall_inv in B. exact B. }
  rewrite E in H. rewrite keyword_words in H. apply one_of_in in H as (w & Hw & EW).
  assert (KC := word_check (fun w => match lit w with "D"%char :: "I"%char :: "M"%char :: "="%char :: c :: _ => false | _ => true end) _ w Hw eq_refl). cbv beta in KC. rewrite <- EW in KC. destruct ds; [congruence|discriminate].
Qed.
(** But in the usual form, DIM=<n> in one line, it is ignored, whatever the number says. *)
Theorem C38_dimension_refuted : forall ds, ds <> [] -> digits ds ->
  exists fuel0, forall fuel, fuel0 <= fuel ->
    m_input_vertices (one_file ((lit "DIM=" ++ ds) ++ newline :: line "Vertices:" ++ line "0 1")) fuel [lit "f"] = Ok (Some ([[0; 1; 1]]%Z, [], [], [])).
Proof.
  intros ds Hn Hd. assert (KL : keyword_line plain_convex_words (lit "Vertices:")) by (exists [], "Vertices:"%string, []; split; [reflexivity|split; [cbn; tauto|split; constructor]]).
  assert (PL := dim_line_plain ds Hn Hd). set (t := (lit "DIM=" ++ ds) ++ newline :: line "Vertices:" ++ line "0 1").
  destruct (C47_read (one_file t) [lit "f"] (lit "f") NoSorting t {| c_points := [[(0, 1); (1, 1)]]%Z; c_rays := []; c_names := []; c_maps := []; c_dimension := None |}) as (f0 & K); auto using asks_plain.
  - exists (lit "Vertices:"). split; [exists [lit "DIM=" ++ ds], (newline :: line "0 1")|].
    + split; [unfold t; cbn [map concat]; rewrite app_nil_r, <- !app_assoc; reflexivity|]. split; [cbn; lia|]. split; [constructor; [apply PL|constructor]|]. split; [cbn; intuition discriminate|]. right. eexists. reflexivity.
    + exists [], "Vertices:"%string, []. split; [reflexivity|split; [vm_compute; tauto|split; constructor]].
  - apply (file_line _ (lit "DIM=" ++ ds)); [left; exact PL|].
    apply (file_points _ (lit "Vertices:") (line "0 1") [[(0, 1); (1, 1)]]%Z [] [] None); auto.
    + apply (section_point [] (lit "0 1") [(0, 1); (1, 1)]%Z []); [repeat constructor|apply (two_wholes "0" "1" 0 1); try reflexivity; try discriminate; lia|constructor].
    + apply follow_end. constructor. constructor.
    + exists (map (row_of false) [[(0, 1); (1, 1)]]%Z). split; [|repeat constructor; cbv; discriminate].
      constructor; [|constructor]; (apply represents_iff; [|reflexivity]); repeat constructor; try (apply small_int; cbn; lia); discriminate.
    + apply file_none.
  - exists f0. intros fuel Hf. destruct (K fuel Hf) as [(V & EV & rays & points & -> & _ & _ & HN & _) _].
    + exists 2. split; [discriminate|]. split; [intros p [<-|[]]; reflexivity|]. split; [intros m []|]. split; left; reflexivity.
    + destruct (HN eq_refl) as [-> ->]. exact EV.
Qed.
Print Assumptions C38_dimension_refuted.

(** ** What is surprising in a file *)
(** A section replaces an earlier one of the same kind: the first point is lost. *)
Theorem C47_repeated_section_refuted :
  m_input_vertices (one_file (line "Vertices:" ++ line "0 0" ++ line "Vertices:" ++ line "1 1")) 20 [lit "f"] = Ok (Some ([[1; 1; 1]]%Z, [], [], [])).
Proof. vm_compute. reflexivity. Qed.
Print Assumptions C47_repeated_section_refuted.
(** A last denominator that does not fit an int is read as 2147483647, without an error, and the lines behind it are dropped; so are the lines behind a coordinate that is followed by anything else. *)
Theorem C32_large_denominator_refuted :
  m_input_vertices (one_file (line "Vertices:" ++ line "0 0" ++ line "0 1/99999999999" ++ line "5 5")) 20 [lit "f"] = Ok (Some ([[0; 0; 1]; [0; 1; 2147483647]]%Z, [], [], [])).
Proof. vm_compute. reflexivity. Qed.
Print Assumptions C32_large_denominator_refuted.
Theorem C32_trailing_refuted :
  m_input_vertices (one_file (line "Vertices:" ++ line "0 0" ++ line "1 1/2/3" ++ line "5 5")) 20 [lit "f"] = Ok (Some ([[0; 0; 1]; [2; 1; 2]]%Z, [], [], [])) /\
  m_input_vertices (one_file (line "Vertices:" ++ line "0 0" ++ line "1 2," ++ line "5 5")) 20 [lit "f"] = Ok (Some ([[0; 0; 1]; [1; 2; 1]]%Z, [], [], [])).
Proof. split; vm_compute; reflexivity. Qed.
Print Assumptions C32_trailing_refuted.
(** The number of images on a line of a map is not checked. A missing image is taken as zero: the line "y" is the map that sends x to y and y to 0. *)
Definition mapped_square (maps : text) : text := line "Names:" ++ line "x y" ++ line "Maps:" ++ maps ++ line "Vertices:" ++ line "0 1" ++ line "1 0".
Theorem C47_missing_image_refuted :
  m_input_vertices (one_file (mapped_square (line "y"))) 40 [lit "f"] = Ok (Some ([[0; 1; 1]; [1; 0; 1]]%Z, [lit "x"; lit "y"], [[[(1, 1%Z)]; []; [(2, 1%Z)]]], [])).
Proof. vm_compute. reflexivity. Qed.
Print Assumptions C47_missing_image_refuted.
(** A blank behind the last image of a line that is too short joins the next line: its first word becomes the second image, and what is left of it another map. *)
Theorem C47_joined_lines_refuted :
  m_input_vertices (one_file (mapped_square (line "y " ++ line "y x"))) 40 [lit "f"] =
  Ok (Some ([[0; 1; 1]; [1; 0; 1]]%Z, [lit "x"; lit "y"], [[[(1, 1%Z)]; [(1, 1%Z)]; [(2, 1%Z)]]; [[(0, 1%Z)]; []; [(2, 1%Z)]]], [])).
Proof. vm_compute. reflexivity. Qed.
Print Assumptions C47_joined_lines_refuted.
(** The images that are too many become a further map. *)
Theorem C47_further_image_refuted :
  m_input_vertices (one_file (mapped_square (line "y x x"))) 40 [lit "f"] =
  Ok (Some ([[0; 1; 1]; [1; 0; 1]]%Z, [lit "x"; lit "y"], [[[(1, 1%Z)]; [(0, 1%Z)]; [(2, 1%Z)]]; [[(0, 1%Z)]; []; [(2, 1%Z)]]], [])).
Proof. vm_compute. reflexivity. Qed.
Print Assumptions C47_further_image_refuted.
(** A section of maps that is not preceded by names is never finished, whatever its first line is. *)
Theorem C47_maps_without_names_refuted : forall title l r, keyword_line maps_words title -> plain_line l -> (exists c l', l = c :: l' /\ is_blank c = false /\ is_eol c = false) ->
  forall fuel, m_maps fuel [] (opened (title ++ newline :: l ++ newline :: r)) = Ok None.
Proof.
  intros title l r HK [Nn HL] (c & l' & -> & Hb & He) fuel. destruct (keyword_line_trim maps_words title eq_refl HK) as (w & Hw & Et & Nt). unfold m_maps. rewrite getline_newline by auto.
  change (ok (opened ((c :: l') ++ newline :: r))) with true. cbn [negb]. rewrite Et, (word_check (fun w => m_is_maps (lit w)) _ w Hw eq_refl). cbn [negb].
  assert (SW : m_skip_whitespace (opened (c :: l' ++ newline :: r)) = Ok (opened (c :: l' ++ newline :: r))) by (unfold opened at 1; rewrite skip_whitespace_ok by discriminate; cbn [drop_while]; rewrite Hb; reflexivity).
  assert (SE : m_skip_end_of_line (opened (c :: l' ++ newline :: r)) = Ok (opened (c :: l' ++ newline :: r))) by (unfold opened at 1; rewrite skip_end_of_line_ok by discriminate; cbn [drop_while]; rewrite He; reflexivity).
  assert (L : forall maps, maps_loop fuel [] maps (opened ((c :: l') ++ newline :: r)) = Ok None).
  { induction fuel as [|fuel IH]; intros maps; [reflexivity|]. cbn [maps_loop]. change (ok (opened ((c :: l') ++ newline :: r))) with true. cbn [negb].
    rewrite !peek_line_opened, !first_line_newline, plain_trim by auto.
    destruct (trim_first [] c l' ltac:(constructor) Hb) as (t' & E). cbn [app] in E. rewrite E. cbn [at_end].
    unfold m_map. cbn [length repeat Nat.add app]. rewrite SW. cbn [bind map_loop].
    change (ok (opened (c :: l' ++ newline :: r))) with true. cbn [negb]. rewrite is_end_of_line_opened, He, is_end_of_file_opened. cbn [at_end length Nat.ltb Nat.leb negb andb bind].
    rewrite SW. cbn [bind]. rewrite SE. cbn [bind]. apply IH. }
  rewrite L. reflexivity.
Qed.
Print Assumptions C47_maps_without_names_refuted.
