(** * PropertiesCoordinatesFile: a change of coordinates of a system in a file changes the printed vertices only by that change (C67). *)
From Coq Require Import List ZArith QArith Arith Bool Ascii String Lia Lqa Permutation.
From Verif Require Import Base Spec LinAlg Cone ListUtil ArithModel MatrixModel FmeModel SafeIntModel IntTypes SortModel SortProofs PropertiesSort ClassesModel ClassesProofs ApplyTheorems PropertiesMaps
  ConstraintModel PropertiesConstraints Hull Corners FmeCore FmePure FmePrepare FmeCorrect FmeTheorems PropertiesFme Adjacency NormalForm Symmetry VertexImages ListModel AdModel PropertiesAd ConeSame HullSame PropertiesSame
  PropertiesExpand PropertiesExpandSystem PropertiesProgram PropertiesRotation PropertiesSameAd Samples FileModel FileProofs FileInput InputModel VertexInput PropertiesVertices CliModel PropertiesFile SystemFile PropertiesSystem PropertiesMapFile OutputModel PropertiesOutput FmeRefine StreamModel
  ConstraintSection StreamProofs OutputProofs MapModel OutputModel PropertiesRoundTrip Coordinates PropertiesCoordinates.
Import ListNotations.
Open Scope nat_scope.
Open Scope list_scope.
Notation clears l := (Forall2 (fun q x => q * inject_Z l == inject_Z x)%Q).

(** ** Specification *)
(** The points or directions of one list stand in the relation to those of the other list, one to one. *)
Definition one_to_one_points (R : list Q -> list Q -> Prop) (L1 L2 : list (list Q)) : Prop := exists L, Permutation L1 L /\ Forall2 R L L2.

(** The same for constraints. *)
Definition one_to_one_constraints (R : constraint -> constraint -> Prop) (L1 L2 : list constraint) : Prop := exists L, Permutation L1 L /\ Forall2 R L L2.
(** Satisfied by the points of [S] by a margin that is a fixed positive multiple of the margin by which their images satisfy the other one. *)
Definition same_margin (n : nat) (S : list Q -> Prop) (m : lmap) (k l : constraint) : Prop := exists a, (0 < a)%Q /\ forall p : list Q, length p = n -> S p -> (excess k p == a * excess l (moved_by m p))%Q.

(** ** Vertices and extreme directions under a change of coordinates *)
Lemma same_trans p q r : same_point p q -> same_point q r -> same_point p r.
Proof.
  intros H. revert r. induction H as [|a b p q E _ IH]; intros r K; inversion K as [|? c ? r' Ec Er]; subst; constructor; [rewrite E; exact Ec|apply IH; exact Er].
Qed.
Lemma multiple_refl d : multiple d d.
Proof. exists 1%Q. split; [reflexivity|]. intros j. ring. Qed.
Lemma multiple_sym d e : multiple d e -> multiple e d.
Proof.
  intros (s & Hs & H). assert (Ns : ~ (s == 0)%Q) by (intros E; rewrite E in Hs; discriminate Hs). exists (/ s)%Q. split; [apply Qinv_lt_0_compat; auto|]. intros j. rewrite H. field. auto.
Qed.
Lemma multiple_trans d e f : multiple d e -> multiple e f -> multiple d f.
Proof.
  intros (s & Hs & H) (r & Hr & K). exists (s * r)%Q. split; [apply Qmult_lt_0_compat; auto|]. intros j. rewrite H, K. ring.
Qed.
Lemma points_paired (R E1 E2 : list Q -> list Q -> Prop) (L1 L2 : list (list Q)) : (forall x, E1 x x) -> (forall x, E2 x x) -> listed_once E1 L1 -> listed_once E2 L2 ->
  (forall y, In y L2 -> exists x, In x L1 /\ R x y) -> (forall x, In x L1 -> exists y, In y L2 /\ R x y) ->
  (forall x x' y, In x L1 -> In x' L1 -> In y L2 -> R x y -> R x' y -> E1 x x') -> (forall x y y', In x L1 -> In y L2 -> In y' L2 -> R x y -> R x y' -> E2 y y') -> one_to_one_points R L1 L2.
Proof.
  intros R1 R2 U1 U2 T2 T1 I1 I2.
  assert (N : forall (E : list Q -> list Q -> Prop) L, (forall x, E x x) -> listed_once E L -> NoDup L).
  { intros E L RE U. apply (NoDup_nth L []). intros i j Hi Hj Q. apply U; auto. rewrite Q. auto. }
  assert (O : forall (E : list Q -> list Q -> Prop) L x y, listed_once E L -> In x L -> In y L -> E x y -> x = y).
  { intros E L x y U Hx Hy Q. destruct (In_nth L x [] Hx) as (i & Hi & Ei). destruct (In_nth L y [] Hy) as (j & Hj & Ej). subst x y. rewrite (U i j Hi Hj Q). reflexivity. }
  apply (paired_from R L1 L2); auto.
  - apply (N E1); auto.
  - apply (N E2); auto.
  - intros x x' y Hx Hx' Hy A B. apply (O E1 L1); auto. apply (I1 x x' y); auto.
  - intros x y y' Hx Hy Hy' A B. apply (O E2 L2); auto. apply (I2 x y y'); auto.
Qed.
Section Systems.
  Variables (n : nat) (m : lmap).
  Hypothesis Hm : maps_of_dimension n [m].
  Hypothesis Ho : PropertiesExpandSystem.onto n m.
  Variables A1 A2 : list vec.
  Hypotheses (D1 : dims (S n) A1) (D2 : dims (S n) A2) (U1 : In (unit_vec (S n) n (-1)) A1) (U2 : In (unit_vec (S n) n (-1)) A2).
  Hypothesis SS : forall x, length x = S n -> (solution (S n) A1 x <-> solution (S n) A2 (substitute m x)).
  Let Mi : forall m', In m' [m] -> map_in (S n) m' /\ nth n m' [] = [(n, 1%Z)].
  Proof. intros m' H. apply Hm. exact H. Qed.

  Lemma corner_moved p : length p = n -> (corner n A1 p <-> corner n A2 (moved_by m p)).
  Proof.
    intros Lp. destruct (clear_point p) as (l & xs & Hl & CX). assert (Lx : length xs = n) by (rewrite <- (forall2_length _ _ _ CX); auto).
    destruct (moved_substitute n [m] Hm m p xs l (or_introl eq_refl) Lx CX) as (ys & EY & Ly & CY).
    rewrite (corner_extreme n A1 p xs l), (corner_extreme n A2 (moved_by m p) ys l) by auto. rewrite <- EY. apply (extreme_change n m Hm Ho A1 A2 SS). rewrite app_length. cbn. lia.
  Qed.
  Lemma direction_turned d : length d = n -> (extreme_direction n A1 d <-> extreme_direction n A2 (turned_by m d)).
  Proof.
    intros Ld. destruct (clear_point d) as (l & xs & Hl & CX). assert (Lx : length xs = n) by (rewrite <- (forall2_length _ _ _ CX); auto).
    destruct (turned_substitute n [m] Mi m d xs l (or_introl eq_refl) Lx CX) as (ys & EY & Ly & CY).
    rewrite (direction_extreme n A1 d xs l), (direction_extreme n A2 (turned_by m d) ys l) by auto. rewrite <- EY. apply (extreme_change n m Hm Ho A1 A2 SS). rewrite app_length. cbn. lia.
  Qed.
End Systems.
Section Maps.
  Variables (n : nat) (m : lmap).
  Hypothesis Hm : maps_of_dimension n [m].
  Hypothesis Ho : PropertiesExpandSystem.onto n m.
  Let Mi : forall m', In m' [m] -> map_in (S n) m' /\ nth n m' [] = [(n, 1%Z)].
  Proof. intros m' H. apply Hm. exact H. Qed.
  Lemma prop_cancel x y : length x = S n -> length y = S n -> (prop_rows x y <-> prop_rows (substitute m x) (substitute m y)).
  Proof.
    intros Lx Ly. split; [apply prop_sub|]. intros (a & b & Ha & Hb & E). exists a, b. split; auto. split; auto. apply (sub_cancel n m Hm Ho); rewrite ?vscale_length; auto. rewrite !sub_scale. exact E.
  Qed.
  Lemma moved_same p q : length p = n -> length q = n -> (same_point p q <-> same_point (moved_by m p) (moved_by m q)).
  Proof.
    intros Lp Lq. destruct (clear_point p) as (l & xs & Hl & CX). destruct (clear_point q) as (k & zs & Hk & CZ).
    assert (Lx : length xs = n) by (rewrite <- (forall2_length _ _ _ CX); auto). assert (Lz : length zs = n) by (rewrite <- (forall2_length _ _ _ CZ); auto).
    destruct (moved_substitute n [m] Hm m p xs l (or_introl eq_refl) Lx CX) as (ys & EY & Ly & CY). destruct (moved_substitute n [m] Hm m q zs k (or_introl eq_refl) Lz CZ) as (us & EU & Lu & CU).
    assert (B : forall r ws j, length ws = n -> (0 < j)%Z -> clears j r ws -> point_stands n r (ws ++ [j])) by (intros r ws j; exists ws, j; auto).
    rewrite <- (point_same n p q (xs ++ [l]) (zs ++ [k])), <- (point_same n (moved_by m p) (moved_by m q) (ys ++ [l]) (us ++ [k])) by auto.
    rewrite <- EY, <- EU. apply prop_cancel; rewrite app_length; cbn; lia.
  Qed.
  Lemma turned_multiple p q : length p = n -> length q = n -> (multiple p q <-> multiple (turned_by m p) (turned_by m q)).
  Proof.
    intros Lp Lq. destruct (clear_point p) as (l & xs & Hl & CX). destruct (clear_point q) as (k & zs & Hk & CZ).
    assert (Lx : length xs = n) by (rewrite <- (forall2_length _ _ _ CX); auto). assert (Lz : length zs = n) by (rewrite <- (forall2_length _ _ _ CZ); auto).
    destruct (turned_substitute n [m] Mi m p xs l (or_introl eq_refl) Lx CX) as (ys & EY & Ly & CY). destruct (turned_substitute n [m] Mi m q zs k (or_introl eq_refl) Lz CZ) as (us & EU & Lu & CU).
    assert (B : forall r ws j, length ws = n -> (0 < j)%Z -> clears j r ws -> direction_stands n r (ws ++ [0%Z])) by (intros r ws j; exists ws, j; auto).
    rewrite <- (direction_same n p q (xs ++ [0%Z]) (zs ++ [0%Z])), <- (direction_same n (turned_by m p) (turned_by m q) (ys ++ [0%Z]) (us ++ [0%Z])) by eauto.
    rewrite <- EY, <- EU. apply prop_cancel; rewrite app_length; cbn; lia.
  Qed.
  Lemma turned_length d : length d = n -> length (turned_by m d) = n.
  Proof.
    intros Ld. destruct (clear_point d) as (l & xs & Hl & CX). assert (Lx : length xs = n) by (rewrite <- (forall2_length _ _ _ CX); auto).
    destruct (turned_substitute n [m] Mi m d xs l (or_introl eq_refl) Lx CX) as (ys & _ & Ly & CY). rewrite (forall2_length _ _ _ CY). auto.
  Qed.
  Lemma moved_length p : length p = n -> length (moved_by m p) = n.
  Proof.
    intros Lp. destruct (clear_point p) as (l & xs & Hl & CX). assert (Lx : length xs = n) by (rewrite <- (forall2_length _ _ _ CX); auto).
    destruct (moved_substitute n [m] Hm m p xs l (or_introl eq_refl) Lx CX) as (ys & _ & Ly & CY). rewrite (forall2_length _ _ _ CY). auto.
  Qed.
  Lemma turned_onto e : length e = n -> exists d, length d = n /\ multiple (turned_by m d) e.
  Proof.
    intros Le. destruct (clear_point e) as (l & ys & Hl & CY). assert (Ly : length ys = n) by (rewrite <- (forall2_length _ _ _ CY); auto).
    destruct (column_onto n m Hm Ho (ys ++ [0%Z])) as (x & k & Lx & Hk & E); [rewrite app_length; cbn; lia|].
    destruct (row_split n x Lx) as (xs & c & Ex & Lxs & Nx & _ & _). assert (C0 : c = 0%Z).
    { assert (Q := f_equal (fun u => nth n u 0%Z) E). cbn beta in Q. rewrite (change_last n m Hm), nth_vscale, Nx, (nth_snoc n), Nat.eqb_refl in Q by auto. lia. }
    rewrite C0 in Ex. exists (map inject_Z xs). assert (CX : clears 1%Z (map inject_Z xs) xs) by (clear; induction xs as [|x xs IH]; cbn [map]; constructor; auto; ring).
    split; [rewrite map_length; auto|]. destruct (turned_substitute n [m] Mi m _ xs 1%Z (or_introl eq_refl) Lxs CX) as (us & EU & Lu & CU).
    apply (direction_same n _ e (us ++ [0%Z]) (ys ++ [0%Z])); [exists us, 1%Z; split; auto; split; auto; split; [lia|auto]|exists ys, l; auto|].
    rewrite <- EU, <- Ex, E. exists 1%Z, k. split; [lia|]. split; auto. apply (vec_ext_nth (S n)); rewrite ?vscale_length, ?app_length, ?Ly; cbn [length]; try lia. intros i Hi. rewrite !nth_vscale. ring.
  Qed.
End Maps.

(** ** Files *)
(** For two files without maps whose common solutions correspond under the change of coordinates (there are some, and they contain no line): the two vertex enumerations print vertices that correspond
    one to one, each being the image of its partner, and rays of which each has the direction of the image of its partner. *)
Theorem C67_vertex_files : forall t1 t2 order1 order2 fs1 fs2 args1 args2 name1 name2 so1 so2 content1 content2 s1 s2 n m (F1 F2 : list vec),
  t1 <> INT16 -> sort_order order1 -> asks args1 name1 so1 -> fs1 name1 = Some content1 -> early_keyword content1 -> system_text no_system (Some content1) s1 ->
  t2 <> INT16 -> sort_order order2 -> asks args2 name2 so2 -> fs2 name2 = Some content2 -> early_keyword content2 -> system_text no_system (Some content2) s2 ->
  fits_together s1 n -> equations_fit s1 n -> s_maps s1 = [] -> pointed n (constraints_of s1) ->
  fits_together s2 n -> equations_fit s2 n -> s_maps s2 = [] -> pointed n (constraints_of s2) -> 0 < n ->
  maps_of_dimension n [m] -> PropertiesExpandSystem.onto n m ->
  (exists p : list Q, length p = n /\ all_satisfied (constraints_of s1) p) ->
  (forall p : list Q, length p = n -> (all_satisfied (constraints_of s1) p <-> all_satisfied (constraints_of s2) (moved_by m p))) ->
  m_fme (arith t1) order1 (system_rows s1 so1) = Ok F1 -> Forall negatable_row F1 -> m_fme (arith t2) order2 (system_rows s2 so2) = Ok F2 -> Forall negatable_row F2 ->
  exists vertices1 P1 rays1 R1 vertices2 P2 rays2 R2,
    section_lines vertices1 P1 /\ section_lines rays1 R1 /\ section_lines vertices2 P2 /\ section_lines rays2 R2 /\
    (exists fuel0, forall fuel, fuel0 <= fuel ->
      m_vertex_program t1 order1 fs1 fuel args1 = Some (vertex_text vertices1 rays1 (match P1 with [] => true | _ => false end) (match R1 with [] => true | _ => false end) false, Ok tt) /\
      m_vertex_program t2 order2 fs2 fuel args2 = Some (vertex_text vertices2 rays2 (match P2 with [] => true | _ => false end) (match R2 with [] => true | _ => false end) false, Ok tt)) /\
    one_to_one_points (fun p q => same_point (moved_by m p) q) (map coordinates_of P1) (map coordinates_of P2) /\
    one_to_one_points (fun d e => multiple (turned_by m d) e) (map coordinates_of R1) (map coordinates_of R2).
Proof.
  intros t1 t2 order1 order2 fs1 fs2 args1 args2 name1 name2 so1 so2 content1 content2 s1 s2 n m F1 F2 T1 O1 HA1 HF1 HK1 HT1 T2 O2 HA2 HF2 HK2 HT2 Hn1 He1 HM1 HP1 Hn2 He2 HM2 HP2 H0 Hm Ho HE HS E1 B1 E2 B2.
  assert (S1 := system_sound _ _ _ HT1 no_system_sound). assert (S2 := system_sound _ _ _ HT2 no_system_sound).
  destruct (system_rows_facts s1 so1 n Hn1 He1 S1) as (D1 & U1 & _). destruct (system_rows_facts s2 so2 n Hn2 He2 S2) as (D2 & U2 & _).
  destruct (vertex_program_lists t1 order1 fs1 args1 name1 so1 content1 s1 n F1 T1 O1 HA1 HF1 HK1 HT1 Hn1 He1 H0 HM1 HP1 E1 B1) as (vertices1 & P1 & rays1 & R1 & K1 & K2 & (f1 & K3) & _ & V1 & W1 & X1 & Y1 & (_ & _ & L1)).
  destruct (vertex_program_lists t2 order2 fs2 args2 name2 so2 content2 s2 n F2 T2 O2 HA2 HF2 HK2 HT2 Hn2 He2 H0 HM2 HP2 E2 B2) as (vertices2 & P2 & rays2 & R2 & M1 & M2 & (f2 & M3) & _ & V2 & W2 & X2 & Y2 & (_ & _ & L2)).
  assert (SS : forall x, length x = S n -> (solution (S n) (system_rows s1 so1) x <-> solution (S n) (system_rows s2 so2) (substitute m x))).
  { apply system_image; auto.
    - destruct HE as (p & Lp & Sp). exists p. split; auto. apply (solves_system s1 so1 n); auto.
    - intros p Lp. rewrite (solves_system s1 so1 n p), (solves_system s2 so2 n (moved_by m p)) by (auto; apply (moved_length n m Hm); auto). auto. }
  assert (CV : forall p, length p = n -> (vertex_of n (all_satisfied (constraints_of s1)) p <-> vertex_of n (all_satisfied (constraints_of s2)) (moved_by m p))).
  { intros p Lp. rewrite (system_corner s1 so1 n p Hn1 He1 S1), (system_corner s2 so2 n _ Hn2 He2 S2). apply corner_moved; auto. }
  assert (CD : forall d, length d = n -> (extreme_move n (constraints_of s1) d <-> extreme_move n (constraints_of s2) (turned_by m d))).
  { intros d Ld. rewrite (system_extreme s1 so1 n d Hn1 He1 S1), (system_extreme s2 so2 n _ Hn2 He2 S2). apply direction_turned; auto. }
  assert (SR : forall p, same_point p p) by (induction p; constructor; auto; reflexivity).
  assert (LC : forall (P R : list (list (Z * Z))) p, (forall r, In r (P ++ R) -> length r = n) -> In p (map coordinates_of P) \/ In p (map coordinates_of R) -> length p = n).
  { intros P R p H [Hp|Hp]; apply in_map_iff in Hp as (r & <- & Hr); unfold coordinates_of; rewrite map_length; apply H, in_app_iff; auto. }
  assert (LP : forall p, In p (map coordinates_of P1) -> length p = n) by (intros p Hp; apply (LC P1 R1); auto). assert (LQ : forall p, In p (map coordinates_of P2) -> length p = n) by (intros p Hp; apply (LC P2 R2); auto).
  assert (LD : forall p, In p (map coordinates_of R1) -> length p = n) by (intros p Hp; apply (LC P1 R1); auto). assert (LE : forall p, In p (map coordinates_of R2) -> length p = n) by (intros p Hp; apply (LC P2 R2); auto).
  exists vertices1, P1, rays1, R1, vertices2, P2, rays2, R2. split; auto. split; auto. split; auto. split; auto. split; [|split].
  - exists (f1 + f2). intros fuel Hf. split; [apply K3|apply M3]; lia.
  - apply (points_paired _ same_point same_point); auto.
    + intros q Hq. assert (Lq := LQ q Hq). destruct (Ho q Lq) as (p & Lp & Hs).
      assert (Vp : vertex_of n (all_satisfied (constraints_of s1)) p) by (apply CV; auto; apply V2; exists q; split; auto; apply same_sym; auto).
      apply V1 in Vp as (p' & Hp' & Hs'). exists p'. split; auto. apply (same_trans _ (moved_by m p)); auto. apply (proj1 (moved_same n m Hm Ho p' p (LP p' Hp') Lp)); auto.
    + intros p Hp. assert (Lp := LP p Hp). assert (Vp : vertex_of n (all_satisfied (constraints_of s1)) p) by (apply V1; exists p; auto). apply CV in Vp; auto. apply V2 in Vp as (q & Hq & Hs). exists q. split; auto. apply same_sym; auto.
    + intros p p' q Hp Hp' Hq A B. apply (proj2 (moved_same n m Hm Ho p p' (LP p Hp) (LP p' Hp'))). apply (same_trans _ q); auto. apply same_sym; auto.
    + intros p q q' Hp Hq Hq' A B. apply (same_trans _ (moved_by m p)); auto. apply same_sym; auto.
  - apply (points_paired _ multiple multiple); auto using multiple_refl.
    + intros e He. assert (Le := LE e He). destruct (turned_onto n m Hm Ho e Le) as (d & Ld & Hs). assert (Lt := turned_length n m Hm d Ld).
      assert (Vd : extreme_move n (constraints_of s1) d) by (apply CD; auto; apply X2; split; auto; exists e; auto).
      apply X1 in Vd as (_ & d' & Hd' & Hs'). exists d'. split; auto. apply (multiple_trans _ (turned_by m d)); auto. apply (proj1 (turned_multiple n m Hm Ho d' d (LD d' Hd') Ld)). apply multiple_sym; auto.
    + intros d Hd. assert (Ld := LD d Hd). assert (Vd : extreme_move n (constraints_of s1) d) by (apply X1; split; auto; exists d; split; auto; apply multiple_refl). apply CD in Vd; auto. apply X2 in Vd as (_ & e & He & Hs). exists e. auto.
    + intros d d' e Hd Hd' He A B. apply (proj2 (turned_multiple n m Hm Ho d d' (LD d Hd) (LD d' Hd'))). apply (multiple_trans _ e); auto. apply multiple_sym; auto.
    + intros d e e' Hd He He' A B. apply (multiple_trans _ (turned_by m d)); auto. apply multiple_sym; auto.
Qed.
Print Assumptions C67_vertex_files.

(** ** Facets of two files *)
Lemma facet_program_wide t order fs args name so content c n (E F : list vec) :
  t <> INT16 -> sort_order order -> asks args name so -> fs name = Some content -> early_keyword content -> file_text nothing (Some content) c ->
  agree c n -> c_points c <> [] -> c_maps c = [] -> good_names (c_names c) ->
  m_extract_equations (arith t) (file_rows c so) = Ok E -> m_fme (arith t) order (file_rows c so) = Ok F -> Forall negatable_row E -> Forall negatable_row F ->
  exists equations Pe inequalities Pf,
    written (constraint_line (c_names c) Equation) equations Pe /\ written (constraint_line (c_names c) Inequality) inequalities Pf /\
    (exists fuel0, forall fuel, fuel0 <= fuel -> m_facet_program t order fs fuel args = Some (facet_text equations inequalities (match Pe with [] => true | _ => false end) false, Ok tt)) /\
    map wide_row Pe = E /\ Permutation (map wide_row Pf) F /\ Forall (good_constraint Equation) Pe /\ Forall (good_constraint Inequality) Pf /\ (forall k, In k (Pe ++ Pf) -> fst k = n).
Proof.
  intros Ht Ho HA HF HK HT HG Hne HM HN HE HFm BE BF. assert (HS := file_is_sane (Some content) c HT).
  destruct (file_rows_facts c so n HS HG Hne) as (HP & HD & HH & HR). assert (HNl : c_names c = [] \/ length (c_names c) = n) by apply HG.
  destruct (facet_program_reads t order fs args name so content c n Ht HA HF HK HT HG) as (f0 & K).
  set (V := file_rows c so) in *. set (names := c_names c) in *.
  destruct (equations_printable t n V E names Ht (HR t Ht) HD HH HNl HE BE) as [DE PE].
  destruct (facets_printable t order n V F names Ht Ho (HR t Ht) HD HH HNl HFm BF) as [DF PF].
  destruct (matrix_lines t Equation names n E HN PE DE HNl) as (equations & Pe & E1 & W1 & R1 & G1).
  destruct (classes_none t Facet_tag F (length F) (le_n _)) as (out & EO & HO).
  assert (NO : NoDup out) by (apply (C27_classes t Facet_tag [] (length F) F out); auto; intros r Hr m []).
  assert (NF : NoDup F) by (destruct (homogenised_pos (S n) V HD HH) as (_ & _ & X); apply (rows_distinct t order (S n) V Ht Ho (HR t Ht) HD F X HFm)).
  assert (DO : dims (S n) out) by (apply Forall_forall; intros x Hx; apply (dims_in (S n) F); auto; apply HO; auto).
  assert (PO : Forall (printable names) out) by (apply Forall_forall; intros x Hx; rewrite Forall_forall in PF; apply PF; apply HO; auto).
  destruct (matrix_lines t Inequality names n out HN PO DO HNl) as (inequalities & Pf & E2 & W2 & R2 & G2).
  assert (HRN : readable_names names) by (destruct HN as (N1 & N2 & N3 & _); split; auto).
  exists equations, Pe, inequalities, Pf. split; [exact W1|]. split; [exact W2|]. split; [|split; [exact R1|split; [|split; [|split]]]].
  - exists (f0 + length F). intros fuel Hfuel. rewrite (K fuel) by lia. rewrite HM. apply (facet_call_mono t order (length F) fuel); [lia|].
    unfold m_facet_call. change (num (arith t)) with Z in *. rewrite HE. cbn [m_normalize_maps mapM]. rewrite HFm. cbn [bind]. rewrite EO. f_equal. unfold m_print_inequalities.
    unfold relation_sign in E1, E2. rewrite E2. cbn [nonempty m_reduced]. assert (EP : E = [] <-> Pe = []) by (rewrite <- R1; destruct Pe; split; intros X; auto; discriminate X).
    destruct E as [|e0 E']; destruct Pe as [|c0 Pe']; try (exfalso; destruct EP as [EP1 EP2]; discriminate (EP1 eq_refl) || discriminate (EP2 eq_refl)).
    + cbn [say andthen fst snd app facet_text]. unfold facet_text, end_line. rewrite <- app_assoc. reflexivity.
    + rewrite E1. cbn [say andthen fst snd app facet_text]. unfold facet_text, end_line. rewrite <- !app_assoc. cbn [app]. rewrite <- !app_assoc. reflexivity.
  - rewrite R2. apply NoDup_Permutation; auto.
  - assert (SG := section_good names Equation equations [] Pe [] None HRN W1 ltac:(apply follows_end; [constructor|reflexivity])). rewrite app_nil_r in SG. exact SG.
  - assert (SI := section_good names Inequality inequalities [] Pf [] None HRN W2 ltac:(apply follows_end; [constructor|reflexivity])). rewrite app_nil_r in SI. exact SI.
  - intros k Hk. apply in_app_iff in Hk as [Hk|Hk]; [apply G1|apply G2]; auto.
Qed.
Lemma wides_paired (R : vec -> vec -> Prop) (R' : constraint -> constraint -> Prop) F1 F2 (P1 P2 : list wide) : one_to_one_rows R F1 F2 -> Permutation (map wide_row P1) F1 -> Permutation (map wide_row P2) F2 ->
  (forall k l, In k P1 -> In l P2 -> R (wide_row k) (wide_row l) -> R' (snd k) (snd l)) -> one_to_one_constraints R' (map snd P1) (map snd P2).
Proof.
  intros (L & PL & FL) X1 X2 H. destruct (Permutation_Forall2 (Permutation_sym X2) (forall2_flip _ _ _ FL)) as (L' & PL' & FL').
  assert (Y : Permutation L' (map wide_row P1)) by (apply Permutation_sym; apply (Permutation_trans X1); apply (Permutation_trans PL); auto).
  destruct (Permutation_map_inv wide_row P1 Y) as (P & -> & YP). exists (map snd P). split; [apply Permutation_map; auto|].
  assert (HI : forall k, In k P -> In k P1) by (intros k Hk; apply (Permutation_in k (Permutation_sym YP) Hk)).
  assert (HH : forall k l, In k P -> In l P2 -> R (wide_row k) (wide_row l) -> R' (snd k) (snd l)) by (intros; apply H; auto). clear - FL' HH.
  revert P FL' HH. induction P2 as [|l P2 IH]; intros [|k P] FL HH; cbn [map] in *; try (inversion FL; fail); constructor; inversion FL as [|? ? ? ? F0 FT]; subst.
  - apply HH; auto; left; auto.
  - apply IH; auto. intros; apply HH; auto; right; auto.
Qed.
(** For two files with points and rays and without maps, the hull of the second consisting of the images of the points of the hull of the first: the two facet enumerations by double description print
    inequalities that correspond one to one, with margins in a fixed ratio at corresponding points of the hulls, and equations with corresponding solutions. *)
Theorem C67_facet_files : forall t1 t2 order1 order2 fs1 fs2 args1 args2 name1 name2 so1 so2 content1 content2 c1 c2 n m (E1 E2 F1 F2 : list vec),
  t1 <> INT16 -> sort_order order1 -> asks args1 name1 so1 -> fs1 name1 = Some content1 -> early_keyword content1 -> file_text nothing (Some content1) c1 ->
  t2 <> INT16 -> sort_order order2 -> asks args2 name2 so2 -> fs2 name2 = Some content2 -> early_keyword content2 -> file_text nothing (Some content2) c2 ->
  agree c1 n -> c_points c1 <> [] -> c_maps c1 = [] -> good_names (c_names c1) -> agree c2 n -> c_points c2 <> [] -> c_maps c2 = [] -> good_names (c_names c2) ->
  maps_of_dimension n [m] -> PropertiesExpandSystem.onto n m ->
  (forall p : list Q, length p = n ->
    (hull n (map coordinates_of (c_points c1)) (map coordinates_of (c_rays c1)) p <-> hull n (map coordinates_of (c_points c2)) (map coordinates_of (c_rays c2)) (moved_by m p))) ->
  m_extract_equations (arith t1) (file_rows c1 so1) = Ok E1 -> m_fme (arith t1) order1 (file_rows c1 so1) = Ok F1 -> Forall negatable_row E1 -> Forall negatable_row F1 ->
  m_extract_equations (arith t2) (file_rows c2 so2) = Ok E2 -> m_fme (arith t2) order2 (file_rows c2 so2) = Ok F2 -> Forall negatable_row E2 -> Forall negatable_row F2 ->
  exists equations1 Pe1 inequalities1 Pf1 equations2 Pe2 inequalities2 Pf2,
    written (constraint_line (c_names c1) Equation) equations1 Pe1 /\ written (constraint_line (c_names c1) Inequality) inequalities1 Pf1 /\
    written (constraint_line (c_names c2) Equation) equations2 Pe2 /\ written (constraint_line (c_names c2) Inequality) inequalities2 Pf2 /\
    (exists fuel0, forall fuel, fuel0 <= fuel ->
      m_facet_program t1 order1 fs1 fuel args1 = Some (facet_text equations1 inequalities1 (match Pe1 with [] => true | _ => false end) false, Ok tt) /\
      m_facet_program t2 order2 fs2 fuel args2 = Some (facet_text equations2 inequalities2 (match Pe2 with [] => true | _ => false end) false, Ok tt)) /\
    one_to_one_constraints (same_margin n (hull n (map coordinates_of (c_points c1)) (map coordinates_of (c_rays c1))) m) (map snd Pf1) (map snd Pf2) /\
    forall p : list Q, length p = n -> (all_satisfied (map snd Pe1) p <-> all_satisfied (map snd Pe2) (moved_by m p)).
Proof.
  intros t1 t2 order1 order2 fs1 fs2 args1 args2 name1 name2 so1 so2 content1 content2 c1 c2 n m E1 E2 F1 F2 T1 O1 HA1 HF1 HK1 HT1 T2 O2 HA2 HF2 HK2 HT2 G1 N1 M1 U1 G2 N2 M2 U2 Hm Ho HH HE1 HFm1 BE1 BF1 HE2 HFm2 BE2 BF2.
  destruct (facet_program_wide t1 order1 fs1 args1 name1 so1 content1 c1 n E1 F1 T1 O1 HA1 HF1 HK1 HT1 G1 N1 M1 U1 HE1 HFm1 BE1 BF1) as (equations1 & Pe1 & inequalities1 & Pf1 & A1 & A2 & (f1 & A3) & A4 & A5 & A6 & A7 & A8).
  destruct (facet_program_wide t2 order2 fs2 args2 name2 so2 content2 c2 n E2 F2 T2 O2 HA2 HF2 HK2 HT2 G2 N2 M2 U2 HE2 HFm2 BE2 BF2) as (equations2 & Pe2 & inequalities2 & Pf2 & B1 & B2 & (f2 & B3) & B4 & B5 & B6 & B7 & B8).
  assert (S1 := file_is_sane (Some content1) c1 HT1). assert (S2 := file_is_sane (Some content2) c2 HT2).
  destruct (file_rows_facts c1 so1 n S1 G1 N1) as (P1 & D1 & H1 & R1). destruct (file_rows_facts c2 so2 n S2 G2 N2) as (P2 & D2 & H2 & R2).
  assert (L1 : forall p : list Q, (hull n (points_of (file_rows c1 so1)) (rays_of (file_rows c1 so1)) p <-> hull n (map coordinates_of (c_points c1)) (map coordinates_of (c_rays c1)) p)) by (intros p; apply (rows_hull n (c_points c1) (c_rays c1) _ p ltac:(apply S1) ltac:(apply S1) P1)).
  assert (L2 : forall p : list Q, (hull n (points_of (file_rows c2 so2)) (rays_of (file_rows c2 so2)) p <-> hull n (map coordinates_of (c_points c2)) (map coordinates_of (c_rays c2)) p)) by (intros p; apply (rows_hull n (c_points c2) (c_rays c2) _ p ltac:(apply S2) ltac:(apply S2) P2)).
  destruct (C67_facets t1 t2 order1 order2 n m (file_rows c1 so1) (file_rows c2 so2) E1 E2 F1 F2) as (K1 & K2); auto.
  { intros p Lp. rewrite L1, L2. auto. }
  exists equations1, Pe1, inequalities1, Pf1, equations2, Pe2, inequalities2, Pf2. split; auto. split; auto. split; auto. split; auto. split; [|split].
  - exists (f1 + f2). intros fuel Hf. split; [apply A3|apply B3]; lia.
  - apply (wides_paired (same_slack n (file_rows c1 so1) m) _ F1 F2 Pf1 Pf2 K1 A5 B5). intros k l Hk Hl (a & b & Ha & Hb & HS). assert (Pa := inject_zero a Ha). rewrite Forall_forall in A7, B7.
    exists (inject_Z b / inject_Z a)%Q. split; [apply Qlt_shift_div_l; [unfold Qlt, inject_Z; cbn; lia|rewrite Qmult_0_l; unfold Qlt, inject_Z; cbn; lia]|]. intros p Lp Hp. apply L1 in Hp. specialize (HS p Lp Hp).
    assert (W1 := affine_wide Inequality k n p (A7 k Hk) (A8 k (proj2 (in_app_iff _ _ _) (or_intror Hk))) Lp). assert (W2 := affine_wide Inequality l n (moved_by m p) (B7 l Hl) (B8 l (proj2 (in_app_iff _ _ _) (or_intror Hl))) (moved_length n m Hm p Lp)).
    rewrite <- W1, <- W2. apply (Qmult_inj_r _ _ _ Pa). rewrite Qmult_comm, HS. field. auto.
  - intros p Lp. assert (Y1 := wide_satisfied Equation n Pe1 E1 p A6 (fun k Hk => A8 k (proj2 (in_app_iff _ _ _) (or_introl Hk))) A4 Lp).
    assert (Y2 := wide_satisfied Equation n Pe2 E2 (moved_by m p) B6 (fun k Hk => B8 k (proj2 (in_app_iff _ _ _) (or_introl Hk))) B4 (moved_length n m Hm p Lp)).
    assert (Z0 : forall (P : list wide) q, all_satisfied (map snd P) q <-> forall k, In k P -> satisfies (snd k) q).
    { intros P q. unfold all_satisfied. split; intros H; [intros k Hk; apply H, in_map; auto|intros k Hk; apply in_map_iff in Hk as (w & <- & Hw); auto]. }
    rewrite !Z0, Y1, Y2. exact (K2 p Lp).
Qed.
Print Assumptions C67_facet_files.

(** ** Example *)
(** u = y, v = 1 - y takes the line x + y = 1 to itself and swaps the two vertices, but it is no change of coordinates of the plane; u = 2x + 3y - 2, v = -x - 2y + 2 is one, and has the same effect on the segment x + y = 1, x >= 0, 2y >= 0. *)
Definition turn : lmap := [[(0, 2%Z); (1, 3%Z); (2, (-2)%Z)]; [(0, (-1)%Z); (1, (-2)%Z); (2, 2%Z)]; [(2, 1%Z)]].
Lemma turn_fits : maps_of_dimension 2 [turn] /\ PropertiesExpandSystem.onto 2 turn.
Proof.
  split.
  - intros m [<-|[]]. split; [split; [reflexivity|repeat constructor]|reflexivity].
  - intros [|u [|v [|? ?]]] L; try discriminate L. exists [(2 * u + 3 * v - 2)%Q; (- u - 2 * v + 2)%Q]. split; auto. repeat constructor; cbn; unfold inject_Z; ring.
Qed.
(** The hypotheses about the two files (here the same file twice, and its vertices (0, 1) and (1, 0)) are those of [C50_example]. *)
Example C67_vertex_files_example :
  (exists p : list Q, length p = 2 /\ all_satisfied (constraints_of segment_system) p) /\
  (forall p : list Q, length p = 2 -> (all_satisfied (constraints_of segment_system) p <-> all_satisfied (constraints_of segment_system) (moved_by turn p))) /\
  exists vertices1 P1 rays1 R1 vertices2 P2 rays2 R2,
    section_lines vertices1 P1 /\ section_lines rays1 R1 /\ section_lines vertices2 P2 /\ section_lines rays2 R2 /\
    (exists fuel0, forall fuel, fuel0 <= fuel ->
      m_vertex_program SAFE sorted_order (one_file segment) fuel [lit "f"] = Some (vertex_text vertices1 rays1 (match P1 with [] => true | _ => false end) (match R1 with [] => true | _ => false end) false, Ok tt) /\
      m_vertex_program SAFE sorted_order (one_file segment) fuel [lit "f"] = Some (vertex_text vertices2 rays2 (match P2 with [] => true | _ => false end) (match R2 with [] => true | _ => false end) false, Ok tt)) /\
    one_to_one_points (fun p q => same_point (moved_by turn p) q) (map coordinates_of P1) (map coordinates_of P2) /\
    one_to_one_points (fun d e => multiple (turned_by turn d) e) (map coordinates_of R1) (map coordinates_of R2).
Proof.
  destruct C50_example as (X1 & X2 & X3 & X4 & X5 & X6 & X7 & X8 & _).
  assert (H1 : exists p : list Q, length p = 2 /\ all_satisfied (constraints_of segment_system) p).
  { exists [1; 0]%Q. split; auto. intros k [<-|[<-|[<-|[]]]]; vm_compute; try reflexivity; discriminate. }
  assert (H2 : forall p : list Q, length p = 2 -> (all_satisfied (constraints_of segment_system) p <-> all_satisfied (constraints_of segment_system) (moved_by turn p))).
  { intros [|x [|y [|? ?]]] L; try discriminate L. split; intros H;
      assert (A := H _ (or_introl eq_refl)); assert (B := H _ (or_intror (or_introl eq_refl))); assert (C := H _ (or_intror (or_intror (or_introl eq_refl))));
      unfold satisfies, linear_form, coordinate_of in A, B, C; cbn in A, B, C; unfold inject_Z in A, B, C;
      intros k [<-|[<-|[<-|[]]]]; unfold satisfies, linear_form, coordinate_of; cbn; unfold inject_Z; lra. }
  split; auto. split; auto.
  apply (C67_vertex_files SAFE SAFE sorted_order sorted_order (one_file segment) (one_file segment) [lit "f"] [lit "f"] (lit "f") (lit "f") NoSorting NoSorting segment segment segment_system segment_system 2 turn [[1; 0; 1]; [0; 1; 1]]%Z [[1; 0; 1]; [0; 1; 1]]%Z);
    auto; try discriminate; try apply sorted_order_ok; try apply segment_text; try apply turn_fits; try lia; repeat constructor; discriminate.
Qed.
(** u = x, v = 2y takes the half strip 0 <= x <= 1/2, y >= 0 to itself; its inverse has a fraction. *)
Definition stretch : lmap := [[(0, 1%Z)]; [(1, 2%Z)]; [(2, 1%Z)]].
Lemma stretch_fits : maps_of_dimension 2 [stretch] /\ PropertiesExpandSystem.onto 2 stretch.
Proof.
  split.
  - intros m [<-|[]]. split; [split; [reflexivity|repeat constructor]|reflexivity].
  - intros [|u [|v [|? ?]]] L; try discriminate L. exists [u; (v / 2)%Q]. split; auto. repeat constructor; cbn; unfold inject_Z; field.
Qed.
Lemma half_strip_points (x y : Q) : (0 <= x <= 1 # 2)%Q -> (0 <= y)%Q -> hull 2 (map coordinates_of (c_points half_strip_contents)) (map coordinates_of (c_rays half_strip_contents)) [x; y].
Proof.
  intros Hx Hy. exists [(1 - 2 * x)%Q; (2 * x)%Q], [y]. split; [reflexivity|]. split; [reflexivity|]. split; [repeat constructor; lra|]. split; [repeat constructor; lra|]. split; [cbn; lra|].
  intros [|[|j]] Hj; [| |lia]; unfold coordinates_of; cbn [map half_strip_contents c_points c_rays fst snd comb nth]; change (inject_Z 0) with 0%Q; change (inject_Z 1) with 1%Q; change (inject_Z 2) with 2%Q; field.
Qed.
Example C67_facet_files_example :
  (forall p : list Q, length p = 2 ->
    (hull 2 (map coordinates_of (c_points half_strip_contents)) (map coordinates_of (c_rays half_strip_contents)) p <->
     hull 2 (map coordinates_of (c_points half_strip_contents)) (map coordinates_of (c_rays half_strip_contents)) (moved_by stretch p))) /\
  exists equations1 Pe1 inequalities1 Pf1 equations2 Pe2 inequalities2 Pf2,
    written (constraint_line (c_names half_strip_contents) Equation) equations1 Pe1 /\ written (constraint_line (c_names half_strip_contents) Inequality) inequalities1 Pf1 /\
    written (constraint_line (c_names half_strip_contents) Equation) equations2 Pe2 /\ written (constraint_line (c_names half_strip_contents) Inequality) inequalities2 Pf2 /\
    (exists fuel0, forall fuel, fuel0 <= fuel ->
      m_facet_program SAFE sorted_order (one_file half_strip) fuel [lit "f"] = Some (facet_text equations1 inequalities1 (match Pe1 with [] => true | _ => false end) false, Ok tt) /\
      m_facet_program SAFE sorted_order (one_file half_strip) fuel [lit "f"] = Some (facet_text equations2 inequalities2 (match Pe2 with [] => true | _ => false end) false, Ok tt)) /\
    one_to_one_constraints (same_margin 2 (hull 2 (map coordinates_of (c_points half_strip_contents)) (map coordinates_of (c_rays half_strip_contents))) stretch) (map snd Pf1) (map snd Pf2) /\
    forall p : list Q, length p = 2 -> (all_satisfied (map snd Pe1) p <-> all_satisfied (map snd Pe2) (moved_by stretch p)).
Proof.
  destruct C48_example as (X1 & X2 & X3 & X4 & X5 & X6 & X7 & X8 & _).
  assert (HH : forall p : list Q, length p = 2 ->
    (hull 2 (map coordinates_of (c_points half_strip_contents)) (map coordinates_of (c_rays half_strip_contents)) p <->
     hull 2 (map coordinates_of (c_points half_strip_contents)) (map coordinates_of (c_rays half_strip_contents)) (moved_by stretch p))).
  { intros [|x [|y [|? ?]]] L; try discriminate L. assert (E : exists u v, moved_by stretch [x; y] = [u; v] /\ (u == x)%Q /\ (v == 2 * y)%Q) by (eexists; eexists; split; [reflexivity|]; cbn; unfold inject_Z; split; ring).
    destruct E as (u & v & -> & Eu & Ev). split; intros H; apply half_strip_hull in H; cbn [nth] in H; apply half_strip_points; lra. }
  split; auto.
  apply (C67_facet_files SAFE SAFE sorted_order sorted_order (one_file half_strip) (one_file half_strip) [lit "f"] [lit "f"] (lit "f") (lit "f") NoSorting NoSorting half_strip half_strip half_strip_contents half_strip_contents 2 stretch
    [] [] [[-1; 0; 0]; [0; -1; 0]; [2; 0; -1]]%Z [[-1; 0; 0]; [0; -1; 0]; [2; 0; -1]]%Z);
    auto; try discriminate; try apply sorted_order_ok; try apply half_strip_text; try apply stretch_fits; repeat constructor; discriminate.
Qed.
