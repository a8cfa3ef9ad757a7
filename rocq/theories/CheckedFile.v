(** * CheckedFile: what the option -c finds out about the maps of a file. *)
From Coq Require Import List ZArith QArith Arith Bool Ascii String Lia Lqa Permutation.
From Verif Require Import Base Spec LinAlg Hull Corners ListUtil ArithModel MatrixModel SafeIntModel IntTypes FmeTheorems StreamModel StreamProofs ClassesModel ClassesProofs ApplyTheorems ValidityModel PropertiesValidity SortModel CliModel InputModel InputProofs VertexInput ConstraintModel
  ConstraintInput ConstraintSection PropertiesVertices PropertiesConstraints MapInput OutputModel FileModel FileProofs FileInput SystemFile HullSame PropertiesSystem PropertiesProgram PropertiesAd VertexImages PropertiesReduced PropertiesFile PropertiesMapFile.
Import ListNotations.
Open Scope nat_scope.
Open Scope list_scope.

(** ** Specification *)
Definition occurs (w t : text) : Prop := exists x y, t = x ++ w ++ y.
(** After a title that is one of the words nothing like a title of maps comes. *)
Definition maps_before (words : list string) (t : text) : Prop :=
  forall x title y w, t = x ++ title ++ newline :: y -> keyword_line words title -> In w maps_words -> ~ occurs (lit w) y.
(** No line is a title that is one of the words. *)
Definition untitled (words : list string) (t : text) : Prop := forall x title y, t = x ++ title ++ newline :: y -> ~ keyword_line words title.
(** No points and no rays are listed by representatives of their classes. *)
Definition no_classes : text -> Prop := untitled (reduced_convex_words ++ reduced_conical_words).
Definition maps_first (t : text) : Prop := maps_before (plain_convex_words ++ plain_conical_words) t /\ no_classes t.

(** The same for constraints. *)
Definition constraint_maps_first (t : text) : Prop := maps_before plain_inequality_words t /\ untitled reduced_inequality_words t.

(** ** The rest of a text *)
Definition part (t : text) (o : option text) : Prop := match o with Some u => exists x, t = x ++ u | None => True end.
Lemma occurs_part w t u : part t (Some u) -> occurs w u -> occurs w t.
Proof. intros (x & ->) (a & b & ->). exists (x ++ a), b. rewrite <- app_assoc. reflexivity. Qed.
Lemma before_part words t u : part t (Some u) -> maps_before words t -> maps_before words u.
Proof. intros (x & ->) H a title b w E. apply (H (x ++ a) title b w). rewrite E, <- !app_assoc. reflexivity. Qed.
Lemma untitled_part words t u : part t (Some u) -> untitled words t -> untitled words u.
Proof. intros (x & ->) H x' title y -> HK. apply (H (x ++ x') title y); auto. rewrite <- app_assoc. reflexivity. Qed.
Lemma part_app x t o : part t o -> part (x ++ t) o.
Proof. destruct o as [u|]; auto. intros (y & ->). exists (x ++ y). rewrite <- app_assoc. reflexivity. Qed.
Lemma part_cons x t o : part t o -> part (x :: t) o.
Proof. apply (part_app [x]). Qed.
Lemma part_refl t : part t (Some t).
Proof. exists []. reflexivity. Qed.
Lemma follow_part tail Q o : follow tail Q o -> part tail o.
Proof. intros H. inversion H; subst; cbn [part]; auto; [exists []|exists (line ++ [newline])|exists tail]; rewrite <- ?app_assoc, ?app_nil_r; auto. Qed.
Lemma follows_part {C} (line_of : text -> C -> Prop) tail Q o : follows line_of tail Q o -> part tail o.
Proof. intros H. inversion H; subst; cbn [part]; auto; [exists []|exists (line ++ [newline])|exists tail]; rewrite <- ?app_assoc, ?app_nil_r; auto. Qed.
Lemma title_occurs title t : keyword_line maps_words title -> exists w, In w maps_words /\ occurs (lit w) (title ++ t).
Proof. intros (u & w & v & -> & Hw & _). exists w. split; auto. exists u, (v ++ t). rewrite <- !app_assoc. reflexivity. Qed.

(** ** The check *)
Definition accepted (c : contents) : Prop :=
  m_check_maps (arith INT32) Vertex_tag (map point_row (c_points c)) (c_maps c) = Ok tt /\ m_check_maps (arith INT32) Vertex_tag (map ray_row (c_rays c)) (c_maps c) = Ok tt.
Lemma accepted_empty A tg maps : m_check_maps A tg [] maps = Ok tt.
Proof. unfold m_check_maps. induction maps as [|m maps IH]; [reflexivity|]. cbn. exact IH. Qed.
(** Where the maps are. *)
Definition in_order (c : contents) (o : option text) : Prop :=
  match o with None => True | Some t => no_classes t /\ ((forall w, In w maps_words -> ~ occurs (lit w) t) \/ (c_points c = [] /\ c_rays c = [] /\ maps_before (plain_convex_words ++ plain_conical_words) t)) end.
Lemma order_part c c0 t o : c_points c0 = c_points c -> c_rays c0 = c_rays c -> part t o -> in_order c (Some t) -> in_order c0 o.
Proof.
  destruct o as [u|]; cbn [in_order]; auto. intros E1 E2 HP [HU HH]. split; [apply (untitled_part _ t u); auto|]. destruct HH as [H|(H1 & H2 & H3)].
  - left. intros w Hw Ho. apply (H w Hw). apply (occurs_part _ t u); auto.
  - right. rewrite E1, E2. split; auto. split; auto. apply (before_part _ t u); auto.
Qed.
Lemma order_title c c0 title y o : keyword_line (plain_convex_words ++ plain_conical_words) title -> part y o -> in_order c (Some (title ++ newline :: y)) -> in_order c0 o.
Proof.
  destruct o as [u|]; cbn [in_order]; auto. intros HK HP [HU HH]. split; [apply (untitled_part _ (title ++ newline :: y) u); auto; apply part_app, part_cons, HP|].
  destruct HH as [H|(_ & _ & H)]; left; intros w Hw Ho; assert (Hy := occurs_part _ y u HP Ho).
  - apply (H w Hw). destruct Hy as (a & b & ->). exists (title ++ newline :: a), b. rewrite <- app_assoc. reflexivity.
  - apply (H [] title y w eq_refl HK Hw Hy).
Qed.
Lemma bindo_some {X Y} (x : res (option X)) (f : X -> res (option Y)) y : bindo x f = Ok (Some y) -> exists v, x = Ok (Some v) /\ f v = Ok (Some y).
Proof. destruct x as [[v|]| |]; cbn; try discriminate. eauto. Qed.
Lemma bind_ok' {X Y} (x : res X) (f : X -> res Y) y : bind x f = Ok y -> exists v, x = Ok v /\ f v = Ok y.
Proof. destruct x as [v| |]; cbn; try discriminate. eauto. Qed.
Lemma words_left a b title : keyword_line a title -> keyword_line (a ++ b) title.
Proof. intros (u & w & v & -> & Hw & Hu & Hv). exists u, w, v. split; auto. split; auto. apply in_app_iff. auto. Qed.
Lemma words_right a b title : keyword_line b title -> keyword_line (a ++ b) title.
Proof. intros (u & w & v & -> & Hw & Hu & Hv). exists u, w, v. split; auto. split; auto. apply in_app_iff. auto. Qed.
Lemma inner_accepted c o c' : file_text c o c' -> exists fuel0, forall fuel d, fuel0 <= fuel -> forall token s, left_over s o -> in_order c o -> accepted c ->
  inner_loop fuel true token (to_inner c) s = Ok (Some d) -> accepted c'.
Proof.
  intros H. induction H as [c|c t HP|c line t c' HP HT IH|c title lines P tail Q o c' HK HL HF HR HT IH|c title lines P tail Q o c' HK HL HF HR HT IH|c title body names sp line r c' HK HB Hsp Hne HL HT IH|
    c title lines P tail Q o c' Hd HK HW HF HT IH|c title t a ws ds r c' HK E Ha Hws Hn Hds Hv HT IH|c title lines P tail Q o classes c' HK HL HF HR HM HC HT IH|c title lines P tail Q o classes c' HK HL HF HR HM HC HT IH].
  - exists 0. auto.
  - exists 0. auto.
  - destruct IH as (f0 & IH). exists (S (S f0)). intros fuel d Hf token s0 Hs0 HO HA. destruct fuel as [|fuel]; [lia|]. destruct Hs0 as [->|[E _]]; [|destruct line; discriminate].
    assert (HO' : in_order c (Some t)) by (apply (order_part c c (line ++ newline :: t)); auto; apply part_app, part_cons, part_refl).
    destruct HP as [HP|HP]; [rewrite inner_skip by auto; apply IH; auto; [lia|left; reflexivity]|].
    destruct (title_advance end_words line token t eq_refl HP) as (w & Hw & E & Nn). cbn [inner_loop]. change (ok (opened (line ++ newline :: t))) with true. cbn [negb]. rewrite E. cbn [bind].
    change (ok (opened (line ++ newline :: t))) with true. cbn [negb].
    dispatch w Hw (fun w => negb (m_is_dimension (lit w)) && negb (m_is_names (lit w)) && negb (m_is_maps (lit w)) && negb (m_is_convex (lit w)) && negb (m_is_reduced_convex (lit w)) && negb (m_is_conical (lit w)) && negb (m_is_reduced_conical (lit w))).
    rewrite getline_newline by auto. apply IH; auto; [lia|left; reflexivity].
  - destruct IH as (f0 & IH). destruct HR as (rows & HR & HI). destruct (C31_convex_section title lines P tail Q o rows) as (f1 & K); auto; [apply words_left; auto|].
    exists (S (f0 + f1)). intros fuel d Hf token s0 Hs0 HO HA. destruct fuel as [|fuel]; [lia|]. destruct Hs0 as [->|[E _]]; [|destruct title; discriminate].
    destruct (title_advance plain_convex_words title token (lines ++ tail) eq_refl HK) as (w & Hw & E & Nn). cbn [inner_loop]. change (ok (opened (title ++ newline :: lines ++ tail))) with true. cbn [negb]. rewrite E. cbn [bind].
    change (ok (opened (title ++ newline :: lines ++ tail))) with true. cbn [negb].
    dispatch w Hw (fun w => negb (m_is_dimension (lit w)) && negb (m_is_names (lit w)) && negb (m_is_maps (lit w)) && m_is_convex (lit w)).
    unfold m_read_vertices. destruct (K (S fuel) ltac:(lia)) as (s & E2 & Hs). unfold m_vertices_convex in E2. rewrite E2.
    assert (ER : rows = map point_row (P ++ Q)) by (apply (rows_fitting false); auto; apply Forall_app; split; [apply (section_lines_proper lines); auto|apply (follow_proper tail Q o); auto]).
    rewrite ER. cbn [bindo bind fst snd]. change (i_maps (to_inner c)) with (c_maps c).
    destruct (m_check_maps (arith INT32) Vertex_tag (map point_row (P ++ Q)) (c_maps c)) as [[]| |] eqn:EC; try discriminate. cbn [bindo bind fst snd]. refine (IH fuel d ltac:(lia) (lit w) s Hs _ _).
    + apply (order_title c _ title (lines ++ tail)); auto; [apply words_left; auto|apply part_app, (follow_part tail Q); auto].
    + split; [exact EC|apply HA].
  - destruct IH as (f0 & IH). destruct HR as (rows & HR & HI). destruct (C31_conical_section title lines P tail Q o rows) as (f1 & K); auto; [apply words_left; auto|].
    exists (S (f0 + f1)). intros fuel d Hf token s0 Hs0 HO HA. destruct fuel as [|fuel]; [lia|]. destruct Hs0 as [->|[E _]]; [|destruct title; discriminate].
    destruct (title_advance plain_conical_words title token (lines ++ tail) eq_refl HK) as (w & Hw & E & Nn). cbn [inner_loop]. change (ok (opened (title ++ newline :: lines ++ tail))) with true. cbn [negb]. rewrite E. cbn [bind].
    change (ok (opened (title ++ newline :: lines ++ tail))) with true. cbn [negb].
    dispatch w Hw (fun w => negb (m_is_dimension (lit w)) && negb (m_is_names (lit w)) && negb (m_is_maps (lit w)) && negb (m_is_convex (lit w)) && negb (m_is_reduced_convex (lit w)) && m_is_conical (lit w)).
    unfold m_read_vertices. destruct (K (S fuel) ltac:(lia)) as (s & E2 & Hs). unfold m_vertices_conical in E2. rewrite E2.
    assert (ER : rows = map ray_row (P ++ Q)) by (apply (rows_fitting true); auto; apply Forall_app; split; [apply (section_lines_proper lines); auto|apply (follow_proper tail Q o); auto]).
    rewrite ER. cbn [bindo bind fst snd]. change (i_maps (to_inner c)) with (c_maps c).
    destruct (m_check_maps (arith INT32) Vertex_tag (map ray_row (P ++ Q)) (c_maps c)) as [[]| |] eqn:EC; try discriminate. cbn [bindo bind fst snd]. refine (IH fuel d ltac:(lia) (lit w) s Hs _ _).
    + apply (order_title c _ title (lines ++ tail)); auto; [apply words_right; auto|apply part_app, (follow_part tail Q); auto].
    + split; [apply HA|exact EC].
  - destruct IH as (f0 & IH). exists (S f0). intros fuel d Hf token s0 Hs0 HO HA. destruct fuel as [|fuel]; [lia|]. destruct Hs0 as [->|[E _]]; [|destruct title; discriminate].
    destruct (title_advance names_words title token (body ++ sp ++ line ++ newline :: r) eq_refl HK) as (w & Hw & E & Nn). cbn [inner_loop].
    change (ok (opened (title ++ newline :: body ++ sp ++ line ++ newline :: r))) with true. cbn [negb]. rewrite E. cbn [bind].
    change (ok (opened (title ++ newline :: body ++ sp ++ line ++ newline :: r))) with true. cbn [negb].
    dispatch w Hw (fun w => negb (m_is_dimension (lit w)) && m_is_names (lit w)).
    rewrite (names_section_ok title body names sp line r) by auto. cbn [bind fst snd]. apply IH; [lia|left; reflexivity| |exact HA].
    apply (order_part c _ (title ++ newline :: body ++ sp ++ line ++ newline :: r)); auto. apply part_app, part_cons, part_app, part_refl.
  - destruct IH as (f0 & IH). destruct (maps_section_ok (c_names c) title lines P tail Q o Hd HK HW HF) as (f1 & K).
    exists (S (f0 + f1)). intros fuel d Hf token s0 Hs0 HO HA. destruct fuel as [|fuel]; [lia|]. destruct Hs0 as [->|[E _]]; [|destruct title; discriminate].
    destruct (title_advance maps_words title token (lines ++ tail) eq_refl HK) as (w & Hw & E & Nn). cbn [inner_loop]. change (ok (opened (title ++ newline :: lines ++ tail))) with true. cbn [negb]. rewrite E. cbn [bind].
    change (ok (opened (title ++ newline :: lines ++ tail))) with true. cbn [negb].
    dispatch w Hw (fun w => negb (m_is_dimension (lit w)) && negb (m_is_names (lit w)) && m_is_maps (lit w)).
    destruct (K (S fuel) ltac:(lia)) as (s & E2 & Hs). change (i_names (to_inner c)) with (c_names c). rewrite E2. cbn [bindo bind fst snd]. refine (IH fuel d ltac:(lia) (lit w) s Hs _ _).
    + apply (order_part c _ (title ++ newline :: lines ++ tail)); auto. apply part_app, part_cons, part_app, (follows_part (map_line (c_names c)) tail Q); auto.
    + destruct HO as [_ [HO|(E3 & E4 & _)]].
      * exfalso. destruct (title_occurs title (newline :: lines ++ tail) HK) as (v & Hv & Ho). apply (HO v Hv Ho).
      * split; cbn [c_points c_rays c_maps]; rewrite ?E3, ?E4; apply accepted_empty.
  - destruct IH as (f0 & IH). exists (S f0). intros fuel d Hf token s0 Hs0 HO HA. destruct fuel as [|fuel]; [lia|]. destruct Hs0 as [->|[E' _]]; [|destruct title; discriminate].
    destruct (title_advance dimension_words title token t eq_refl HK) as (w & Hw & E' & Nn). cbn [inner_loop]. change (ok (opened (title ++ newline :: t))) with true. cbn [negb]. rewrite E'. cbn [bind].
    change (ok (opened (title ++ newline :: t))) with true. cbn [negb].
    dispatch w Hw (fun w => m_is_dimension (lit w)). rewrite E, dimension_ok by (auto; lia). cbn [bind fst snd]. apply IH; [lia|left; reflexivity| |exact HA].
    apply (order_part c _ (title ++ newline :: t)); auto. rewrite E. apply part_app, part_cons, part_app, part_app, part_refl.
  - exists 0. intros fuel d _ token s0 _ [HO _]. exfalso. apply (HO [] title (lines ++ tail)); auto. apply words_left; auto.
  - exists 0. intros fuel d _ token s0 _ [HO _]. exfalso. apply (HO [] title (lines ++ tail)); auto. apply words_right; auto.
Qed.

(** ** Accepted maps are symmetries *)
Lemma rearranges_unmap {X Y} (f : X -> Y) (P : X -> X -> Prop) (R : Y -> Y -> Prop) V : (forall x y, In x V -> In y V -> R (f x) (f y) -> P x y) -> rearranges R (map f V) -> rearranges P V.
Proof.
  intros H (W & HW & HP). apply Permutation_map_inv in HP as (W0 & -> & HP). exists W0. split; [|apply Permutation_sym; auto].
  assert (K : forall y, In y W0 -> In y V) by (intros y Hy; apply (Permutation_in _ (Permutation_sym HP)); auto). clear HP.
  assert (G : forall V0, (forall x, In x V0 -> In x V) -> Forall2 R (map f V0) (map f W0) -> Forall2 P V0 W0); [|apply G; auto].
  clear HW. induction W0 as [|y W0 IH]; intros V0 HV0 HW; inversion HW as [E|x' y' V' W' HR HW' E1 E2]; subst.
  - destruct V0; [constructor|discriminate].
  - destruct V0 as [|x V0]; [discriminate|]. injection E1 as -> ->. constructor; [apply H; auto; [apply HV0|apply K]; left; auto|]. apply IH; auto; [intros z Hz; apply K; right; auto|intros z Hz; apply HV0; right; auto].
Qed.
Lemma image_prop n m v w : point_image n m v w -> prop_rows (substitute m v) w.
Proof. intros ((k & Hk & E) & _). exists 1%Z, k. split; [lia|]. split; [lia|]. rewrite E. unfold vscale. rewrite <- (map_id (substitute m v)) at 2. apply map_ext. intros z. lia. Qed.
Lemma accepted_symmetries c n : sane c -> agree c n -> Forall affine_map (c_maps c) -> accepted c -> file_symmetries c n.
Proof.
  intros ((P1 & P2) & (R1 & R2) & _) (_ & HL & HM & _) HA (A1 & A2) m Hm. rewrite Forall_forall in HA, P1, R1.
  assert (Hmaps : forall m, In m (c_maps c) -> map_in (S n) m /\ nth n m [] = [(n, 1%Z)]).
  { intros m0 Hm0. destruct (HA m0 Hm0) as (k & K1 & K2). assert (L := HM m0 Hm0). destruct K1 as (K0 & K1). assert (k = n) by lia. subst k. split; auto. split; auto. }
  destruct (Hmaps m Hm) as (M1 & M2). split; auto. split; auto.
  assert (REP : forall rows, Forall int_row rows -> rows_representable INT32 rows).
  { intros rows H. unfold rows_representable. eapply Forall_impl; [|exact H]. intros r Hr. eapply Forall_impl; [|exact Hr]. intros z Hz. cbn. apply int_fits; auto. }
  assert (LR : forall q, In q (c_points c ++ c_rays c) -> length (point_row q) = S n /\ length (ray_row q) = S n).
  { intros q Hq. destruct (row_lengths q) as [K1 K2]. rewrite K1, K2, (HL q Hq). auto. }
  split.
  - destruct (C35_points_accepted INT32 (S n) (map point_row (c_points c)) m) as (_ & (W & HW & HP)); auto; try discriminate.
    + apply Forall_forall. intros r Hr. apply in_map_iff in Hr as (q & <- & Hq). apply LR. apply in_app_iff; auto.
    + apply (C35_all_maps (arith INT32) Vertex_tag (map point_row (c_points c)) (c_maps c)); auto.
    + apply (rearranges_unmap point_row _ (point_image (S n) m)); [|exists W; auto]. intros p q Hp Hq K. apply image_prop in K.
      destruct (point_row_stands n p (P1 p Hp) (HL p ltac:(apply in_app_iff; auto))) as (xs & l & E & Hx & Hl & HX). rewrite E in K.
      destruct (moved_substitute n (c_maps c) Hmaps m _ xs l Hm Hx HX) as (ys & E2 & Hy & HY). rewrite E2 in K.
      apply (point_same n (moved_by m (coordinates_of p)) (coordinates_of q) _ (point_row q)) in K; auto; [exists ys, l; auto|apply point_row_stands; auto; apply HL; apply in_app_iff; auto].
  - destruct (C35_points_accepted INT32 (S n) (map ray_row (c_rays c)) m) as (_ & (W & HW & HP)); auto; try discriminate.
    + apply Forall_forall. intros r Hr. apply in_map_iff in Hr as (q & <- & Hq). apply LR. apply in_app_iff; auto.
    + apply (C35_all_maps (arith INT32) Vertex_tag (map ray_row (c_rays c)) (c_maps c)); auto.
    + apply (rearranges_unmap ray_row _ (point_image (S n) m)); [|exists W; auto]. intros p q Hp Hq K. apply image_prop in K.
      destruct (ray_row_stands n p (R1 p Hp) (HL p ltac:(apply in_app_iff; auto))) as (xs & l & E & Hx & Hl & HX). rewrite E in K.
      destruct (turned_substitute n (c_maps c) Hmaps m _ xs l Hm Hx HX) as (ys & E2 & Hy & HY). rewrite E2 in K.
      apply (direction_same n (turned_by m (coordinates_of p)) (coordinates_of q) _ (ray_row q)) in K; auto; [exists ys, l; auto|apply ray_row_stands; auto; apply HL; apply in_app_iff; auto].
Qed.

(** ** Constraints *)
Definition accepted_system (s : system) : Prop := m_check_maps (arith INT32) Facet_tag (map wide_row (s_inequalities s)) (s_maps s) = Ok tt.
Definition system_in_order (c : system) (o : option text) : Prop :=
  match o with None => True | Some t => untitled reduced_inequality_words t /\ ((forall w, In w maps_words -> ~ occurs (lit w) t) \/ (s_inequalities c = [] /\ maps_before plain_inequality_words t)) end.
Lemma system_order_part c c0 t o : s_inequalities c0 = s_inequalities c -> part t o -> system_in_order c (Some t) -> system_in_order c0 o.
Proof.
  destruct o as [u|]; cbn [system_in_order]; auto. intros E HP [HU HH]. split; [apply (untitled_part _ t u); auto|]. destruct HH as [H|(H1 & H2)].
  - left. intros w Hw Ho. apply (H w Hw). apply (occurs_part _ t u); auto.
  - right. rewrite E. split; auto. apply (before_part _ t u); auto.
Qed.
Lemma system_order_title c c0 title y o : keyword_line plain_inequality_words title -> part y o -> system_in_order c (Some (title ++ newline :: y)) -> system_in_order c0 o.
Proof.
  destruct o as [u|]; cbn [system_in_order]; auto. intros HK HP [HU HH]. split; [apply (untitled_part _ (title ++ newline :: y) u); auto; apply part_app, part_cons, HP|].
  destruct HH as [H|(_ & H)]; left; intros w Hw Ho; assert (Hy := occurs_part _ y u HP Ho).
  - apply (H w Hw). destruct Hy as (a & b & ->). exists (title ++ newline :: a), b. rewrite <- app_assoc. reflexivity.
  - apply (H [] title y w eq_refl HK Hw Hy).
Qed.
Lemma system_affine c o c' : system_text c o c' -> Forall affine_map (s_maps c) -> Forall affine_map (s_maps c').
Proof.
  intros H. induction H as [c|c t HP|c line t c' HP HT IH|c title lines P tail Q o c' HN HK HW HF HB HT IH|c title lines P tail Q o c' HN HK HW HF HT IH|c title body names sp line r c' HK HB Hsp Hne HL HT IH|
    c title lines P tail Q o c' Hd HK HW HF HT IH|c title t a ws ds r c' HK E Ha Hws Hn Hds Hv HT IH|c title lines P tail Q o classes c' HN HK HW HF HQ HM HV HC HT IH]; auto.
  intros _. apply IH. apply (section_affine (s_names c) lines P tail Q o); auto.
Qed.
Lemma outer_accepted c o c' : system_text c o c' -> exists fuel0, forall fuel d, fuel0 <= fuel -> forall token s, left_over s o -> system_in_order c o -> accepted_system c ->
  outer_loop fuel true token (to_outer c) s = Ok (Some d) -> accepted_system c'.
Proof.
  intros H. induction H as [c|c t HP|c line t c' HP HT IH|c title lines P tail Q o c' HN HK HW HF HB HT IH|c title lines P tail Q o c' HN HK HW HF HT IH|c title body names sp line r c' HK HB Hsp Hne HL HT IH|
    c title lines P tail Q o c' Hd HK HW HF HT IH|c title t a ws ds r c' HK E Ha Hws Hn Hds Hv HT IH|c title lines P tail Q o classes c' HN HK HW HF HQ HM HV HC HT IH].
  - exists 0. auto.
  - exists 0. auto.
  - destruct IH as (f0 & IH). exists (S (S f0)). intros fuel d Hf token s0 Hs0 HO HA. destruct fuel as [|fuel]; [lia|]. destruct Hs0 as [->|[E _]]; [|destruct line; discriminate].
    assert (HO' : system_in_order c (Some t)) by (apply (system_order_part c c (line ++ newline :: t)); auto; apply part_app, part_cons, part_refl).
    destruct HP as [HP|HP]; [rewrite outer_skip by auto; apply IH; auto; [lia|left; reflexivity]|].
    destruct (title_advance end_words line token t eq_refl HP) as (w & Hw & E & Nn). cbn [outer_loop]. change (ok (opened (line ++ newline :: t))) with true. cbn [negb]. rewrite E. cbn [bind].
    change (ok (opened (line ++ newline :: t))) with true. cbn [negb].
    dispatch w Hw (fun w => negb (m_is_dimension (lit w)) && negb (m_is_names (lit w)) && negb (m_is_maps (lit w)) && negb (m_is_equations (lit w)) && negb (m_is_inequalities (lit w)) && negb (m_is_reduced_inequalities (lit w))).
    rewrite getline_newline by auto. apply IH; auto; [lia|left; reflexivity].
  - destruct IH as (f0 & IH). destruct (section_rows (s_names c) Equation title lines P tail Q o HN HK HW HF) as (s & E2 & Hs).
    exists (S f0). intros fuel d Hf token s0 Hs0 HO HA. destruct fuel as [|fuel]; [lia|]. destruct Hs0 as [->|[E _]]; [|destruct title; discriminate].
    destruct (title_advance equation_words title token (lines ++ tail) eq_refl HK) as (w & Hw & E & Nn). cbn [outer_loop]. change (ok (opened (title ++ newline :: lines ++ tail))) with true. cbn [negb]. rewrite E. cbn [bind].
    change (ok (opened (title ++ newline :: lines ++ tail))) with true. cbn [negb].
    dispatch w Hw (fun w => negb (m_is_dimension (lit w)) && negb (m_is_names (lit w)) && negb (m_is_maps (lit w)) && m_is_equations (lit w)).
    change (o_names (to_outer c)) with (s_names c). rewrite E2. cbn [bind fst snd]. refine (IH fuel d ltac:(lia) (lit w) s Hs _ HA).
    apply (system_order_part c _ (title ++ newline :: lines ++ tail)); auto. apply part_app, part_cons, part_app, (follows_part (constraint_line (s_names c) Equation) tail Q); auto.
  - destruct IH as (f0 & IH). assert (HK' : keyword_line (title_words Inequality) title) by (apply words_left; auto).
    destruct (section_rows (s_names c) Inequality title lines P tail Q o HN HK' HW HF) as (s & E2 & Hs).
    exists (S f0). intros fuel d Hf token s0 Hs0 HO HA. destruct fuel as [|fuel]; [lia|]. destruct Hs0 as [->|[E _]]; [|destruct title; discriminate].
    destruct (title_advance plain_inequality_words title token (lines ++ tail) eq_refl HK) as (w & Hw & E & Nn). cbn [outer_loop]. change (ok (opened (title ++ newline :: lines ++ tail))) with true. cbn [negb]. rewrite E. cbn [bind].
    change (ok (opened (title ++ newline :: lines ++ tail))) with true. cbn [negb].
    dispatch w Hw (fun w => negb (m_is_dimension (lit w)) && negb (m_is_names (lit w)) && negb (m_is_maps (lit w)) && negb (m_is_equations (lit w)) && m_is_inequalities (lit w)).
    unfold m_read_inequalities. change (o_names (to_outer c)) with (s_names c). rewrite E2. cbn [bind fst snd]. change (o_maps (to_outer c)) with (s_maps c).
    destruct (m_check_maps (arith INT32) Facet_tag (map wide_row (P ++ Q)) (s_maps c)) as [[]| |] eqn:EC; try discriminate. cbn [bind fst snd]. refine (IH fuel d ltac:(lia) (lit w) s Hs _ EC).
    apply (system_order_title c _ title (lines ++ tail)); auto. apply part_app, (follows_part (constraint_line (s_names c) Inequality) tail Q); auto.
  - destruct IH as (f0 & IH). exists (S f0). intros fuel d Hf token s0 Hs0 HO HA. destruct fuel as [|fuel]; [lia|]. destruct Hs0 as [->|[E _]]; [|destruct title; discriminate].
    destruct (title_advance names_words title token (body ++ sp ++ line ++ newline :: r) eq_refl HK) as (w & Hw & E & Nn). cbn [outer_loop].
    change (ok (opened (title ++ newline :: body ++ sp ++ line ++ newline :: r))) with true. cbn [negb]. rewrite E. cbn [bind].
    change (ok (opened (title ++ newline :: body ++ sp ++ line ++ newline :: r))) with true. cbn [negb].
    dispatch w Hw (fun w => negb (m_is_dimension (lit w)) && m_is_names (lit w)).
    rewrite (names_section_ok title body names sp line r) by auto. cbn [bind fst snd]. apply IH; [lia|left; reflexivity| |exact HA].
    apply (system_order_part c _ (title ++ newline :: body ++ sp ++ line ++ newline :: r)); auto. apply part_app, part_cons, part_app, part_refl.
  - destruct IH as (f0 & IH). destruct (maps_section_ok (s_names c) title lines P tail Q o Hd HK HW HF) as (f1 & K).
    exists (S (f0 + f1)). intros fuel d Hf token s0 Hs0 HO HA. destruct fuel as [|fuel]; [lia|]. destruct Hs0 as [->|[E _]]; [|destruct title; discriminate].
    destruct (title_advance maps_words title token (lines ++ tail) eq_refl HK) as (w & Hw & E & Nn). cbn [outer_loop]. change (ok (opened (title ++ newline :: lines ++ tail))) with true. cbn [negb]. rewrite E. cbn [bind].
    change (ok (opened (title ++ newline :: lines ++ tail))) with true. cbn [negb].
    dispatch w Hw (fun w => negb (m_is_dimension (lit w)) && negb (m_is_names (lit w)) && m_is_maps (lit w)).
    destruct (K (S fuel) ltac:(lia)) as (s & E2 & Hs). change (o_names (to_outer c)) with (s_names c). rewrite E2. cbn [bindo bind fst snd]. refine (IH fuel d ltac:(lia) (lit w) s Hs _ _).
    + apply (system_order_part c _ (title ++ newline :: lines ++ tail)); auto. apply part_app, part_cons, part_app, (follows_part (map_line (s_names c)) tail Q); auto.
    + destruct HO as [_ [HO|(E3 & _)]].
      * exfalso. destruct (title_occurs title (newline :: lines ++ tail) HK) as (v & Hv & Ho). apply (HO v Hv Ho).
      * unfold accepted_system. cbn [s_inequalities s_maps]. rewrite E3. apply accepted_empty.
  - destruct IH as (f0 & IH). exists (S f0). intros fuel d Hf token s0 Hs0 HO HA. destruct fuel as [|fuel]; [lia|]. destruct Hs0 as [->|[E' _]]; [|destruct title; discriminate].
    destruct (title_advance dimension_words title token t eq_refl HK) as (w & Hw & E' & Nn). cbn [outer_loop]. change (ok (opened (title ++ newline :: t))) with true. cbn [negb]. rewrite E'. cbn [bind].
    change (ok (opened (title ++ newline :: t))) with true. cbn [negb].
    dispatch w Hw (fun w => m_is_dimension (lit w)). rewrite E, dimension_ok by (auto; lia). cbn [bind fst snd]. apply IH; [lia|left; reflexivity| |exact HA].
    apply (system_order_part c _ (title ++ newline :: t)); auto. rewrite E. apply part_app, part_cons, part_app, part_app, part_refl.
  - exists 0. intros fuel d Hf token s0 Hs0 [HO _]. exfalso. apply (HO [] title (lines ++ tail) eq_refl HK).
Qed.
(** The image of an inequality: the excess of a point is that of its image, up to a factor. *)
Lemma rows_excess n m (a b : vec) k : map_in (S n) m -> nth n m [] = [(n, 1%Z)] -> length a = S n -> length b = S n -> (0 < k)%Z -> (forall x, length x = S n -> (k * dot b x = dot a (substitute m x))%Z) ->
  forall p : list Q, length p = n -> (affine a (moved_by m p) == inject_Z k * affine b p)%Q.
Proof.
  intros Hm Hlast La Lb Hk H p Hp. destruct (clear_point p) as (l & xs & Hl & C). assert (Hx : length xs = n) by (rewrite <- (forall2_length _ _ _ C); auto).
  destruct (moved_substitute n [m] ltac:(intros m0 [<-|[]]; auto) m p xs l (or_introl eq_refl) Hx C) as (ys & E & Hy & CY).
  assert (A1 := affine_dot a _ ys l CY ltac:(rewrite Hy; auto)). assert (A2 := affine_dot b _ xs l C ltac:(rewrite Hx; auto)). specialize (H (xs ++ [l]) ltac:(rewrite app_length; cbn; lia)). rewrite E in H.
  rewrite <- H, inject_Z_mult, <- A2 in A1. assert (N := inject_zero l Hl). apply (Qmult_inj_r _ _ _ N). rewrite A1. ring.
Qed.
Lemma accepted_constraints s n : sound_system s -> fits_together s n -> Forall affine_map (s_maps s) -> (forall m, In m (s_maps s) -> length m = S n) -> accepted_system s ->
  forall m, In m (s_maps s) -> map_in (S n) m /\ nth n m [] = [(n, 1%Z)] /\
    rearranges (fun k l : wide => exists a, (0 < a)%Q /\ forall p, length p = n -> (excess (snd k) (moved_by m p) == a * excess (snd l) p)%Q) (s_inequalities s).
Proof.
  intros (_ & S2 & _) (_ & HL & _) HA HM A1 m Hm. rewrite Forall_forall in HA, S2.
  assert (Hmaps : map_in (S n) m /\ nth n m [] = [(n, 1%Z)]).
  { destruct (HA m Hm) as (k & K1 & K2). assert (L := HM m Hm). destruct K1 as (K0 & K1). assert (k = n) by lia. subst k. split; auto. split; auto. }
  destruct Hmaps as (M1 & M2). split; auto. split; auto.
  destruct (C35_inequalities_accepted INT32 (S n) (map wide_row (s_inequalities s)) m) as (_ & (W & HW & HP)); auto; try discriminate.
  - apply Forall_forall. intros r Hr. apply in_map_iff in Hr as (k & <- & Hk). destruct (S2 k Hk) as (_ & _ & _ & I). eapply Forall_impl; [|exact I]. intros z Hz. cbn. apply int_fits; auto.
  - apply Forall_forall. intros r Hr. apply in_map_iff in Hr as (k & <- & Hk). rewrite wide_row_length, (HL k Hk). auto.
  - apply (C35_all_maps (arith INT32) Facet_tag (map wide_row (s_inequalities s)) (s_maps s)); auto.
  - apply (rearranges_unmap wide_row _ (inequality_image (S n) m)); [|exists W; auto]. intros k l Hk Hl (L & (j & Hj & K) & _).
    exists (inject_Z j). split; [change 0%Q with (inject_Z 0); rewrite <- Zlt_Qlt; auto|]. intros p Hp.
    assert (Lp : length (moved_by m p) = n) by (apply (moved_length n [m] p); auto; [intros m0 [<-|[]]; auto|]; apply (moved_first [m] m); [left; auto|constructor]).
    rewrite <- (affine_wide Inequality k n), <- (affine_wide Inequality l n) by auto.
    apply (rows_excess n); auto. rewrite wide_row_length, (HL k Hk). auto.
Qed.
