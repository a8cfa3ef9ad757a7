(** * FileInput: what the whole of a file with vertices and rays is read as. *)
From Coq Require Import List ZArith QArith Arith Bool Ascii String Lia Permutation.
From Verif Require Import Base Spec LinAlg ListUtil ArithModel MatrixModel FmeModel SafeIntModel IntTypes StreamModel StreamProofs ClassesModel MapModel ValidityModel SortModel SortProofs PropertiesSort CliModel PropertiesCli
  IntLcm InputModel InputProofs VertexInput ConstraintModel ConstraintInput ConstraintSection PropertiesVertices PropertiesConstraints MapInput OutputModel FileModel FileProofs Hull PropertiesProgram HullSame FmeTheorems.
Import ListNotations.
Open Scope nat_scope.
Open Scope list_scope.

(** ** Consistency *)
Lemma require_iff b : require b = Ok tt <-> b = true.
Proof. unfold require. destruct b; split; intros; auto; discriminate. Qed.
Lemma require_throw b : require b = Throw <-> b = false.
Proof. unfold require. destruct b; split; intros; auto; discriminate. Qed.
Lemma range_iff {X} (range : list (list X)) n : m_range_check range n = Ok tt <-> forall e, In e range -> length e = n.
Proof.
  unfold m_range_check. rewrite require_iff, forallb_forall. split; intros H e He; specialize (H e He); [apply Nat.eqb_eq in H|apply Nat.eqb_eq]; auto.
Qed.
Lemma range_total {X} (range : list (list X)) n : m_range_check range n = Ok tt \/ m_range_check range n = Throw.
Proof. unfold m_range_check, require. destruct (forallb _ range); auto. Qed.
Lemma declared_total names d n : m_declared_check names d n = Ok tt \/ m_declared_check names d n = Throw.
Proof. unfold m_declared_check, require. destruct (negb (negb (is_empty names) && _)); cbn [bind]; auto. destruct (negb (negb (d =? size_max)%Z && _)); auto. Qed.
Lemma declared_iff names d n : (0 <= d <= size_max)%Z ->
  m_declared_check names d n = Ok tt <-> (names = [] \/ length names + 1 = n) /\ (d = size_max \/ (d + 1 = Z.of_nat n)%Z).
Proof.
  intros Hd. unfold m_declared_check, require.
  assert (E1 : negb (negb (is_empty names) && negb (length names + 1 =? n)) = true <-> names = [] \/ length names + 1 = n).
  { destruct names as [|x names]; cbn [is_empty negb andb]; [tauto|]. rewrite negb_involutive, Nat.eqb_eq. split; auto. intros [K|K]; [discriminate|auto]. }
  assert (E2 : negb (negb (d =? size_max)%Z && negb (Z.of_nat n =? (d + 1) mod 2 ^ 64)%Z) = true <-> d = size_max \/ (d + 1 = Z.of_nat n)%Z).
  { destruct (Z.eqb_spec d size_max) as [->|N]; cbn [negb andb]; [tauto|]. rewrite negb_involutive, Z.eqb_eq. unfold size_max in *. rewrite Z.mod_small by lia. split; [intros ->; auto|intros [K|K]; [congruence|auto]]. }
  destruct (negb (negb (is_empty names) && negb (length names + 1 =? n))) eqn:B1; cbn [bind].
  - destruct (negb (negb (d =? size_max)%Z && negb (Z.of_nat n =? (d + 1) mod 2 ^ 64)%Z)) eqn:B2; [tauto|]. split; [discriminate|]. intros [_ K]. apply E2 in K. congruence.
  - split; [discriminate|]. intros [K _]. apply E1 in K. congruence.
Qed.
Definition same_widths (conv cone : list vec) (names : list text) (maps : list lmap) (d : Z) : Prop :=
  exists n, conv ++ cone <> [] /\ (forall r, In r (conv ++ cone) -> length r = n) /\ (forall m, In m maps -> length m = n) /\
    (names = [] \/ length names + 1 = n) /\ (d = size_max \/ (d + 1 = Z.of_nat n)%Z).
Lemma consistent_iff conv cone names maps d : (0 <= d <= size_max)%Z -> m_consistent_vertices conv cone names maps d = Ok tt <-> same_widths conv cone names maps d.
Proof.
  intros Hd. unfold m_consistent_vertices, same_widths. destruct (conv ++ cone) as [|first others] eqn:E; [split; [discriminate|intros (n & K & _); congruence]|].
  assert (IN : forall r, In r (first :: others) <-> In r conv \/ In r cone) by (intros r; rewrite <- E; apply in_app_iff).
  set (n := length first). destruct (range_total conv n) as [R1|R1]; rewrite R1; cbn [bind].
  - destruct (range_total cone n) as [R2|R2]; rewrite R2; cbn [bind].
    + destruct (range_total maps n) as [R3|R3]; rewrite R3; cbn [bind].
      * rewrite declared_iff by auto. rewrite (range_iff conv n) in R1. rewrite (range_iff cone n) in R2. rewrite (range_iff maps n) in R3. split.
        -- intros [K1 K2]. exists n. split; [discriminate|]. split; [intros r Hr; apply IN in Hr as [Hr|Hr]; auto|]. auto.
        -- intros (m & _ & K & _ & K1 & K2). assert (m = n) by (symmetry; apply K; left; auto). subst m. auto.
      * split; [discriminate|]. intros (m & _ & K & K3 & _). assert (m = n) by (symmetry; apply K; left; auto). subst m. apply (range_iff maps n) in K3. congruence.
    + split; [discriminate|]. intros (m & _ & K & _). assert (m = n) by (symmetry; apply K; left; auto). subst m.
      assert (K2 : m_range_check cone n = Ok tt) by (apply range_iff; intros e He; apply K, IN; auto). congruence.
  - split; [discriminate|]. intros (m & _ & K & _). assert (m = n) by (symmetry; apply K; left; auto). subst m.
    assert (K2 : m_range_check conv n = Ok tt) by (apply range_iff; intros e He; apply K, IN; auto). congruence.
Qed.
Lemma consistent_total conv cone names maps d : m_consistent_vertices conv cone names maps d = Ok tt \/ m_consistent_vertices conv cone names maps d = Throw.
Proof.
  unfold m_consistent_vertices. destruct (conv ++ cone) as [|first others]; auto. set (n := length first).
  destruct (range_total conv n) as [R1|R1]; rewrite R1; cbn [bind]; auto. destruct (range_total cone n) as [R2|R2]; rewrite R2; cbn [bind]; auto.
  destruct (range_total maps n) as [R3|R3]; rewrite R3; cbn [bind]; auto. apply declared_total.
Qed.

(** ** A keyword at the beginning *)
(** [line] is one of the first [k] lines of [t]; one of the first twenty lines is a keyword. *)
Definition among_first (k : nat) (t line : text) : Prop :=
  exists before r, t = concat (map (fun l => l ++ [newline]) before) ++ line ++ r /\ length before < k /\ Forall (fun l => ~ In newline l) before /\ ~ In newline line /\ (r = [] \/ exists r', r = newline :: r').
Definition early_keyword (t : text) : Prop := exists line, among_first 20 t line /\ keyword_line all_words line.
Lemma keyword_line_is line : keyword_line all_words line -> m_is_keyword (m_trim line) = true.
Proof. intros HK. destruct (keyword_line_trim all_words line eq_refl HK) as (w & Hw & Et & _). rewrite Et. apply (word_check (fun w => m_is_keyword (lit w)) _ w Hw eq_refl). Qed.
Lemma contains_keywords_ok before line r : Forall (fun l => ~ In newline l) before -> ~ In newline line -> (r = [] \/ exists r', r = newline :: r') -> keyword_line all_words line -> forall k token, length before < k ->
  fst (contains_keywords_loop k token (opened (concat (map (fun l => l ++ [newline]) before) ++ line ++ r))) = true.
Proof.
  intros HB HN HR HK. induction HB as [|l before Hl HB IH]; intros [|k] token Hk; cbn [length] in Hk; try lia.
  - cbn [map concat app contains_keywords_loop]. assert (E := keyword_line_is line HK). destruct HR as [->|(r' & ->)].
    + rewrite app_nil_r. destruct line as [|c line]; [discriminate|]. rewrite getline_end by (auto; discriminate). change (ok (Stream [] true false)) with true. cbn [negb]. rewrite E. reflexivity.
    + rewrite getline_newline by auto. change (ok (opened r')) with true. cbn [negb]. rewrite E. reflexivity.
  - cbn [map concat]. rewrite <- !app_assoc. cbn [app contains_keywords_loop]. rewrite getline_newline by auto. change (ok (opened _)) with true. cbn [negb].
    destruct (m_is_keyword (m_trim l)); [reflexivity|]. apply IH. lia.
Qed.
Lemma contains_keywords_no k : forall t token, (forall line, among_first k t line -> ~ keyword_line all_words line) -> fst (contains_keywords_loop k token (opened t)) = false.
Proof.
  induction k as [|k IH]; intros t token H; [reflexivity|]. cbn [contains_keywords_loop]. destruct (line_split t) as [N|(line & r & -> & N)].
  - assert (P : m_is_keyword (m_trim t) = false).
    { apply plain_trim. apply (H t). exists [], []. rewrite app_nil_r. split; [reflexivity|]. split; [cbn; lia|]. auto. }
    destruct t as [|c t]; [reflexivity|]. rewrite getline_end by (auto; discriminate). change (ok (Stream [] true false)) with true. cbn [negb]. rewrite P. destruct k; reflexivity.
  - rewrite getline_newline by auto. change (ok (opened r)) with true. cbn [negb].
    assert (P : m_is_keyword (m_trim line) = false).
    { apply plain_trim. apply (H line). exists [], (newline :: r). split; [reflexivity|]. split; [cbn; lia|]. split; auto. split; auto. right. eauto. }
    rewrite P. apply IH. intros l (before & r' & -> & Hl & HB & HN & HR). apply (H l). exists (line :: before), r'. split; [cbn [map concat]; rewrite <- !app_assoc; reflexivity|]. split; [cbn; lia|]. auto.
Qed.
Lemma early_keyword_ok t : early_keyword t -> m_contains_keywords (opened t) = (true, opened t).
Proof.
  intros (line & (before & r & -> & Hk & HB & HN & HR) & HK). unfold m_contains_keywords. rewrite tellg_opened. assert (K := contains_keywords_ok before line r HB HN HR HK 20 [] Hk).
  destruct (contains_keywords_loop 20 [] _) as [a s]. cbn [fst] in K. subst a. reflexivity.
Qed.

(** ** The contents are proper *)
Definition sane (c : contents) : Prop :=
  (Forall proper (c_points c) /\ Forall int_row (map point_row (c_points c))) /\ (Forall proper (c_rays c) /\ Forall int_row (map ray_row (c_rays c))) /\
  match c_dimension c with Some d => (0 <= d < size_max)%Z | None => True end.
Lemma digits_value_nonneg ds : digits ds -> (0 <= digits_value ds)%Z.
Proof.
  intros H. unfold digits_value. assert (K : forall l acc, Forall (fun c => is_digit c = true) l -> (0 <= acc)%Z -> (0 <= fold_left (fun acc c => 10 * acc + digit_value c) l acc)%Z).
  { induction l as [|c l IH]; intros acc Hl Ha; [auto|]. apply Forall_cons_iff in Hl as [Hc Hl]. cbn [fold_left]. apply IH; auto. assert (0 <= digit_value c)%Z; [|lia].
    unfold is_digit in Hc. apply andb_true_iff in Hc as [H1 _]. apply Nat.leb_le in H1. change (nat_of_ascii "0") with 48 in H1. unfold digit_value. lia. }
  apply K; auto. lia.
Qed.
Lemma file_sane c o c' : file_text c o c' -> Forall affine_map (c_maps c) -> sane c -> sane c'.
Proof.
  intros H. induction H as [c|c t HP|c line t c' HP HT IH|c title lines P tail Q o c' HK HL HF HR HT IH|c title lines P tail Q o c' HK HL HF HR HT IH|c title body names sp line r c' HK HB Hsp Hne HL HT IH|
    c title lines P tail Q o c' Hd HK HW HF HT IH|c title t a ws ds r c' HK E Ha Hws Hn Hds Hv HT IH|c title lines P tail Q o classes c' HK HL HF HR HM HC HT IH|c title lines P tail Q o classes c' HK HL HF HR HM HC HT IH];
    intros HAf HS; try exact HS; try (apply IH; [exact HAf|exact HS]).
  - apply IH; [exact HAf|]. clear IH HT. destruct HR as (rows & HR & HI). split; [|apply HS]. assert (HP := section_proper lines P tail Q o HL HF).
    split; [exact HP|]. cbn [c_points]. change point_row with (row_of false). rewrite <- (rows_fitting false (P ++ Q) rows); auto.
  - apply IH; [exact HAf|]. clear IH HT. destruct HR as (rows & HR & HI). split; [apply HS|split; [|apply HS]]. assert (HP := section_proper lines P tail Q o HL HF).
    split; [exact HP|]. cbn [c_rays]. change ray_row with (row_of true). rewrite <- (rows_fitting true (P ++ Q) rows); auto.
  - apply IH; [apply (section_affine (c_names c) lines P tail Q o HW HF)|exact HS].
  - apply IH; [exact HAf|]. split; [apply HS|split; [apply HS|]]. cbn [c_dimension]. split; auto. apply digits_value_nonneg; auto.
  - apply IH; [exact HAf|]. split; [|apply HS]. destruct (class_points (c_maps c) (P ++ Q) classes HAf (section_proper lines P tail Q o HL HF) HC) as (E & H1 & H2). cbn [c_points]. split; auto. rewrite E. auto.
  - apply IH; [exact HAf|]. split; [apply HS|split; [|apply HS]]. destruct (class_rays (c_maps c) (P ++ Q) classes HAf (section_proper lines P tail Q o HL HF) HC) as (E & H1 & H2). cbn [c_rays]. split; auto. rewrite E. auto.
Qed.
Lemma file_is_sane o c : file_text nothing o c -> sane c.
Proof. intros H. apply (file_sane nothing o c H); [constructor|]. repeat split; constructor. Qed.
Lemma nothing_sane : sane nothing.
Proof. repeat split; constructor. Qed.

(** ** The whole file *)
(** The rows, names, maps and the dimension fit together: there are points or rays, and all of them have [n] coordinates, as many as there are names, images in every map and as the dimension says. *)
Definition agree (c : contents) (n : nat) : Prop :=
  c_points c ++ c_rays c <> [] /\ (forall p, In p (c_points c ++ c_rays c) -> length p = n) /\ (forall m, In m (c_maps c) -> length m = S n) /\
  (c_names c = [] \/ length (c_names c) = n) /\ (c_dimension c = None \/ c_dimension c = Some (Z.of_nat n)).
Lemma agree_iff c : sane c -> same_widths (map point_row (c_points c)) (map ray_row (c_rays c)) (c_names c) (c_maps c) (match c_dimension c with Some d => d | None => size_max end) <-> exists n, agree c n.
Proof.
  intros (_ & _ & Hd). unfold same_widths, agree. split.
  - intros (n & H1 & H2 & H3 & H4 & H5).
    assert (L : forall p, In p (c_points c ++ c_rays c) -> S (length p) = n).
    { intros p Hp. apply in_app_iff in Hp as [Hp|Hp].
      - rewrite <- (proj1 (row_lengths p)). apply H2. apply in_app_iff. left. apply in_map; auto.
      - rewrite <- (proj2 (row_lengths p)). apply H2. apply in_app_iff. right. apply in_map; auto. }
    assert (N : exists p, In p (c_points c ++ c_rays c)).
    { destruct (c_points c ++ c_rays c) as [|p l] eqn:E; [|exists p; left; auto]. apply app_eq_nil in E as [E1 E2]. rewrite E1, E2 in H1. cbn in H1. congruence. }
    destruct N as (p0 & Hp0). assert (L0 := L p0 Hp0). destruct n as [|n]; [lia|]. exists n. split; [intros E; rewrite E in Hp0; destruct Hp0|]. split; [intros p Hp; specialize (L p Hp); lia|]. split; [auto|].
    split; [destruct H4; [left; auto|right; lia]|]. destruct (c_dimension c) as [d|]; [right|left; auto]. destruct H5 as [H5|H5]; [lia|]. f_equal. lia.
  - intros (n & H1 & H2 & H3 & H4 & H5). exists (S n). split.
    { intros E. apply app_eq_nil in E as [E1 E2]. apply H1. apply map_eq_nil in E1, E2. rewrite E1, E2. auto. }
    split. { intros r Hr. apply in_app_iff in Hr as [Hr|Hr]; apply in_map_iff in Hr as (p & <- & Hp); destruct (row_lengths p) as [R1 R2]; [rewrite R1|rewrite R2]; f_equal; apply H2; apply in_app_iff; auto. }
    split; [auto|]. split; [destruct H4; [left; auto|right; lia]|]. destruct H5 as [->| ->]; [left; auto|right; lia].
Qed.
(** The command line: one file, no known data, no checking, and a sorting of the rows. *)
Definition asks (args : list text) (name : text) (so : input_order) : Prop :=
  command_line args [name] /\ unset "k" args /\ ~ In (lit "-c") args /\ ~ In (lit "--check") args /\
  ((unset "s" args /\ so = NoSorting) \/ exists p, parameter "s" (lit "sorting") args p /\ order_word p so).
Lemma asks_ok args name so : asks args name so ->
  m_filename args = Ok name /\ m_known_facets_filename args = Ok [] /\ m_known_vertices_filename args = Ok [] /\ m_check_validity args = false /\ m_input_order args = Ok so.
Proof.
  intros (HC & HK & N1 & N2 & HS). split; [apply (C37_filename_partial args [name]); auto|].
  destruct (C37_known_facets args [] [] HK) as (_ & _ & _ & _ & _ & K1 & _ & _ & _ & _ & _ & K2). split; auto. split; auto. split.
  - destruct (m_check_validity args) eqn:E; auto. apply (C37_flags args) in E. tauto.
  - destruct HS as [[HS ->]|(p & HP & HW)]; [apply (C37_sorting_partial args); auto|]. apply (proj2 (C37_sorting_partial args)) with (p := p); auto.
Qed.
(** The rows in the order in which they are handed to the elimination. *)
Definition file_rows (c : contents) (so : input_order) : list vec := m_sort so (map ray_row (c_rays c)) ++ m_sort so (map point_row (c_points c)).
(** The same without a condition on the known data. *)
Definition asks_file (args : list text) (name : text) (so : input_order) : Prop :=
  command_line args [name] /\ ~ In (lit "-c") args /\ ~ In (lit "--check") args /\
  ((unset "s" args /\ so = NoSorting) \/ exists p, parameter "s" (lit "sorting") args p /\ order_word p so).
Lemma asks_asks_file args name so : asks args name so -> asks_file args name so.
Proof. intros (HC & HK & N1 & N2 & HS). repeat split; auto. Qed.
Lemma asks_file_ok args name so : asks_file args name so -> m_filename args = Ok name /\ m_check_validity args = false /\ m_input_order args = Ok so.
Proof.
  intros (HC & N1 & N2 & HS). split; [apply (C37_filename_partial args [name]); auto|]. split.
  - destruct (m_check_validity args) eqn:E; auto. apply (C37_flags args) in E. tauto.
  - destruct HS as [[HS ->]|(p & HP & HW)]; [apply (C37_sorting_partial args); auto|]. apply (proj2 (C37_sorting_partial args)) with (p := p); auto.
Qed.
Definition consistent_file (c : contents) : bool :=
  match m_consistent_vertices (map point_row (c_points c)) (map ray_row (c_rays c)) (c_names c) (c_maps c) (match c_dimension c with Some d => d | None => size_max end) with Ok _ => true | _ => false end.
Lemma input_vertices_with fs args name so t c : asks_file args name so -> fs name = Some t -> early_keyword t -> file_text nothing (Some t) c ->
  exists fuel0, forall fuel, fuel0 <= fuel ->
    m_input_vertices fs fuel args = (if consistent_file c then do known <- m_known_facets fs args (c_names c); Ok (Some (file_rows c so, c_names c, c_maps c, known)) else Throw).
Proof.
  intros HA HF HE HT. destruct (asks_file_ok args name so HA) as (A1 & A3 & A4). destruct (inner_ok nothing (Some t) c HT (Forall_nil _)) as (fuel0 & K). exists fuel0. intros fuel Hf.
  unfold m_input_vertices. rewrite A1. cbn [bind]. unfold m_open. rewrite HF. cbn [bind]. rewrite early_keyword_ok by auto. cbn [negb]. rewrite A3.
  change no_inner with (to_inner nothing). rewrite (K fuel Hf [] (opened t)) by (left; reflexivity). cbn [bindo bind].
  unfold to_inner at 1 2 3 4 5. cbn [i_conv i_cone i_dimension i_names i_maps]. unfold consistent_file.
  destruct (consistent_total (map point_row (c_points c)) (map ray_row (c_rays c)) (c_names c) (c_maps c) (match c_dimension c with Some d => d | None => size_max end)) as [E|E]; rewrite E; cbn [bind]; auto.
  rewrite A4. cbn [bind]. reflexivity.
Qed.
Lemma input_vertices_ok fs args name so t c : asks args name so -> fs name = Some t -> early_keyword t -> file_text nothing (Some t) c ->
  exists fuel0, forall fuel, fuel0 <= fuel ->
    m_input_vertices fs fuel args = (if match m_consistent_vertices (map point_row (c_points c)) (map ray_row (c_rays c)) (c_names c) (c_maps c) (match c_dimension c with Some d => d | None => size_max end) with Ok _ => true | _ => false end
      then Ok (Some (file_rows c so, c_names c, c_maps c, [])) else Throw).
Proof.
  intros HA HF HE HT. destruct (asks_ok args name so HA) as (_ & A2 & _). destruct (input_vertices_with fs args name so t c (asks_asks_file _ _ _ HA) HF HE HT) as (fuel0 & K). exists fuel0. intros fuel Hf.
  rewrite (K fuel Hf). unfold m_known_facets. rewrite A2. reflexivity.
Qed.

(** ** More fuel does not change a result *)
Lemma class_loop_mono (A : Arith) fuel tg maps : forall rows stack x, m_class_loop A fuel tg maps rows stack = Ok (Some x) -> forall fuel', fuel <= fuel' -> m_class_loop A fuel' tg maps rows stack = Ok (Some x).
Proof.
  induction fuel as [|fuel IH]; intros rows [|c stack] x H fuel' Hf; cbn [m_class_loop] in H; try discriminate.
  - destruct fuel'; exact H.
  - destruct fuel'; exact H.
  - destruct fuel' as [|fuel']; [lia|]. cbn [m_class_loop]. destruct (m_class_row A tg maps c (rows, stack)) as [q| |]; cbn [bind] in *; try discriminate. apply IH; auto. lia.
Qed.
Lemma classes_loop_mono (A : Arith) rounds fuel fuel' tg maps : fuel <= fuel' -> forall rows x, m_classes_loop A rounds fuel tg maps rows = Ok (Some x) -> m_classes_loop A rounds fuel' tg maps rows = Ok (Some x).
Proof.
  intros Hf. induction rounds as [|rounds IH]; intros [|r rows] x H; cbn [m_classes_loop] in *; try discriminate; auto.
  destruct (m_get_class A fuel tg maps r) as [[cl|]| |] eqn:E; cbn [bind] in *; try discriminate. unfold m_get_class in *. rewrite (class_loop_mono A fuel tg maps _ _ _ E fuel' Hf). cbn [bind].
  destruct (back cl) as [y| |]; cbn [bind] in *; try discriminate.
  destruct (m_classes_loop A rounds fuel tg maps _) as [[out|]| |] eqn:E2; cbn [bind] in H; try discriminate. apply IH in E2. cbn [m_classes_loop] in E2. rewrite E2. exact H.
Qed.
Lemma classes_mono (A : Arith) fuel fuel' tg maps rows x : fuel <= fuel' -> m_classes_of A fuel tg maps rows = Ok (Some x) -> m_classes_of A fuel' tg maps rows = Ok (Some x).
Proof. intros Hf. unfold m_classes_of, m_classes. apply classes_loop_mono; auto. Qed.
