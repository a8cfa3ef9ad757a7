(** * PropertiesRoundTrip: what is printed is read again, and both runs together list the vertices (or the constraints) of the original description (C55). *)
From Coq Require Import List ZArith QArith Arith Bool Ascii String Lia Lqa Permutation.
From Verif Require Import Base Spec LinAlg Cone ListUtil ArithModel MatrixModel FmeModel SafeIntModel IntTypes RowLcm StreamModel StreamProofs IntLcm InputModel InputProofs ClassesModel
  ConstraintModel ConstraintInput ConstraintSection PropertiesVertices PropertiesConstraints OutputModel OutputProofs PropertiesOutput Hull Corners FmeRefine FmeTheorems
  Samples ClassesProofs ApplyTheorems OrbitTheorems PropertiesMaps PropertiesFme MapModel PropertiesProgram
  VertexInput SortModel SortProofs PropertiesSort CliModel PropertiesCli MapInput FileModel FileProofs FileInput SystemFile HullSame PropertiesFile PropertiesSystem PropertiesMapFile.
Import ListNotations.
Open Scope nat_scope.
Open Scope list_scope.

(** ** Specification *)
(** The printed text as an input file: with names, these have to be added before it. *)
Definition with_names (names : list text) (body printed : text) : text :=
  match names with [] => printed | _ => lit "Names:" ++ newline :: body ++ newline :: printed end.
(** A set of points contains no line. *)
Definition shifted (p : list Q) (s : Q) (d : list Q) : list Q := map (fun j => nth j p 0 + s * nth j d 0)%Q (seq 0 (length p)).
Definition contains_no_line (n : nat) (S : list Q -> Prop) : Prop :=
  forall p d : list Q, length p = n -> length d = n -> (forall s : Q, S (shifted p s d)) -> forall j, (nth j d 0 == 0)%Q.

(** ** From rows to lines that can be read *)
Lemma nonzero_negatable i zs : Forall (fun z => - 2147483647 <= z <= 2147483647)%Z zs -> negatable (nonzero_terms i zs).
Proof.
  intros H. revert i. induction H as [|z zs Hz _ IH]; intros i; cbn [nonzero_terms]; [constructor|]. destruct (Z.eqb_spec z 0); auto. constructor; [exact Hz|apply IH].
Qed.
Lemma enumerate_negatable zs : Forall (fun z => - 2147483647 <= z <= 2147483647)%Z zs -> negatable (enumerate zs).
Proof.
  intros H. unfold enumerate. generalize 0 at 1. induction H as [|z zs Hz _ IH]; intros s; cbn [length seq combine]; constructor; [exact Hz|apply IH].
Qed.
Lemma printed_line type names n row : good_names names -> printable names row -> length row = S n -> (names = [] \/ length names = n) ->
  exists line k, m_pretty row names (relation_sign type) = Ok line /\ constraint_line names type line k /\ wide_row k = row /\ fst k = n /\ fits_both (snd k).
Proof.
  intros (Hd & Hn & Ho & Hlen) (zs & b & -> & HN & HP) Hrow Hnn. assert (HI := negatable_int _ HN). assert (HS := negatable_small _ HN). unfold negatable_row in HN.
  apply Forall_app in HI as [HIz HIb]. apply Forall_app in HS as [HSz HSb]. apply Forall_app in HN as [HNz HNb]. apply Forall_inv in HIb, HSb, HNb. destruct (small_range b HSb) as [_ HIb'].
  rewrite app_length in Hrow. cbn [length] in Hrow. destruct names as [|n0 names0].
  - destruct (print_row_raw zs b HIz HIb) as (u & l & E & Hu & Hne & HR). exists (u ++ l), (n, {| terms := enumerate zs; operator := default_operator type; constant := (- b)%Z |}).
    split; [cbn [m_pretty]; rewrite E; reflexivity|]. split; [|split; [|split; [reflexivity|]]].
    + cbn [constraint_line fst snd]. apply (written_raw_line n type u l zs b); [apply label_none; auto|auto|lia|].
      assert (F : exists u', m_print_row (zs ++ [b]) = " "%char :: u').
      { destruct zs as [|z zs]; cbn [app m_print_row flat_map]; unfold m_print_entry; [destruct (b >=? 0)%Z|destruct (z >=? 0)%Z]; eexists; reflexivity. }
      destruct F as (u' & F). rewrite <- E, F. reflexivity.
    + unfold wide_row, row_for_constraint, coefficient_row. cbn [fst snd terms operator constant]. replace n with (length zs) by lia. rewrite enumerate_coefficients, Z.opp_involutive. destruct type; reflexivity.
    + split; cbn [snd terms constant]; [apply enumerate_negatable; auto|lia].
  - set (names := n0 :: names0) in *. destruct (HP ltac:(discriminate)) as [Hl Hnz]. apply (nonzero_exists 0) in Hnz.
    destruct (pretty_named type names zs b ltac:(discriminate) Hn Hl HIz HIb HIb' Hnz) as (line & E & HT & t & x & m & l' & El & Ht & Hin & Hlt).
    exists line, (n, {| terms := nonzero_terms 0 zs; operator := relation_of type; constant := (- b)%Z |}). split; [exact E|]. split; [|split; [|split; [reflexivity|]]].
    + unfold constraint_line. unfold names at 1. cbn [fst snd]. split; [lia|]. apply (written_named_line names type [] line); auto.
      * apply spaced_none. constructor.
      * apply nonzero_distinct.
      * apply nonzero_negatable; auto.
      * destruct type; cbn; auto.
      * exists t, x, l'. split; auto. split; auto. cbn [app]. rewrite Forall_forall in Hlen. specialize (Hlen m Hin). lia.
      * cbn [app]. destruct (named_first _ _ _ _ _ HT) as (c & t' & -> & Hc & _). cbn [stops]. apply eol_space; auto.
    + unfold wide_row, row_for_constraint, coefficient_row. cbn [fst snd terms operator constant]. replace n with (length zs) by lia. rewrite nonzero_coefficients, Z.opp_involutive. destruct type; reflexivity.
    + split; cbn [snd terms constant]; [apply nonzero_negatable; auto|lia].
Qed.
Lemma matrix_lines t type names n rows : good_names names -> Forall (printable names) rows -> dims (S n) rows -> (names = [] \/ length names = n) ->
  exists lines P, m_pretty_matrix t names (relation_sign type) rows = say lines /\ written (constraint_line names type) lines P /\ map wide_row P = rows /\ (forall k, In k P -> fst k = n /\ fits_both (snd k)).
Proof.
  intros Hn Hp Hdim Hnn. unfold m_pretty_matrix. revert Hdim. induction Hp as [|row rows Hp _ IH]; intros Hdim; [exists [], []; split; [reflexivity|split; [constructor|split; [reflexivity|intros ? []]]]|].
  apply Forall_cons_iff in Hdim as [Hrow Hdim]. destruct (IH Hdim) as (lines & P & E & W & R & G). destruct (printed_line type names n row Hn Hp Hrow Hnn) as (line & k & EL & D & S1 & S2 & S3).
  exists (line ++ newline :: lines), (k :: P). split; [|split; [|split]].
  - cbn [for_all]. rewrite E. unfold m_pretty_line. destruct Hp as (zs & b & _ & HN & _). rewrite (C40_conversion t row) by (apply negatable_int; auto). cbn [calc]. rewrite EL.
    cbn [calc say andthen fst snd]. unfold end_line. rewrite <- app_assoc. reflexivity.
  - apply written_line; auto.
  - cbn [map]. rewrite R, S1. reflexivity.
  - intros k' [<-|Hk']; auto.
Qed.
Lemma written_app {C} (L : text -> C -> Prop) a P b R : written L a P -> written L b R -> written L (a ++ b) (P ++ R).
Proof.
  intros HA HB. induction HA as [|u t P Hu _ IH|line c t P Hc _ IH]; [exact HB| |].
  - rewrite <- app_assoc. cbn [app]. apply written_blank; auto.
  - rewrite <- app_assoc. cbn [app]. apply written_line; auto.
Qed.
(** The rows describe the hull. *)
Lemma hull_rows t order n (V E F : list vec) p : t <> INT16 -> sort_order order -> rows_representable t V -> dims (S n) V -> homogenised (S n) V -> dims (S n) E -> dims (S n) F ->
  m_extract_equations (arith t) V = Ok E -> m_fme (arith t) order V = Ok F -> length p = n ->
  (hull n (points_of V) (rays_of V) p <-> (forall e, In e E -> row_holds Equation e p) /\ (forall f, In f F -> row_holds Inequality f p)).
Proof.
  intros Ht Ho HR HV HH DE DF HE HF Hp. destruct (clear_point p) as (l & xs & Hl & HX). assert (Hxs : length xs = n) by (rewrite <- (forall2_length _ _ _ HX); auto).
  rewrite (hull_in_cone n V xs l p) by (auto using homogenised_rows).
  rewrite (C01_description t order (S n) V E F Ht Ho HR HV HH HE HF) by (rewrite app_length; cbn; lia).
  replace (S n - 1) with n by lia. rewrite app_nth2 by lia. rewrite Hxs, Nat.sub_diag. cbn [nth].
  split.
  - intros (_ & K1 & K2). split.
    + intros e He. apply (row_holds_dot Equation e p xs l); auto. rewrite Hxs. apply (dims_in (S n) E); auto.
    + intros f Hf. apply (row_holds_dot Inequality f p xs l); auto. rewrite Hxs. apply (dims_in (S n) F); auto.
  - intros (K1 & K2). split; [lia|]. split.
    + intros e He. apply (row_holds_dot Equation e p xs l); auto. rewrite Hxs. apply (dims_in (S n) E); auto.
    + intros f Hf. apply (row_holds_dot Inequality f p xs l); auto. rewrite Hxs. apply (dims_in (S n) F); auto.
Qed.
Lemma wide_satisfied type n P rows (p : list Q) : Forall (good_constraint type) P -> (forall k, In k P -> fst k = n) -> map wide_row P = rows -> length p = n ->
  ((forall k, In k P -> satisfies (snd k) p) <-> (forall row, In row rows -> row_holds type row p)).
Proof.
  intros HG HW HM Hp. rewrite Forall_forall in HG. subst rows. split.
  - intros K row Hr. apply in_map_iff in Hr as (k & <- & Hk). apply (proj2 (good_rows type k n (HG k Hk) (HW k Hk)) p Hp). apply K; auto.
  - intros K k Hk. apply (proj2 (good_rows type k n (HG k Hk) (HW k Hk)) p Hp). apply K. apply in_map; auto.
Qed.
(** What facet enumeration prints. *)
Lemma facet_call_lines t order n (V E F : list vec) names fuel :
  t <> INT16 -> sort_order order -> rows_representable t V -> dims (S n) V -> homogenised (S n) V -> good_names names -> (names = [] \/ length names = n) ->
  m_extract_equations (arith t) V = Ok E -> m_fme (arith t) order V = Ok F -> Forall negatable_row E -> Forall negatable_row F -> length F <= fuel ->
  exists equations Pe inequalities Pf out,
    m_facet_call t order fuel V names [] = Some (facet_text equations inequalities (match E with [] => true | _ => false end) false, Ok tt) /\
    written (constraint_line names Equation) equations Pe /\ map wide_row Pe = E /\ (forall k, In k Pe -> fst k = n /\ fits_both (snd k)) /\
    written (constraint_line names Inequality) inequalities Pf /\ map wide_row Pf = out /\ (forall k, In k Pf -> fst k = n /\ fits_both (snd k)) /\
    (forall f, In f out <-> In f F) /\ dims (S n) E /\ dims (S n) F.
Proof.
  intros Ht Ho HR HV HH HN HNl HE HF BE BF Hfuel.
  destruct (equations_printable t n V E names Ht HR HV HH HNl HE BE) as [DE PE].
  destruct (facets_printable t order n V F names Ht Ho HR HV HH HNl HF BF) as [DF PF].
  destruct (matrix_lines t Equation names n E HN PE DE HNl) as (equations & Pe & E1 & W1 & R1 & G1).
  destruct (classes_none t Facet_tag F fuel Hfuel) as (out & EO & HO).
  assert (DO : dims (S n) out) by (apply Forall_forall; intros x Hx; apply (dims_in (S n) F); auto; apply HO; auto).
  assert (PO : Forall (printable names) out) by (apply Forall_forall; intros x Hx; rewrite Forall_forall in PF; apply PF; apply HO; auto).
  destruct (matrix_lines t Inequality names n out HN PO DO HNl) as (inequalities & Pf & E2 & W2 & R2 & G2).
  exists equations, Pe, inequalities, Pf, out. split; [|split; [exact W1|split; [exact R1|split; [exact G1|split; [exact W2|split; [exact R2|split; [exact G2|split; [exact HO|auto]]]]]]]].
  unfold m_facet_call. change (num (arith t)) with Z in *. rewrite HE. cbn [m_normalize_maps mapM]. rewrite HF. cbn [bind]. rewrite EO. f_equal. unfold m_print_inequalities.
  unfold relation_sign in E1, E2. rewrite E2. cbn [nonempty m_reduced]. destruct E as [|e0 E'].
  - cbn [say andthen fst snd app facet_text]. unfold facet_text, end_line. rewrite <- app_assoc. reflexivity.
  - rewrite E1. cbn [say andthen fst snd app facet_text]. unfold facet_text, end_line. rewrite <- !app_assoc. cbn [app]. rewrite <- !app_assoc. reflexivity.
Qed.
(** It is the text of a file with equations and inequalities. *)
Lemma facet_text_system names body equations Pe inequalities Pf no_equations :
  readable_names names -> names_text body names -> written (constraint_line names Equation) equations Pe -> written (constraint_line names Inequality) inequalities Pf ->
  (forall k, In k Pe -> fits_both (snd k)) -> (no_equations = true -> Pe = []) ->
  let file := with_names names body (facet_text equations inequalities no_equations false) in
  early_keyword file /\
  system_text no_system (Some file) {| s_equations := Pe; s_inequalities := Pf; s_names := names; s_maps := []; s_dimension := None |}.
Proof.
  intros HRN HB WE WI HF HE file.
  assert (PL : plain_line []). { destruct (plain_or_keyword [] ltac:(intros [])) as [H|H]; [exact H|discriminate H]. }
  assert (TI : forall s, s_names s = names ->
    system_text s (Some (lit "Inequalities:" ++ newline :: inequalities)) {| s_equations := s_equations s; s_inequalities := Pf; s_names := names; s_maps := s_maps s; s_dimension := s_dimension s |}).
  { intros s Hs. rewrite <- (app_nil_r inequalities). apply (system_inequalities s (lit "Inequalities:") inequalities Pf [] [] None).
    - rewrite Hs; auto.
    - apply keyword_itself. vm_compute; tauto.
    - rewrite Hs; auto.
    - apply follows_end; [constructor|reflexivity].
    - rewrite app_nil_r, Hs. apply system_none. }
  assert (TE : forall s, s_names s = names ->
    system_text s (Some (lit "Equations:" ++ newline :: equations ++ [newline] ++ lit "Inequalities:" ++ newline :: inequalities))
      {| s_equations := Pe; s_inequalities := Pf; s_names := names; s_maps := s_maps s; s_dimension := s_dimension s |}).
  { intros s Hs. rewrite app_assoc. apply (system_equations s (lit "Equations:") (equations ++ [newline]) Pe (lit "Inequalities:" ++ newline :: inequalities) [] (Some (lit "Inequalities:" ++ newline :: inequalities))).
    - rewrite Hs; auto.
    - apply keyword_itself. vm_compute; tauto.
    - rewrite Hs. rewrite <- (app_nil_r Pe). apply written_app; auto. apply (written_blank _ []); constructor.
    - apply follows_keyword; [apply keyword_itself; vm_compute; tauto|reflexivity].
    - rewrite app_nil_r. apply Forall_forall. auto.
    - rewrite app_nil_r, Hs. exact (TI {| s_equations := Pe; s_inequalities := s_inequalities s; s_names := names; s_maps := s_maps s; s_dimension := s_dimension s |} eq_refl). }
  assert (TS : forall s, s_names s = names -> s_equations s = [] ->
    system_text s (Some (facet_text equations inequalities no_equations false)) {| s_equations := Pe; s_inequalities := Pf; s_names := names; s_maps := s_maps s; s_dimension := s_dimension s |}).
  { intros s Hs Hse. unfold facet_text. destruct no_equations; cbn [app].
    - rewrite (HE eq_refl), <- Hse. apply TI; auto.
    - rewrite <- app_assoc. cbn [app]. rewrite <- app_assoc. apply TE; auto. }
  assert (FT : exists title r, facet_text equations inequalities no_equations false = title ++ newline :: r /\ keyword_line all_words title /\ ~ In newline title).
  { unfold facet_text. destruct no_equations; cbn [app].
    - exists (lit "Inequalities:"), inequalities. split; [reflexivity|]. split; [apply keyword_itself; vm_compute; tauto|]. vm_compute. intuition discriminate.
    - exists (lit "Equations:"). eexists. split; [rewrite <- app_assoc; reflexivity|]. split; [apply keyword_itself; vm_compute; tauto|]. vm_compute. intuition discriminate. }
  destruct FT as (title & r & ET & KT & NT).
  destruct names as [|n0 names0].
  - unfold file. cbn [with_names]. split; [|apply (TS no_system); reflexivity]. rewrite ET. exists title. split; auto. exists [], (newline :: r). split; [reflexivity|]. split; [cbn; lia|]. split; [constructor|]. split; auto. right. eauto.
  - unfold file. cbn [with_names]. split.
    + exists (lit "Names:"). split; [|apply keyword_itself; vm_compute; tauto]. exists []. eexists. split; [reflexivity|]. split; [cbn; lia|]. split; [constructor|]. split; [vm_compute; intuition discriminate|]. right. eauto.
    + rewrite ET. change (newline :: title ++ newline :: r) with ([newline] ++ title ++ newline :: r). apply (system_names no_system (lit "Names:") body (n0 :: names0) [newline] title r).
      * apply keyword_itself. vm_compute; tauto.
      * exact HB.
      * repeat constructor.
      * discriminate.
      * exact KT.
      * rewrite <- ET. apply (system_line _ []); [left; exact PL|]. exact (TS {| s_equations := []; s_inequalities := []; s_names := n0 :: names0; s_maps := []; s_dimension := None |} eq_refl eq_refl).
Qed.

(** ** Sets of points *)
(** The directions in which the whole set can be moved, and the extreme ones (compare [moves] and [extreme_move], which refer to constraints). *)
Definition recession (n : nat) (S : list Q -> Prop) (d : list Q) : Prop := forall p s, length p = n -> S p -> (0 <= s)%Q -> S (shifted p s d).
Definition extreme_ray_of (n : nat) (S : list Q -> Prop) (d : list Q) : Prop :=
  length d = n /\ recession n S d /\ (exists j, ~ (nth j d 0 == 0)%Q) /\
  forall u v, length u = n -> length v = n -> recession n S u -> recession n S v -> (forall j, (nth j d 0 == nth j u 0 + nth j v 0)%Q) -> exists s, (0 <= s)%Q /\ forall j, (nth j u 0 == s * nth j d 0)%Q.

Lemma shifted_length p s d : length (shifted p s d) = length p.
Proof. unfold shifted. rewrite map_length, seq_length. reflexivity. Qed.
Lemma shifted_nth p s d j : length d = length p -> (nth j (shifted p s d) 0 == nth j p 0 + s * nth j d 0)%Q.
Proof.
  intros H. destruct (Nat.lt_ge_cases j (length p)) as [Hj|Hj].
  - unfold shifted. rewrite (nth_indep _ 0%Q (nth 0 p 0 + s * nth 0 d 0)%Q) by (rewrite map_length, seq_length; auto).
    rewrite (map_nth (fun j => nth j p 0 + s * nth j d 0)%Q (seq 0 (length p)) 0 j), seq_nth by auto. reflexivity.
  - rewrite !nth_overflow by (rewrite ?shifted_length; lia). ring.
Qed.
Lemma linear_shifted terms p s d : length d = length p -> (linear_form terms (shifted p s d) == linear_form terms p + s * linear_form terms d)%Q.
Proof.
  intros H. unfold linear_form. induction terms as [|x terms IH]; cbn [fold_right]; [ring|]. rewrite IH. unfold coordinate_of. rewrite shifted_nth by auto. ring.
Qed.
Lemma no_line_pointed n K p : length p = n -> all_satisfied K p -> contains_no_line n (all_satisfied K) -> pointed n K.
Proof.
  intros Hp HS HL d Hd Hz. apply (HL p d); auto. intros s k Hk. unfold satisfies. specialize (HS k Hk). unfold satisfies in HS.
  assert (E : (linear_form (terms k) (shifted p s d) == linear_form (terms k) p)%Q) by (rewrite linear_shifted by lia; rewrite (Hz k Hk); ring).
  destruct (operator k); cbn [holds] in *; try rewrite E; auto.
Qed.
Lemma bounded_slope (a b c : Q) : (forall s, (0 <= s)%Q -> (a + s * b <= c)%Q) -> (b <= 0)%Q.
Proof.
  intros H. destruct (Qlt_le_dec 0 b) as [Hb|Hb]; auto. exfalso. assert (H0 := H 0%Q ltac:(lra)).
  assert (N : ~ (b == 0)%Q) by lra. specialize (H ((c - a + 1) / b)%Q). assert (P : (0 <= (c - a + 1) / b)%Q) by (apply Qle_shift_div_l; auto; lra).
  specialize (H P). assert (E : ((c - a + 1) / b * b == c - a + 1)%Q) by (field; auto). rewrite E in H. lra.
Qed.
Lemma recession_moves n K d p : length d = n -> length p = n -> all_satisfied K p -> Forall (fun k => m_decided (operator k) = true) K -> (recession n (all_satisfied K) d <-> moves K d).
Proof.
  intros Hd Hp HS HD. rewrite Forall_forall in HD. split.
  - intros HR k Hk. assert (L : forall s, (0 <= s)%Q -> holds (operator k) (linear_form (terms k) p + s * linear_form (terms k) d) (inject_Z (constant k))).
    { intros s Hs. assert (X := HR p s Hp HS Hs k Hk). unfold satisfies in X. assert (E := linear_shifted (terms k) p s d ltac:(lia)). destruct (operator k); cbn [holds] in *; try rewrite <- E; auto. }
    destruct (operator k) eqn:EO; cbn [holds] in *.
    all: try (specialize (HD k Hk); rewrite EO in HD; discriminate).
    all: try (apply (bounded_slope (linear_form (terms k) p) _ (inject_Z (constant k))); exact L).
    all: try (assert (X : (- linear_form (terms k) d <= 0)%Q); [|lra]; apply (bounded_slope (- linear_form (terms k) p) _ (- inject_Z (constant k))); intros s Hs; specialize (L s Hs); lra).
    all: assert (X := L 0%Q ltac:(lra)); assert (Y := L 1%Q ltac:(lra)); lra.
  - intros HM q s Hq HQ Hs k Hk. specialize (HM k Hk). specialize (HQ k Hk). unfold satisfies in *. assert (E := linear_shifted (terms k) q s d ltac:(lia)).
    destruct (operator k); cbn [holds] in *; try rewrite E; auto; try (rewrite HM, HQ; ring); nra.
Qed.
Lemma comb_zero {X} (xs : list X) (V : list (list Q)) j : (comb (map (fun _ => 0%Q) xs) V j == 0)%Q.
Proof. revert V. induction xs as [|x xs IH]; intros [|v V]; cbn [map comb]; try reflexivity. rewrite IH. ring. Qed.
Lemma hull_first n p (P R : list (list Q)) : hull n (p :: P) R p.
Proof.
  exists (1%Q :: map (fun _ => 0%Q) P), (map (fun _ => 0%Q) R). cbn [length]. rewrite !map_length. split; auto. split; auto.
  assert (Z : forall l : list (list Q), Forall (Qle 0) (map (fun _ => 0%Q) l)) by (intros l; apply Forall_map, Forall_forall; intros; lra).
  split; [constructor; [lra|auto]|]. split; [auto|]. split.
  - cbn [sumQ fold_right]. assert (X : forall l : list (list Q), (fold_right Qplus 0 (map (fun _ => 0%Q) l) == 0)%Q) by (induction l as [|x l IH]; cbn [map fold_right]; [reflexivity|rewrite IH; reflexivity]). rewrite X. reflexivity.
  - intros j _. cbn [comb]. rewrite !comb_zero. ring.
Qed.
Lemma vertex_of_ext n (S T : list Q -> Prop) p : (forall q, length q = n -> (S q <-> T q)) -> (vertex_of n S p <-> vertex_of n T p).
Proof.
  intros H. unfold vertex_of. split; intros (V1 & V2 & V3); split; auto; (split; [apply H; auto|]); intros q r c Hq Hr Sq Sr; apply V3; auto; apply H; auto.
Qed.
Lemma recession_ext n (S T : list Q -> Prop) d : (forall q, length q = n -> (S q <-> T q)) -> (recession n S d <-> recession n T d).
Proof. intros H. unfold recession. split; intros K p s Hp HS Hs; (apply H; [rewrite shifted_length; auto|]); apply K; auto; apply H; auto. Qed.
Lemma extreme_ray_ext n (S T : list Q -> Prop) d : (forall q, length q = n -> (S q <-> T q)) -> (extreme_ray_of n S d <-> extreme_ray_of n T d).
Proof.
  intros H. unfold extreme_ray_of. split; intros (V1 & V2 & V3 & V4); split; auto; (split; [apply (recession_ext n S T d H); auto|]); (split; [auto|]); intros u v Hu Hv Su Sv; apply V4; auto; apply (recession_ext n S T _ H); auto.
Qed.
Lemma no_line_ext n (S T : list Q -> Prop) : (forall q, length q = n -> (S q <-> T q)) -> (contains_no_line n S <-> contains_no_line n T).
Proof. intros H. unfold contains_no_line. split; intros K p d Hp Hd HS; apply (K p d Hp Hd); intros s; apply H; auto; rewrite shifted_length; auto. Qed.
Lemma extreme_ray_move n K d p : length p = n -> all_satisfied K p -> Forall (fun k => m_decided (operator k) = true) K -> (extreme_ray_of n (all_satisfied K) d <-> extreme_move n K d).
Proof.
  intros Hp HS HD. unfold extreme_ray_of, extreme_move. split; intros (V1 & V2 & V3 & V4); split; auto; (split; [apply (recession_moves n K d p); auto|]); (split; [auto|]); intros u v Hu Hv Su Sv; apply V4; auto;
    apply (recession_moves n K _ p); auto.
Qed.

(** ** Facets, then vertices *)
Lemma facet_program_lines t order fs args name so content c n (E F : list vec) body :
  t <> INT16 -> sort_order order -> asks args name so -> fs name = Some content -> early_keyword content -> file_text nothing (Some content) c ->
  agree c n -> c_points c <> [] -> c_maps c = [] -> good_names (c_names c) -> names_text body (c_names c) ->
  m_extract_equations (arith t) (file_rows c so) = Ok E -> m_fme (arith t) order (file_rows c so) = Ok F -> Forall negatable_row E -> Forall negatable_row F ->
  exists printed s,
    (exists fuel0, forall fuel, fuel0 <= fuel -> m_facet_program t order fs fuel args = Some (printed, Ok tt)) /\
    early_keyword (with_names (c_names c) body printed) /\ system_text no_system (Some (with_names (c_names c) body printed)) s /\
    (s_inequalities s = [] <-> F = []) /\ (forall k, In k (s_inequalities s) -> fst k = n) /\ equations_fit s n /\ s_names s = c_names c /\ s_dimension s = None /\ s_maps s = [] /\
    forall p : list Q, length p = n -> (hull n (map coordinates_of (c_points c)) (map coordinates_of (c_rays c)) p <-> all_satisfied (constraints_of s) p).
Proof.
  intros Ht Ho HA HF HK HT HG Hne HM HN HB HE HFm BE BF. assert (HS := file_is_sane (Some content) c HT).
  destruct (file_rows_facts c so n HS HG Hne) as (HP & HD & HH & HR). assert (HNl : c_names c = [] \/ length (c_names c) = n) by apply HG.
  destruct (facet_program_reads t order fs args name so content c n Ht HA HF HK HT HG) as (f0 & K).
  destruct (facet_call_lines t order n (file_rows c so) E F (c_names c) (length F) Ht Ho (HR t Ht) HD HH HN HNl HE HFm BE BF (le_n _))
    as (equations & Pe & inequalities & Pf & out & E1 & W1 & R1 & G1 & W2 & R2 & G2 & HO & DE & DF).
  set (printed := facet_text equations inequalities (match E with [] => true | _ => false end) false) in *.
  assert (HRN : readable_names (c_names c)) by (destruct HN as (N1 & N2 & N3 & _); split; auto).
  destruct (facet_text_system (c_names c) body equations Pe inequalities Pf (match E with [] => true | _ => false end) HRN HB W1 W2) as (X1 & X2).
  { intros k Hk. apply G1; auto. }
  { destruct E; [|discriminate]. intros _. apply map_eq_nil in R1. auto. }
  fold printed in X1, X2. eexists printed, _. split; [|split; [exact X1|split; [exact X2|]]].
  - exists (f0 + length F). intros fuel Hfuel. rewrite (K fuel) by lia. rewrite HM. apply (facet_call_mono t order (length F) fuel); [lia|auto].
  - cbn [s_inequalities s_equations s_names s_maps s_dimension]. split; [|split; [intros k Hk; apply G2; auto|split; [intros k Hk; apply G1; auto|split; [reflexivity|split; [reflexivity|split; [reflexivity|]]]]]].
    + split.
      * intros EP. subst Pf. cbn [map] in R2. destruct F as [|f F']; auto. exfalso. assert (I := proj2 (HO f) (or_introl eq_refl)). rewrite <- R2 in I. destruct I.
      * intros ->. destruct out as [|o out']; [apply map_eq_nil in R2; auto|]. exfalso. exact (proj1 (HO o) (or_introl eq_refl)).
    + intros p Hp. rewrite <- (rows_hull n (c_points c) (c_rays c) (file_rows c so) p) by (auto; apply HS). rewrite (hull_rows t order n (file_rows c so) E F p) by auto.
      assert (SG := section_good (c_names c) Equation equations [] Pe [] None HRN W1 ltac:(apply follows_end; [constructor|reflexivity])). rewrite app_nil_r in SG.
      assert (SI := section_good (c_names c) Inequality inequalities [] Pf [] None HRN W2 ltac:(apply follows_end; [constructor|reflexivity])). rewrite app_nil_r in SI.
      assert (Y1 := wide_satisfied Equation n Pe E p SG (fun k Hk => proj1 (G1 k Hk)) R1 Hp). assert (Y2 := wide_satisfied Inequality n Pf out p SI (fun k Hk => proj1 (G2 k Hk)) R2 Hp).
      unfold all_satisfied, constraints_of. cbn [s_equations s_inequalities]. split.
      * intros (K1 & K2) k Hk. apply in_map_iff in Hk as (w & <- & Hw). apply in_app_iff in Hw as [Hw|Hw]; [apply (proj2 Y1); auto|apply (proj2 Y2); auto]. intros row Hrow. apply K2. apply HO; auto.
      * intros Q1. split; [apply (proj1 Y1); intros k Hk; apply Q1; apply in_map; apply in_app_iff; auto|].
        intros f Hf. apply (proj1 Y2); [intros k Hk; apply Q1; apply in_map; apply in_app_iff; auto|apply HO; auto].
Qed.
(** The output of facet enumeration, with the names added if there are any, is a file with equations and inequalities that says the same: its solutions are the convex hull of the points plus
    the conical hull of the rays of the first file. *)
Theorem C55_facets_reread : forall t order fs args name so content c n (E F : list vec) body,
  t <> INT16 -> sort_order order -> asks args name so -> fs name = Some content -> early_keyword content -> file_text nothing (Some content) c ->
  agree c n -> c_points c <> [] -> c_maps c = [] -> good_names (c_names c) -> names_text body (c_names c) ->
  m_extract_equations (arith t) (file_rows c so) = Ok E -> m_fme (arith t) order (file_rows c so) = Ok F -> Forall negatable_row E -> Forall negatable_row F -> F <> [] ->
  exists printed s,
    (exists fuel0, forall fuel, fuel0 <= fuel -> m_facet_program t order fs fuel args = Some (printed, Ok tt)) /\
    early_keyword (with_names (c_names c) body printed) /\ system_text no_system (Some (with_names (c_names c) body printed)) s /\ fits_together s n /\ equations_fit s n /\ s_maps s = [] /\
    forall p : list Q, length p = n -> (hull n (map coordinates_of (c_points c)) (map coordinates_of (c_rays c)) p <-> all_satisfied (constraints_of s) p).
Proof.
  intros t order fs args name so content c n E F body Ht Ho HA HF HK HT HG Hne HM HN HB HE HFm BE BF Hnf.
  destruct (facet_program_lines t order fs args name so content c n E F body Ht Ho HA HF HK HT HG Hne HM HN HB HE HFm BE BF) as (printed & s & K1 & K2 & K3 & K4 & K5 & K6 & K7 & K8 & K9 & K10).
  exists printed, s. split; auto. split; auto. split; auto. split; [|auto]. split; [intros X; apply Hnf, K4, X|]. split; auto. split; [rewrite K7; apply HG|auto].
Qed.
Print Assumptions C55_facets_reread.
Lemma good_decided type k : good_constraint type k -> m_decided (operator (snd k)) = true.
Proof. intros (H & _). destruct type; cbn in H; [rewrite H; reflexivity|destruct H as [->| ->]; reflexivity]. Qed.
Lemma system_decided s : sound_system s -> Forall (fun k => m_decided (operator k) = true) (constraints_of s).
Proof.
  intros (H1 & H2 & _). unfold constraints_of. apply Forall_map, Forall_app. split; eapply Forall_impl.
  2: exact H1. 3: exact H2.
  - intros k [Hk _]. apply (good_decided Equation); auto.
  - intros k Hk. apply (good_decided Inequality); auto.
Qed.
(** Facet enumeration, followed by vertex enumeration of what it prints: the vertices that are listed are exactly the vertices of the convex hull of the points plus the conical hull of the rays
    of the first file (those points that are not vertices are gone), the rays that are listed are exactly its extreme directions, each is listed once, and together they have the same hull.
    The two runs may use different integers, orderings and options.  The hull contains no line. *)
Theorem C55_facets_then_vertices : forall t order fs args name so content c n (E F : list vec) body,
  t <> INT16 -> sort_order order -> asks args name so -> fs name = Some content -> early_keyword content -> file_text nothing (Some content) c ->
  agree c n -> c_points c <> [] -> c_maps c = [] -> good_names (c_names c) -> names_text body (c_names c) ->
  m_extract_equations (arith t) (file_rows c so) = Ok E -> m_fme (arith t) order (file_rows c so) = Ok F -> Forall negatable_row E -> Forall negatable_row F -> F <> [] -> 0 < n ->
  let original := hull n (map coordinates_of (c_points c)) (map coordinates_of (c_rays c)) in
  contains_no_line n original ->
  exists printed s,
    (exists fuel0, forall fuel, fuel0 <= fuel -> m_facet_program t order fs fuel args = Some (printed, Ok tt)) /\
    system_text no_system (Some (with_names (c_names c) body printed)) s /\
    forall t' order' fs' args' name' so' (F' : list vec),
      t' <> INT16 -> sort_order order' -> asks args' name' so' -> fs' name' = Some (with_names (c_names c) body printed) ->
      m_fme (arith t') order' (system_rows s so') = Ok F' -> Forall negatable_row F' ->
      exists vertices P rays R,
        section_lines vertices P /\ section_lines rays R /\
        (exists fuel0, forall fuel, fuel0 <= fuel ->
          m_vertex_program t' order' fs' fuel args' = Some (vertex_text vertices rays (match P with [] => true | _ => false end) (match R with [] => true | _ => false end) false, Ok tt)) /\
        (forall p : list Q, length p = n -> (original p <-> hull n (map coordinates_of P) (map coordinates_of R) p)) /\
        (forall p : list Q, vertex_of n original p <-> exists q, In q (map coordinates_of P) /\ same_point q p) /\ listed_once same_point (map coordinates_of P) /\
        (forall d : list Q, extreme_ray_of n original d <-> length d = n /\ exists u, In u (map coordinates_of R) /\ multiple d u) /\ listed_once multiple (map coordinates_of R).
Proof.
  intros t order fs args name so content c n E F body Ht Ho HA HF HK HT HG Hne HM HN HB HE HFm BE BF Hnf H0 original HL.
  destruct (C55_facets_reread t order fs args name so content c n E F body Ht Ho HA HF HK HT HG Hne HM HN HB HE HFm BE BF Hnf) as (printed & s & K1 & K2 & K3 & K4 & K5 & K6 & K7).
  exists printed, s. split; auto. split; auto. intros t' order' fs' args' name' so' F' Ht' Ho' HA' HF' HE' BF'. assert (HS := system_sound _ _ _ K3 no_system_sound).
  assert (PT : exists p, length p = n /\ original p).
  { destruct (c_points c) as [|p0 P0] eqn:EP; [congruence|]. exists (coordinates_of p0). split; [unfold coordinates_of; rewrite map_length; apply HG; rewrite EP; left; auto|]. unfold original. cbn [map]. apply hull_first. }
  destruct PT as (p & Hp & Hpo). assert (Hps : all_satisfied (constraints_of s) p) by (apply K7; auto).
  assert (HP : pointed n (constraints_of s)) by (apply (no_line_pointed n (constraints_of s) p); auto; apply (no_line_ext n original); auto).
  destruct (C50_vertices t' order' fs' args' name' so' _ s n F' Ht' Ho' HA' HF' K2 K3 K4 K5 H0 K6 HP HE' BF') as (vertices & P & rays & R & L1 & L2 & X1 & X2 & X3 & X4 & X5 & X6).
  exists vertices, P, rays, R. split; auto. split; auto. split; auto. split; [intros q Hq; rewrite <- (X2 q Hq); apply K7; auto|]. split; [|split; [auto|split; [|auto]]].
  - intros q. rewrite <- X3. apply vertex_of_ext. auto.
  - intros d. rewrite <- X5. rewrite <- (extreme_ray_move n (constraints_of s) d p Hp Hps (system_decided s HS)). apply extreme_ray_ext. auto.
Qed.
Print Assumptions C55_facets_then_vertices.

(** ** Vertices, then facets *)
Lemma vertex_text_file n vertices P rays R : section_lines vertices P -> section_lines rays R -> readable_again n P R -> P <> [] ->
  let printed := vertex_text vertices rays (match P with [] => true | _ => false end) (match R with [] => true | _ => false end) false in
  let c := {| c_points := P; c_rays := R; c_names := []; c_maps := []; c_dimension := None |} in
  early_keyword printed /\ file_text nothing (Some printed) c /\ agree c n.
Proof.
  intros LP LR (FP & FR & HL) Hne printed c. assert (EV : printed = lit "Vertices:" ++ newline :: vertices ++ (match R with [] => [] | _ => lit "Rays:" ++ newline :: rays end)).
  { unfold printed, vertex_text. destruct P as [|p0 P0]; [congruence|]. rewrite <- app_assoc. cbn [app]. destruct R; reflexivity. }
  split; [|split].
  - rewrite EV. exists (lit "Vertices:"). split; [|apply keyword_itself; vm_compute; tauto]. exists []. eexists. split; [reflexivity|]. split; [cbn; lia|]. split; [constructor|]. split; [vm_compute; intuition discriminate|]. right. eauto.
  - rewrite EV. destruct R as [|r0 R0].
    + apply (file_points nothing (lit "Vertices:") vertices P [] [] None).
      * apply keyword_itself. vm_compute; tauto.
      * exact LP.
      * apply follow_end. apply tail_end. constructor.
      * rewrite app_nil_r. exact FP.
      * rewrite app_nil_r. apply file_none.
    + apply (file_points nothing (lit "Vertices:") vertices P (lit "Rays:" ++ newline :: rays) [] (Some (lit "Rays:" ++ newline :: rays))).
      * apply keyword_itself. vm_compute; tauto.
      * exact LP.
      * apply follow_keyword. apply keyword_itself. vm_compute; tauto.
      * rewrite app_nil_r. exact FP.
      * rewrite app_nil_r. rewrite <- (app_nil_r rays). apply (file_rays _ (lit "Rays:") rays (r0 :: R0) [] [] None).
        -- apply keyword_itself. vm_compute; tauto.
        -- exact LR.
        -- apply follow_end. apply tail_end. constructor.
        -- rewrite app_nil_r. exact FR.
        -- rewrite app_nil_r. apply file_none.
  - unfold agree, c. cbn [c_points c_rays c_maps c_names c_dimension]. split; [intros X; apply app_eq_nil in X as [X _]; auto|]. split; [exact HL|]. split; [intros m []|auto].
Qed.
Lemma no_names_good : good_names [].
Proof. split; [constructor|]. split; [constructor|]. split; [intros i j m k v _ Hi; destruct i; discriminate|constructor]. Qed.
(** Vertex enumeration, followed by facet enumeration of what it prints: a point satisfies the printed equations and inequalities iff it satisfies the constraints of the first file.
    The first file has solutions, and they contain no line. *)
Theorem C55_vertices_then_facets : forall t order fs args name so content s n (F : list vec) p,
  t <> INT16 -> sort_order order -> asks args name so -> fs name = Some content -> early_keyword content -> system_text no_system (Some content) s ->
  fits_together s n -> equations_fit s n -> 0 < n -> s_maps s = [] -> length p = n -> all_satisfied (constraints_of s) p -> contains_no_line n (all_satisfied (constraints_of s)) ->
  m_fme (arith t) order (system_rows s so) = Ok F -> Forall negatable_row F ->
  exists printed c,
    (exists fuel0, forall fuel, fuel0 <= fuel -> m_vertex_program t order fs fuel args = Some (printed, Ok tt)) /\ file_text nothing (Some printed) c /\
    forall t' order' fs' args' name' so' (E' F' : list vec),
      t' <> INT16 -> sort_order order' -> asks args' name' so' -> fs' name' = Some printed ->
      m_extract_equations (arith t') (file_rows c so') = Ok E' -> m_fme (arith t') order' (file_rows c so') = Ok F' -> Forall negatable_row E' -> Forall negatable_row F' ->
      exists equations Pe inequalities Pf,
        written (denotes [] n Equation) equations Pe /\ written (denotes [] n Inequality) inequalities Pf /\
        (exists fuel0, forall fuel, fuel0 <= fuel ->
          m_facet_program t' order' fs' fuel args' = Some (facet_text equations inequalities (match Pe with [] => true | _ => false end) false, Ok tt)) /\
        forall q : list Q, length q = n -> (all_satisfied (constraints_of s) q <-> forall k, In k (Pe ++ Pf) -> satisfies k q).
Proof.
  intros t order fs args name so content s n F p Ht Ho HA HF HK HT Hn He H0 HM Hp HS HL HE HB.
  destruct (vertex_program_lists t order fs args name so content s n F Ht Ho HA HF HK HT Hn He H0 HM (no_line_pointed n (constraints_of s) p Hp HS HL) HE HB)
    as (vertices & P & rays & R & K1 & K2 & K3 & K4 & _ & _ & _ & _ & K9).
  assert (HP : P <> []).
  { intros ->. apply (K4 p Hp) in HS as (mus & nus & L1 & _ & _ & _ & S1 & _). cbn in L1. destruct mus; [|discriminate]. discriminate S1. }
  destruct (vertex_text_file n vertices P rays R K1 K2 K9 HP) as (X1 & X2 & X3).
  eexists _, _. split; [exact K3|]. split; [exact X2|]. intros t' order' fs' args' name' so' E' F' Ht' Ho' HA' HF' HE' HFm' BE' BF'.
  destruct (C48_facets t' order' fs' args' name' so' _ _ n E' F' Ht' Ho' HA' HF' X1 X2 X3 HP eq_refl no_names_good HE' HFm' BE' BF')
    as (equations & Pe & inequalities & Pf & W1 & W2 & W3 & W4).
  exists equations, Pe, inequalities, Pf. split; auto. split; auto. split; auto. intros q Hq. rewrite (K4 q Hq). exact (W4 q Hq).
Qed.
Print Assumptions C55_vertices_then_facets.

(** ** What goes wrong *)
(** Without any inequality (the hull is a single point, or contains with two points the line through them), what facet enumeration prints is refused by vertex enumeration. *)
Theorem C55_no_inequality_refused : forall t order fs args name so content c n (E : list vec) body,
  t <> INT16 -> sort_order order -> asks args name so -> fs name = Some content -> early_keyword content -> file_text nothing (Some content) c ->
  agree c n -> c_points c <> [] -> c_maps c = [] -> good_names (c_names c) -> names_text body (c_names c) ->
  m_extract_equations (arith t) (file_rows c so) = Ok E -> m_fme (arith t) order (file_rows c so) = Ok [] -> Forall negatable_row E ->
  exists printed,
    (exists fuel0, forall fuel, fuel0 <= fuel -> m_facet_program t order fs fuel args = Some (printed, Ok tt)) /\
    forall t' order' fs' args' name' so', asks args' name' so' -> fs' name' = Some (with_names (c_names c) body printed) ->
      exists fuel0, forall fuel, fuel0 <= fuel -> m_vertex_program t' order' fs' fuel args' = Some ([], Throw).
Proof.
  intros t order fs args name so content c n E body Ht Ho HA HF HK HT HG Hne HM HN HB HE HFm BE.
  destruct (facet_program_lines t order fs args name so content c n E [] body Ht Ho HA HF HK HT HG Hne HM HN HB HE HFm BE (Forall_nil _)) as (printed & s & K1 & K2 & K3 & K4 & _).
  exists printed. split; auto. intros t' order' fs' args' name' so' HA' HF'. destruct (input_inequalities_ok fs' args' name' so' _ s HA' HF' K2 K3) as (f0 & K). exists f0. intros fuel Hfuel.
  unfold m_vertex_program. rewrite (K fuel Hfuel), (proj2 K4 eq_refl). reflexivity.
Qed.
Print Assumptions C55_no_inequality_refused.

(** ** Examples *)
Definition single_point : text := line "Vertices:" ++ line "1 2".
Definition single_printed : text := line "Equations:" ++ line "  0  1 -2" ++ line "  1  0 -1" ++ line "" ++ line "Inequalities:".
Theorem C55_single_point_refuted :
  m_facet_program SAFE sorted_order (one_file single_point) 20 [lit "f"] = Some (single_printed, Ok tt) /\
  m_vertex_program SAFE sorted_order (one_file single_printed) 20 [lit "f"] = Some ([], Throw).
Proof. split; vm_compute; reflexivity. Qed.
Print Assumptions C55_single_point_refuted.
Lemma half_strip_hull (x : list Q) : hull 2 (map coordinates_of (c_points half_strip_contents)) (map coordinates_of (c_rays half_strip_contents)) x -> (0 <= nth 0 x 0 <= 1 # 2)%Q /\ (0 <= nth 1 x 0)%Q.
Proof.
  intros (mus & nus & L1 & L2 & P1 & P2 & S1 & H). cbn in L1, L2. destruct mus as [|m1 [|m2 [|]]]; try discriminate. destruct nus as [|v [|]]; try discriminate.
  assert (H0 := H 0 ltac:(lia)). assert (H1 := H 1 ltac:(lia)). apply Forall_cons_iff in P1 as [A1 P1]. apply Forall_cons_iff in P1 as [A2 _]. apply Forall_cons_iff in P2 as [A3 _].
  unfold coordinates_of in H0, H1. cbn [map half_strip_contents c_points c_rays fst snd comb nth] in H0, H1. cbn [sumQ fold_right] in S1.
  change (inject_Z 0) with 0%Q in *. change (inject_Z 1) with 1%Q in *. change (inject_Z 2) with 2%Q in *.
  setoid_replace (0 / 1)%Q with 0%Q in H0 by reflexivity. setoid_replace (0 / 1)%Q with 0%Q in H1 by reflexivity. setoid_replace (1 / 2)%Q with (1 # 2)%Q in H0 by reflexivity. setoid_replace (1 / 1)%Q with 1%Q in H1 by reflexivity.
  lra.
Qed.
Example C55_facets_example :
  contains_no_line 2 (hull 2 (map coordinates_of (c_points half_strip_contents)) (map coordinates_of (c_rays half_strip_contents))) /\ names_text (lit "x y") (c_names half_strip_contents) /\
  m_facet_program SAFE sorted_order (one_file half_strip) 20 [lit "f"] = Some (line "Inequalities:" ++ line "-x <= 0" ++ line "-y <= 0" ++ line "2x <= 1", Ok tt) /\
  with_names (c_names half_strip_contents) (lit "x y") (line "Inequalities:" ++ line "-x <= 0" ++ line "-y <= 0" ++ line "2x <= 1") =
    line "Names:" ++ line "x y" ++ line "Inequalities:" ++ line "-x <= 0" ++ line "-y <= 0" ++ line "2x <= 1" /\
  m_vertex_program SAFE sorted_order (one_file (line "Names:" ++ line "x y" ++ line "Inequalities:" ++ line "-x <= 0" ++ line "-y <= 0" ++ line "2x <= 1")) 20 [lit "f"] =
    Some (line "Vertices:" ++ line "0 0 " ++ line "1/2 0 " ++ line "Rays:" ++ line "  0  1", Ok tt).
Proof.
  split; [|split; [exact xy_text|split; [vm_compute; reflexivity|split; [reflexivity|vm_compute; reflexivity]]]].
  intros p d Hp Hd HS. assert (B := fun s => half_strip_hull _ (HS s)).
  assert (N : forall s j, (nth j (shifted p s d) 0 == nth j p 0 + s * nth j d 0)%Q) by (intros s j; apply shifted_nth; lia).
  assert (X : (nth 0 d 0 <= 0)%Q). { apply (bounded_slope (nth 0 p 0%Q) _ (1 # 2)%Q). intros s _. rewrite <- N. apply B. }
  assert (X' : (- nth 0 d 0 <= 0)%Q). { apply (bounded_slope (- nth 0 p 0%Q)%Q _ 0%Q). intros s _. assert (B' := proj1 (proj1 (B s))). rewrite N in B'. lra. }
  assert (Y : (- nth 1 d 0 <= 0)%Q). { apply (bounded_slope (- nth 1 p 0%Q)%Q _ 0%Q). intros s _. assert (B' := proj2 (B s)). rewrite N in B'. lra. }
  assert (Y' : (nth 1 d 0 <= 0)%Q). { apply (bounded_slope (- nth 1 p 0%Q)%Q _ 0%Q). intros s _. assert (B' := proj2 (B (- s)%Q)). rewrite N in B'. lra. }
  intros j. destruct d as [|a [|b [|]]]; try discriminate. cbn [nth] in *. destruct j as [|[|[|j]]]; cbn [nth]; lra.
Qed.
Example C55_vertices_example :
  all_satisfied (constraints_of segment_system) [1 # 2; 1 # 2]%Q /\ contains_no_line 2 (all_satisfied (constraints_of segment_system)) /\
  m_vertex_program SAFE sorted_order (one_file segment) 20 [lit "f"] = Some (line "Vertices:" ++ line "0 1 " ++ line "1 0 ", Ok tt) /\
  m_facet_program SAFE sorted_order (one_file (line "Vertices:" ++ line "0 1 " ++ line "1 0 ")) 20 [lit "f"] =
    Some (line "Equations:" ++ line "  1  1 -1" ++ line "" ++ line "Inequalities:" ++ line "  0 -1  0" ++ line "  0  1 -1", Ok tt).
Proof.
  split; [|split; [|split; vm_compute; reflexivity]].
  - intros k [<-|[<-|[<-|[]]]]; vm_compute; try reflexivity; discriminate.
  - intros p d Hp Hd HS. assert (N : forall s j, (nth j (shifted p s d) 0 == nth j p 0 + s * nth j d 0)%Q) by (intros s j; apply shifted_nth; lia).
    assert (B : forall s, (0 <= nth 0 p 0 + s * nth 0 d 0)%Q /\ (0 <= nth 1 p 0 + s * nth 1 d 0)%Q).
    { intros s. assert (B1 := HS s _ (or_intror (or_introl eq_refl))). assert (B2 := HS s _ (or_intror (or_intror (or_introl eq_refl)))).
      unfold satisfies, linear_form, coordinate_of in B1, B2. cbn [snd terms operator constant fold_right fst holds] in B1, B2. rewrite N in B1, B2.
      change (inject_Z (-1)) with (-1)%Q in B1. change (inject_Z 2) with 2%Q in B2. change (inject_Z 0) with 0%Q in *. split; lra. }
    assert (Z : forall a b : Q, (forall s, (0 <= a + s * b)%Q) -> (b == 0)%Q).
    { intros a b H. assert (b <= 0)%Q by (apply (bounded_slope (- a)%Q _ 0%Q); intros s _; specialize (H (- s)%Q); lra). assert (- b <= 0)%Q by (apply (bounded_slope (- a)%Q _ 0%Q); intros s _; specialize (H s); lra). lra. }
    assert (Z0 := Z _ _ (fun s => proj1 (B s))). assert (Z1 := Z _ _ (fun s => proj2 (B s))).
    intros j. destruct d as [|a [|b [|]]]; try discriminate. cbn [nth] in *. destruct j as [|[|[|j]]]; cbn [nth]; lra.
Qed.
