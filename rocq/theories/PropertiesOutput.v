(** * PropertiesOutput: what is printed (C40), and reading it again (C44). *)
From Coq Require Import List ZArith QArith Arith Bool Ascii String Lia Lqa.
From Verif Require Import Base Spec LinAlg ListUtil ArithModel MatrixModel FmeModel SafeIntModel IntTypes RowLcm StreamModel StreamProofs IntLcm InputModel InputProofs InputTotal VertexInput ClassesModel
  ConstraintModel ConstraintInput ConstraintSection PropertiesVertices PropertiesConstraints OutputModel OutputProofs.
Import ListNotations.
Open Scope Z_scope.
Open Scope list_scope.

(** ** Specification *)
(** Rows of values that [int] can represent, and whose negatives it can represent as well. *)
Definition negatable_row (row : vec) : Prop := Forall (fun z => - 2147483647 <= z <= 2147483647) row.
(** [p / q] is the fraction [x / b] in lowest terms, with a positive denominator. *)
Definition in_lowest_terms (b x : Z) (f : Z * Z) : Prop := let '(p, q) := f in 0 < q /\ Z.gcd p q = 1 /\ p * b = x * q.
(** Decimal text for a fraction: just the numerator if the denominator is 1. *)
Definition as_fraction (t : text) (f : Z * Z) : Prop :=
  let '(p, q) := f in (q = 1 /\ integer_text t p) \/ (q <> 1 /\ exists a b, t = a ++ lit "/" ++ b /\ integer_text a p /\ integer_text b q).

Lemma negatable_small row : negatable_row row -> Forall small row.
Proof. apply Forall_impl. intros z H. unfold small, int_range, StreamModel.int_min, StreamModel.int_max. lia. Qed.
Lemma negatable_int row : negatable_row row -> int_row row.
Proof. apply Forall_impl. intros z H. unfold int_range, StreamModel.int_min, StreamModel.int_max. lia. Qed.
Lemma negatable_app a b : negatable_row (a ++ b) <-> negatable_row a /\ negatable_row b.
Proof. apply Forall_app. Qed.
Lemma small_negatable z : small z -> - 2147483647 <= z <= 2147483647.
Proof. unfold small, int_range, StreamModel.int_min, StreamModel.int_max. lia. Qed.

(** ** C40: fractions *)
(** A vertex is printed as one fraction for each coordinate, each followed by a blank; they are the coordinates of the vertex, in lowest terms. *)
Theorem C40_fractions : forall xs b, b <> 0 -> negatable_row (xs ++ [b]) ->
  exists fractions texts, m_fractional (xs ++ [b]) = Ok (flat_map (fun t => t ++ lit " ") texts) /\
    Forall2 as_fraction texts fractions /\ Forall2 (in_lowest_terms b) xs fractions.
Proof.
  intros xs b Hb HN. apply negatable_app in HN as [HN Hb']. apply negatable_small in HN, Hb'. apply Forall_inv in Hb'.
  exists (map (lowest b) xs), (map (fun x => fraction_text (lowest b x)) xs). split; [|split].
  - rewrite fractional_ok by auto. f_equal. rewrite !flat_map_concat_map, map_map. reflexivity.
  - clear HN. induction xs as [|x xs IH]; cbn [map]; constructor; auto. unfold as_fraction, fraction_text. destruct (lowest b x) as [p q]. cbn [fst snd].
    destruct (Z.eqb_spec q 1); [left; split; auto; rewrite app_nil_r; apply int_text_spec|right; split; auto]. exists (int_text p), (int_text q). split; [reflexivity|]. split; apply int_text_spec.
  - clear HN. induction xs as [|x xs IH]; cbn [map]; constructor; auto. apply lowest_spec. auto.
Qed.
Print Assumptions C40_fractions.
(** The line follows the grammar of vertices in an input file (C31). *)
Theorem C40_grammar : forall xs b, xs <> [] -> b <> 0 -> negatable_row (xs ++ [b]) ->
  exists line fractions, m_fractional (xs ++ [b]) = Ok line /\ coordinates line fractions /\ Forall2 (in_lowest_terms b) xs fractions.
Proof.
  intros xs b Hx Hb HN. apply negatable_app in HN as [HN Hb']. apply negatable_small in HN, Hb'. apply Forall_inv in Hb'. rewrite fractional_ok by auto.
  eexists. exists (map (lowest b) xs). split; [reflexivity|]. split; [apply fractions_coordinates; auto|].
  clear HN Hx. induction xs as [|x xs IH]; cbn [map]; constructor; auto. apply lowest_spec. auto.
Qed.
Print Assumptions C40_grammar.
(** Rows of the other types are converted to [int] first.  Values that fit are not changed ... *)
Lemma wrap_fits z : int_range z -> wrap_signed 32 z = z.
Proof. unfold int_range, StreamModel.int_min, StreamModel.int_max, wrap_signed. intros H. rewrite Z.mod_small; lia. Qed.
Lemma to_int_fits t z : int_range z -> m_to_int t z = Ok z.
Proof.
  intros H. destruct t; cbn [m_to_int]; auto; [rewrite wrap_fits; auto|]. unfold si_to_int. rewrite wrap_fits by auto.
  unfold int_range, StreamModel.int_min, StreamModel.int_max in H. unfold SafeIntModel.int_max, SafeIntModel.int_min.
  destruct (Z.gtb_spec z (2 ^ (32 - 1) - 1)); [lia|]. destruct (Z.ltb_spec z (- 2 ^ (32 - 1))); [lia|]. reflexivity.
Qed.
Theorem C40_conversion : forall t row, int_row row -> m_cast t row = Ok row.
Proof. intros t row H. unfold m_cast. induction H as [|z row Hz _ IH]; [reflexivity|]. cbn [mapM]. rewrite to_int_fits by auto. cbn [bind]. rewrite IH. reflexivity. Qed.
Print Assumptions C40_conversion.
(** ... SafeInteger throws if one does not fit ... *)
Theorem C40_safe_rejected : forall row, ~ int_row row -> m_cast SAFE row = Throw.
Proof.
  intros row. unfold m_cast. induction row as [|z row IH]; intros H; [destruct H; constructor|]. cbn [mapM m_to_int].
  unfold si_to_int at 1. destruct ((z >? SafeIntModel.int_max 32) || (z <? SafeIntModel.int_min 32)) eqn:E; [reflexivity|]. cbn [bind]. rewrite IH; [reflexivity|].
  intros K. apply H. constructor; auto. apply orb_false_iff in E as [E1 E2]. unfold int_range, StreamModel.int_min, StreamModel.int_max. unfold SafeIntModel.int_max, SafeIntModel.int_min in *.
  destruct (Z.gtb_spec z (2 ^ (32 - 1) - 1)); [discriminate|]. destruct (Z.ltb_spec z (- 2 ^ (32 - 1))); [discriminate|]. lia.
Qed.
Print Assumptions C40_safe_rejected.
(** ... but int64_t is reduced modulo 2^32 without notice: whenever an entry does not fit, other numbers are printed; for instance the vertex 4294967298 is printed as 2. *)
Theorem C40_int64_refuted :
  (forall row, Forall (representable INT64) row -> ~ int_row row -> exists row', m_cast INT64 row = Ok row' /\ row' <> row) /\
  m_print_vertices INT64 [[4294967298; 1]] false = (lit "Vertices:" ++ [newline] ++ lit "2 " ++ [newline], Ok tt).
Proof.
  split; [|reflexivity]. intros row _ H. exists (map (wrap_signed 32) row). split.
  - unfold m_cast. clear H. induction row as [|z row IH]; [reflexivity|]. cbn [mapM m_to_int bind map]. rewrite IH. reflexivity.
  - intros E. apply H. apply Forall_forall. intros z Hz. assert (W : wrap_signed 32 z = z).
    { clear H. induction row as [|y row IH]; [destruct Hz|]. cbn [map] in E. injection E as E1 E2. destruct Hz as [->|Hz]; auto. }
    unfold wrap_signed in W. assert (B := Z.mod_pos_bound (z + 2 ^ (32 - 1)) (2 ^ 32) ltac:(lia)). unfold int_range, StreamModel.int_min, StreamModel.int_max. lia.
Qed.
Print Assumptions C40_int64_refuted.
Example C40_example : m_fractional [3; -4; 0; -5; -6] = Ok (lit "-1/2 2/3 0 5/6 ") /\ negatable_row [3; -4; 0; -5; -6].
Proof. split; [reflexivity|repeat constructor; lia]. Qed.

(** ** C44: single lines *)
(** The printed form of an inequality or equation: [row] is printed with the given names (none, or one for each coefficient). *)
Definition good_names (names : list text) : Prop := NoDup names /\ Forall name_text names /\ prefix_ordered names /\ Forall (fun n => (length n <= 1900)%nat) names.
Definition printable (names : list text) (row : vec) : Prop :=
  exists zs b, row = zs ++ [b] /\ negatable_row row /\ (names <> [] -> length zs = length names /\ exists z, In z zs /\ z <> 0).

Lemma nonzero_exists i zs : (exists z, In z zs /\ z <> 0) -> nonzero_terms i zs <> [].
Proof. revert i. induction zs as [|y zs IH]; intros i (z & Hz & Hn); [destruct Hz|]. cbn [nonzero_terms]. destruct (Z.eqb_spec y 0) as [->|]; [|discriminate]. apply IH. destruct Hz as [<-|Hz]; [congruence|eauto]. Qed.
Lemma eol_space c : is_space c = false -> is_eol c = false.
Proof. unfold is_eol. intros H. destruct (is_char_spec c carriage_return) as [E|]; [rewrite E in H; discriminate H|]. destruct (is_char_spec c newline) as [E|]; [rewrite E in H; discriminate H|]. reflexivity. Qed.
Lemma named_no_newline names line xs op b : named_text names line xs op b -> ~ In newline line.
Proof.
  intros H. inversion H as [l' xs' w op' p b' v Ht Hw Hp Hb Hb' Hv]; subst. rewrite !in_app_iff. intros [K|[K|[K|K]]].
  - exact (terms_no_newline _ _ _ Ht K).
  - exact (relation_no_newline _ _ Hw K).
  - exact (integer_no_newline _ _ Hp K).
  - exact (blanks_no_newline v Hv K).
Qed.
Lemma printed_reads type names row : good_names names -> printable names row -> exists line, m_pretty row names (relation_sign type) = Ok line /\ reads type names line row.
Proof.
  intros (Hd & Hn & Ho & Hlen) (zs & b & -> & HN & HP). assert (HI := negatable_int _ HN). assert (HS := negatable_small _ HN).
  apply Forall_app in HI as [HIz HIb]. apply Forall_app in HS as [HSz HSb]. apply Forall_inv in HIb, HSb. destruct (small_range b HSb) as [_ HIb'].
  destruct names as [|n0 names0].
  - destruct (print_row_raw zs b HIz HIb) as (u & l & E & Hu & Hne & HR). exists (u ++ l). split; [cbn [m_pretty]; rewrite E; reflexivity|].
    split; [|split; [|split; [|split]]].
    + intros r Hr. unfold m_constraint. rewrite <- app_assoc. apply raw_constraint_ok; auto. apply label_none; auto.
    + destruct zs; discriminate.
    + inversion HR as [l' xs' p b' v Ht Hp Hb Hv]; subst. rewrite !in_app_iff. intros [K|[K|[K|K]]].
      * exact (blanks_no_newline u Hu K).
      * exact (integers_no_newline _ _ Ht K).
      * exact (integer_no_newline _ _ Hp K).
      * exact (blanks_no_newline v Hv K).
    + assert (F : exists u', m_print_row (zs ++ [b]) = " "%char :: u').
      { destruct zs as [|z zs]; cbn [app m_print_row flat_map]; unfold m_print_entry; [destruct (b >=? 0)|destruct (z >=? 0)]; eexists; reflexivity. }
      destruct F as (u' & F). rewrite <- E, F. reflexivity.
    + inversion HR as [l' xs' p b' v Ht Hp Hb Hv]; subst. destruct (integer_last p b Hp) as (l & c & -> & Hc). exists (u ++ l' ++ l), c, v.
      split; [rewrite <- !app_assoc; reflexivity|auto].
  - set (names := n0 :: names0) in *. destruct (HP ltac:(discriminate)) as [Hl Hnz]. apply (nonzero_exists 0) in Hnz.
    destruct (pretty_named type names zs b ltac:(discriminate) Hn Hl HIz HIb HIb' Hnz) as (line & E & HT & t & x & n & l' & El & Ht & Hin & Hlt).
    exists line. split; [exact E|].
    assert (EN : oriented (relation_of type) (coefficient_row (length names) (nonzero_terms 0 zs) (- b)) = zs ++ [b]).
    { unfold coefficient_row. rewrite <- Hl, nonzero_coefficients, Z.opp_involutive. destruct type; reflexivity. }
    split; [|split; [|split; [|split]]].
    + intros r Hr. assert (HC : m_contains_names names (opened (line ++ r)) = Ok (true, opened (line ++ r))).
      { rewrite El, <- app_assoc. apply (contains_names_ok names [] t x (l' ++ r) Hn Ho ltac:(apply spaced_none; constructor) Ht). cbn [app]. rewrite Forall_forall in Hlen. specialize (Hlen n Hin). lia. }
      unfold m_constraint. rewrite HC. unfold names at 1. cbn [bind fst snd negb].
      assert (R := named_constraint_ok names type [] line (nonzero_terms 0 zs) (relation_of type) (- b) r Hd ltac:(apply label_none; constructor) HT Hr).
      rewrite app_nil_l in R. rewrite R.
      * rewrite repeats_distinct by (auto using nonzero_distinct). rewrite allowed_right by (destruct type; cbn; auto). cbn [orb negb]. rewrite EN. reflexivity.
      * rewrite <- Hl, nonzero_coefficients. auto.
    + destruct zs; discriminate.
    + eapply named_no_newline; eauto.
    + destruct (named_first _ _ _ _ _ HT) as (c & t' & -> & Hc & _). cbn [stops]. apply eol_space; auto.
    + inversion HT as [ll xs' w op' p b' v Htt Hw Hp Hb Hb' Hv]; subst. destruct (integer_last p _ Hp) as (l & c & -> & Hc). exists (ll ++ w ++ l), c, v.
      split; [rewrite <- !app_assoc; reflexivity|auto].
Qed.

Lemma pretty_line_ok t type names row : good_names names -> printable names row ->
  exists line, m_pretty_line t names (relation_sign type) row = say (line ++ end_line) /\ reads type names line row.
Proof.
  intros Hn Hp. destruct (printed_reads type names row Hn Hp) as (line & E & R). exists line. split; auto. unfold m_pretty_line.
  destruct Hp as (zs & b & _ & HN & _). rewrite (C40_conversion t row) by (apply negatable_int; auto). cbn [calc]. rewrite E. reflexivity.
Qed.
Lemma pretty_matrix_ok t type names rows : good_names names -> Forall (printable names) rows ->
  exists lines, m_pretty_matrix t names (relation_sign type) rows = say lines /\ written (reads type names) lines rows.
Proof.
  intros Hn. unfold m_pretty_matrix. induction 1 as [|row rows Hp _ IH]; [exists []; split; [reflexivity|constructor]|].
  destruct IH as (lines & E & W). destruct (pretty_line_ok t type names row Hn Hp) as (line & EL & R). cbn [for_all]. rewrite EL, E. cbn [say andthen fst snd]. eexists. split; [reflexivity|].
  unfold end_line. rewrite <- app_assoc. cbn [app]. apply written_line; auto.
Qed.

(** ** C44: sections *)
(** The inequalities (or equations) that are printed, under any title for such a section and followed by the end of the file or another section, are read as the rows that
    were printed: none is lost, changed or reordered. *)
Theorem C44_constraints : forall t type names rows, good_names names -> Forall (printable names) rows ->
  exists lines, m_pretty_matrix t names (relation_sign type) rows = (lines, Ok tt) /\
    forall title tail o, keyword_line (title_words type) title -> follows (fun (_ : text) (_ : vec) => False) tail [] o ->
      exists s, m_constraints type names (opened (title ++ newline :: lines ++ tail)) = Ok (rows, s) /\ left_over s o.
Proof.
  intros t type names rows Hn Hp. destruct (pretty_matrix_ok t type names rows Hn Hp) as (lines & E & W). exists lines. split; [exact E|]. intros title tail o HK HF.
  assert (HF' : follows (reads type names) tail [] o) by (inversion HF; subst; try contradiction; constructor; auto).
  destruct (section_read_gen eq type names (reads type names) title lines rows tail [] o (fun line row R => ex_intro _ row (conj R eq_refl)) HK W HF') as (rows' & s & E' & HR & HL).
  rewrite app_nil_r in HR. assert (rows' = rows) as -> by (clear - HR; induction HR; congruence). exists s. auto.
Qed.
Print Assumptions C44_constraints.

(** Vertices and rays: at least one coordinate; a vertex has a positive last entry and no common divisor, which is how they are computed (C41). *)
Definition printable_generator (row : vec) : Prop :=
  exists xs b, row = xs ++ [b] /\ xs <> [] /\ negatable_row row /\ (b <> 0 -> 0 < b /\ primitive row).
Definition is_vertex (row : vec) : bool := negb (last row 0 =? 0).

Lemma lowest_divides b xs m : 0 < b -> primitive (xs ++ [b]) -> (forall x, In x xs -> (snd (lowest b x) | m)) -> (b | m).
Proof.
  intros Hb HP H.
  assert (D : forall x, In x xs -> (b | m * x)).
  { intros x Hx. destruct (H x Hx) as (k & Hk). unfold lowest in Hk. cbn [snd] in Hk. set (g := Z.gcd x b) in *.
    assert (Hg : 0 < g). { assert (0 <= g) by apply Z.gcd_nonneg. destruct (Z.eq_dec g 0) as [E|]; [apply Z.gcd_eq_0 in E; lia|lia]. }
    destruct (Z.gcd_divide_l x b) as (x' & Ex). destruct (Z.gcd_divide_r x b) as (b' & Eb). fold g in Ex, Eb.
    assert (Ebg : Z.abs b / g = b') by (rewrite Z.abs_eq by lia; rewrite Eb, Z.div_mul by lia; reflexivity). rewrite Ebg in Hk. exists (k * x'). rewrite Hk, Ex, Eb. ring. }
  set (d := Z.gcd b m). assert (Hd : 0 < d). { assert (0 <= d) by apply Z.gcd_nonneg. destruct (Z.eq_dec d 0) as [E|]; [apply Z.gcd_eq_0 in E; lia|lia]. }
  destruct (Z.gcd_divide_l b m) as (h & Eh). destruct (Z.gcd_divide_r b m) as (m' & Em). fold d in Eh, Em.
  assert (G : Z.gcd h m' = 1). { assert (K : Z.gcd (h * d) (m' * d) = d) by (rewrite <- Eh, <- Em; reflexivity). rewrite Z.gcd_mul_mono_r, Z.abs_eq in K by lia. nia. }
  assert (E1 : h = 1).
  { apply HP; [nia|]. intros x Hx. apply in_app_iff in Hx as [Hx|[<-|[]]].
    - destruct (D x Hx) as (k & Hk). assert (Hm : m' * x = k * h) by nia. apply (Z.gauss h m' x); auto. exists k. auto.
    - exists d. lia. }
  rewrite Eh, E1, Z.mul_1_l. exists m'. exact Em.
Qed.
Lemma lowest_represents b xs : 0 < b -> primitive (xs ++ [b]) -> represents (map (lowest b) xs) (xs ++ [b]).
Proof.
  intros Hb HP. exists xs, b. split; [reflexivity|]. split; [auto|]. split; [|split].
  - clear HP. induction xs as [|x xs IH]; cbn [map]; constructor; auto. assert (L := lowest_spec b x ltac:(lia)). destruct (lowest b x) as [p q]. cbn [fst snd]. lia.
  - intros p Hp. apply in_map_iff in Hp as (x & <- & Hx). assert (L := lowest_spec b x ltac:(lia)). destruct (lowest b x) as [p q]. cbn [fst snd]. destruct L as (L1 & L2 & L3).
    apply (Z.gauss q p b); [exists x; lia|rewrite Z.gcd_comm; auto].
  - intros m Hm. apply (lowest_divides b xs m); auto. intros x Hx. apply Hm. apply in_map; auto.
Qed.
Definition whole (xs : list Z) : list (Z * Z) := map (fun x => (x, 1)) xs.
Lemma whole_ray xs : represents_ray (whole xs) (xs ++ [0]).
Proof.
  exists xs, 1. split; [reflexivity|]. split; [lia|]. split; [induction xs; cbn; constructor; auto; cbn; lia|]. split; [intros p Hp; apply in_map_iff in Hp as (x & <- & _); cbn; exists 1; lia|].
  split; [intros m _; exists m; lia|]. unfold int_range, StreamModel.int_min, StreamModel.int_max. lia.
Qed.
Lemma print_row_coordinates xs : xs <> [] -> Forall int_range xs -> exists u l, m_print_row xs = u ++ l /\ blanks u /\ u <> [] /\ coordinates l (whole xs).
Proof.
  intros Hne H. induction H as [|x xs Hx HF IH]; [congruence|]. cbn [m_print_row flat_map whole map]. destruct (print_entry_split x) as (u & H1 & H2 & ->).
  assert (C : coordinate (int_text x) x 1) by (constructor; auto using int_text_spec). destruct xs as [|y xs].
  - exists u, (int_text x). cbn [flat_map map]. rewrite app_nil_r. split; [reflexivity|]. split; auto. split; auto. assert (K := coordinates_last _ _ _ [] C (Forall_nil _)). rewrite app_nil_r in K. exact K.
  - destruct (IH ltac:(discriminate)) as (v & l & E & V1 & V2 & V3). unfold m_print_row in E. rewrite E. exists u, (int_text x ++ v ++ l). split; [rewrite <- app_assoc; reflexivity|]. split; auto. split; auto.
    apply (coordinates_more _ _ _ v l (whole (y :: xs))); auto.
Qed.
Lemma vertex_lines_ok t rows : Forall printable_generator rows -> Forall (fun r => is_vertex r = true) rows ->
  exists lines P, for_all (fun v => calc (m_cast t v) (fun r => calc (m_fractional r) (fun l => say (l ++ end_line)))) rows = say lines /\
    section_lines lines P /\ Forall2 represents P rows /\ Forall int_row rows /\ Forall (Forall (fun p => 0 < snd p)) P.
Proof.
  intros Hp. induction Hp as [|row rows (xs & b & -> & Hx & HN & Hb) _ IH]; intros HV; [exists [], []; repeat split; constructor|].
  apply Forall_cons_iff in HV as [Hv HV]. unfold is_vertex in Hv. rewrite last_last in Hv. apply negb_true_iff, Z.eqb_neq in Hv. destruct (Hb Hv) as [Hb1 Hb2].
  destruct (IH HV) as (lines & P & E & HL & HR & HI & HW). assert (HI' := negatable_int _ HN). assert (HS := negatable_small _ HN). apply Forall_app in HS as [HS1 HS2]. apply Forall_inv in HS2.
  exists (flat_map (fun x => fraction_text (lowest b x) ++ lit " ") xs ++ newline :: lines), (map (lowest b) xs :: P). split; [|split; [|split; [|split]]].
  - cbn [for_all]. rewrite C40_conversion by auto. cbn [calc]. rewrite fractional_ok by auto. cbn [calc]. rewrite E. cbn [say andthen fst snd]. unfold end_line. rewrite <- app_assoc. reflexivity.
  - apply (section_point []); auto; [constructor; constructor|]. apply fractions_coordinates; auto.
  - constructor; auto. apply lowest_represents; auto.
  - constructor; auto.
  - constructor; auto. apply Forall_forall. intros p Hp. apply in_map_iff in Hp as (x & <- & _). assert (L := lowest_spec b x ltac:(lia)). destruct (lowest b x) as [u v]. cbn [snd]. apply L.
Qed.
Lemma ray_lines_ok t rows : Forall printable_generator rows -> Forall (fun r => is_vertex r = false) rows ->
  exists lines P, for_all (fun v => calc (m_cast t (removelast v)) (fun r => say (m_print_row r ++ end_line))) rows = say lines /\
    section_lines lines P /\ Forall2 represents_ray P rows /\ Forall int_row rows /\ P = map (fun r => whole (removelast r)) rows.
Proof.
  intros Hp. induction Hp as [|row rows (xs & b & -> & Hx & HN & Hb) _ IH]; intros HV; [exists [], []; repeat split; constructor|].
  apply Forall_cons_iff in HV as [Hv HV]. unfold is_vertex in Hv. rewrite last_last in Hv. apply negb_false_iff, Z.eqb_eq in Hv. subst b.
  destruct (IH HV) as (lines & P & E & HL & HR & HI & HW). assert (HI' := negatable_int _ HN). assert (HIx := HI'). apply Forall_app in HIx as [HIx _].
  destruct (print_row_coordinates xs Hx HIx) as (u & l & Er & Hu & _ & Hc).
  exists (u ++ l ++ newline :: lines), (whole xs :: P). split; [|split; [|split; [|split]]].
  - cbn [for_all]. rewrite removelast_last, C40_conversion by auto. cbn [calc]. rewrite Er, E. cbn [say andthen fst snd]. unfold end_line. rewrite <- !app_assoc. reflexivity.
  - apply section_point; auto. constructor; auto.
  - constructor; auto. apply whole_ray.
  - constructor; auto.
  - cbn [map]. rewrite removelast_last, HW. reflexivity.
Qed.
Lemma split_ok rows : Forall printable_generator rows -> m_split rows = Ok (filter is_vertex rows, filter (fun r => negb (is_vertex r)) rows).
Proof.
  intros Hp. unfold m_split.
  assert (G : forall a b, foldM (fun s row => do b <- back row; Ok (if negb (b =? 0) then (fst s ++ [row], snd s) else (fst s, snd s ++ [row]))) (a, b) rows =
    Ok (a ++ filter is_vertex rows, b ++ filter (fun r => negb (is_vertex r)) rows)).
  { induction Hp as [|row rows (xs & c & -> & _) _ IH]; intros a b; cbn [foldM filter]; [rewrite !app_nil_r; reflexivity|]. rewrite back_last. cbn [bind fst snd].
    assert (Ev : is_vertex (xs ++ [c]) = negb (c =? 0)) by (unfold is_vertex; rewrite last_last; reflexivity). rewrite Ev. destruct (c =? 0); cbn [negb]; rewrite IH, <- app_assoc; reflexivity. }
  apply (G [] []).
Qed.
(** The vertices and rays that are printed are read as the rows that were printed, first the vertices and then, from what is left of the text, the rays. *)
Theorem C44_generators : forall t rows is_reduced, Forall printable_generator rows ->
  exists vertices rays, m_print_vertices t rows is_reduced = (vertices ++ rays, Ok tt) /\
    (vertices = [] <-> filter is_vertex rows = []) /\ (rays = [] <-> filter (fun r => negb (is_vertex r)) rows = []) /\
    exists fuel0, forall fuel, (fuel0 <= fuel)%nat ->
      (vertices <> [] -> exists s, m_vertices_convex fuel (opened (vertices ++ rays)) = Ok (Some (filter is_vertex rows, s)) /\
         left_over s (match rays with [] => None | _ => Some rays end)) /\
      (rays <> [] -> exists s, m_vertices_conical fuel (opened rays) = Ok (Some (filter (fun r => negb (is_vertex r)) rows, s)) /\ left_over s None).
Proof.
  intros t rows is_reduced Hp. unfold m_print_vertices. rewrite split_ok by auto. cbn [calc].
  set (conv := filter is_vertex rows). set (cone := filter (fun r => negb (is_vertex r)) rows).
  assert (P1 : Forall printable_generator conv /\ Forall (fun r => is_vertex r = true) conv).
  { rewrite !Forall_forall. rewrite Forall_forall in Hp. split; intros r Hr; apply filter_In in Hr as [H1 H2]; auto. }
  assert (P2 : Forall printable_generator cone /\ Forall (fun r => is_vertex r = false) cone).
  { rewrite !Forall_forall. rewrite Forall_forall in Hp. split; intros r Hr; apply filter_In in Hr as [H1 H2]; auto. apply negb_true_iff; auto. }
  clearbody conv cone. clear Hp rows.
  destruct (vertex_lines_ok t conv (proj1 P1) (proj2 P1)) as (l1 & Q1 & E1 & S1 & R1 & I1 & _). destruct (ray_lines_ok t cone (proj1 P2) (proj2 P2)) as (l2 & Q2 & E2 & S2 & R2 & I2 & _).
  set (title1 := m_reduced is_reduced ++ lit "Vertices:"). set (title2 := m_reduced is_reduced ++ lit "Rays:").
  set (t2 := match cone with [] => [] | _ => title2 ++ newline :: l2 end).
  assert (K1 : keyword_line convex_words title1).
  { exists [], (if is_reduced then "Reduced Vertices:" else "Vertices:")%string, []. split; [unfold title1; rewrite app_nil_r; destruct is_reduced; reflexivity|]. split; [destruct is_reduced; cbn; tauto|]. split; constructor. }
  assert (K2 : keyword_line conical_words title2).
  { exists [], (if is_reduced then "Reduced Rays:" else "Rays:")%string, []. split; [unfold title2; rewrite app_nil_r; destruct is_reduced; reflexivity|]. split; [destruct is_reduced; cbn; tauto|]. split; constructor. }
  assert (F : follow t2 [] (match t2 with [] => None | _ => Some t2 end)).
  { unfold t2. destruct cone as [|r cone]; [apply follow_end; apply tail_end; constructor|]. assert (N : exists c t', title2 ++ newline :: l2 = c :: t') by (unfold title2; destruct is_reduced; eexists; eexists; reflexivity).
    destruct N as (c & t' & N). rewrite N. rewrite <- N. apply follow_keyword. destruct K2 as (u & w & v & E & Hw & H). exists u, w, v. split; auto. split; auto. apply in_app_iff. right. apply in_app_iff. left. auto. }
  exists (match conv with [] => [] | _ => title1 ++ newline :: l1 end), t2. split; [|split; [|split]].
  - destruct conv as [|r1 conv].
    + destruct cone as [|r2 cone]; [reflexivity|]. rewrite E2. cbn [say andthen fst snd]. unfold t2, title2, end_line. cbn [app]. rewrite <- !app_assoc. reflexivity.
    + rewrite E1. destruct cone as [|r2 cone]; [cbn [say andthen fst snd]; unfold t2, title1, end_line; rewrite <- !app_assoc; reflexivity|].
      rewrite E2. cbn [say andthen fst snd]. unfold t2, title1, title2, end_line. rewrite <- !app_assoc. cbn [app]. reflexivity.
  - destruct conv; [tauto|]. split; [|discriminate]. unfold title1. destruct is_reduced; discriminate.
  - unfold t2. destruct cone; [tauto|]. split; [|discriminate]. unfold title2. destruct is_reduced; discriminate.
  - destruct (C31_convex_section title1 l1 Q1 t2 [] _ conv K1 S1 F ltac:(rewrite app_nil_r; exact R1) I1) as (f1 & H1).
    destruct (C31_conical_section title2 l2 Q2 [] [] None cone K2 S2 ltac:(apply follow_end; apply tail_end; constructor) ltac:(rewrite app_nil_r; exact R2) I2) as (f2 & H2).
    exists (f1 + f2)%nat. intros fuel Hf. split.
    + intros Hne. destruct (H1 fuel ltac:(lia)) as (s & E & HL). exists s. split; auto. destruct conv; [congruence|]. rewrite <- app_assoc. exact E.
    + intros Hne. destruct (H2 fuel ltac:(lia)) as (s & E & HL). exists s. split; auto. unfold t2 in *. destruct cone; [congruence|]. rewrite app_nil_r in E. exact E.
Qed.
Print Assumptions C44_generators.

(** The hypotheses hold for these names, rows and generators, which are printed as shown. *)
Definition abc : list text := [lit "a"; lit "b"; lit "c"].
Lemma abc_good : good_names abc.
Proof.
  split; [repeat constructor; cbn; intuition discriminate|]. split; [repeat (constructor; [split; [repeat constructor|cbn; repeat split; discriminate]|]); constructor|].
  split; [|repeat constructor]. intros [|[|[|i]]] [|[|[|j]]] m n v Hij Em En; try lia; cbn in Em, En; try (destruct j; discriminate); try (destruct i; discriminate);
    injection Em as <-; injection En as <-; left; cbn; discriminate.
Qed.
Example C44_example :
  good_names abc /\ Forall (printable abc) [[1; -2; 0; -7]; [0; 0; -1; 3]] /\
  m_pretty_matrix SAFE abc "<=" [[1; -2; 0; -7]; [0; 0; -1; 3]] = (lit "a -2b <= 7" ++ [newline] ++ lit "-c <= -3" ++ [newline], Ok tt) /\
  Forall printable_generator [[1; 0; 3]; [0; -1; 0]] /\
  m_print_vertices SAFE [[1; 0; 3]; [0; -1; 0]] false = (lit "Vertices:" ++ [newline] ++ lit "1/3 0 " ++ [newline] ++ lit "Rays:" ++ [newline] ++ lit "  0 -1" ++ [newline], Ok tt).
Proof.
  split; [exact abc_good|]. split; [|split; [reflexivity|split; [|reflexivity]]].
  - repeat constructor.
    + exists [1; -2; 0], (-7). split; [reflexivity|]. split; [repeat constructor; lia|]. intros _. split; [reflexivity|]. exists 1. split; [cbn; tauto|lia].
    + exists [0; 0; -1], 3. split; [reflexivity|]. split; [repeat constructor; lia|]. intros _. split; [reflexivity|]. exists (-1). split; [cbn; tauto|lia].
  - repeat constructor.
    + exists [1; 0], 3. split; [reflexivity|]. split; [discriminate|]. split; [repeat constructor; lia|]. intros _. split; [lia|]. intros d Hd H. assert (K := H 1 ltac:(cbn; tauto)). apply Z.divide_1_r_nonneg; auto; lia.
    + exists [0; -1], 0. split; [reflexivity|]. split; [discriminate|]. split; [repeat constructor; lia|]. congruence.
Qed.
(** The restriction to rows with a coefficient that is not zero is needed: the row of 0 <= 1 is printed without any variable, and that line is read as a row with one entry. *)
Theorem C44_constant_refuted :
  m_pretty_matrix SAFE abc "<=" [[0; 0; 0; -1]] = (lit " <= 1" ++ [newline], Ok tt) /\
  exists row s, m_constraint Inequality abc (opened (lit " <= 1")) = Ok (row, s) /\ row <> [0; 0; 0; -1].
Proof. split; [reflexivity|]. eexists. eexists. split; [vm_compute; reflexivity|discriminate]. Qed.
Print Assumptions C44_constant_refuted.
