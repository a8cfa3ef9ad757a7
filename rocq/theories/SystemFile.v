(** * SystemFile: reading a whole file with equations and inequalities. *)
From Coq Require Import List ZArith QArith Arith Bool Ascii String Lia Permutation.
From Verif Require Import Base Spec LinAlg ListUtil ArithModel SafeIntModel IntTypes StreamModel StreamProofs IntLcm ClassesModel ValidityModel MapModel MapProofs SortModel SortProofs CliModel InputModel InputProofs VertexInput ConstraintModel
  ConstraintInput ConstraintSection PropertiesVertices PropertiesConstraints MapInput OutputModel OutputProofs PropertiesOutput FileModel FileProofs Expand ExpandMaps FileInput PropertiesCli PropertiesProgram.
Import ListNotations.
Open Scope nat_scope.
Open Scope list_scope.

(** ** Specification: files with equations and inequalities *)
(** A constraint together with the number of its variables. *)
Definition wide := (nat * constraint)%type.
(** The coefficients and the constant can be negated. *)
Definition fits_both (c : constraint) : Prop := negatable (terms c) /\ (-2147483647 <= constant c <= 2147483647)%Z.
(** A line of a section: without names the coefficients are listed, with names there are terms. *)
Definition constraint_line (names : list text) (type : constraint_type) (line : text) (k : wide) : Prop :=
  match names with [] => written_unnamed (fst k) type line (snd k) | _ => fst k = length names /\ written_named names type line (snd k) end.
Definition readable_names (names : list text) : Prop := NoDup names /\ Forall name_text names /\ prefix_ordered names.
(** The variables of a constraint are its first so many; the row [a | b] of an inequality says [a x + b <= 0]. *)
Definition wide_row (k : wide) : vec := row_for_constraint (fst k) (snd k).
Definition row_constraint (row : vec) : wide := (pred (length row), {| terms := enumerate (removelast row); operator := LessEqual; constant := - last row 0%Z |}).
(** What a file says. *)
Record system := { s_equations : list wide; s_inequalities : list wide; s_names : list text; s_maps : list lmap; s_dimension : option Z }.
Definition no_system : system := {| s_equations := []; s_inequalities := []; s_names := []; s_maps := []; s_dimension := None |}.
(** The file from here on ([None]: nothing is left) turns [s] into [s']: a later section replaces an earlier one of the same kind. *)
Inductive system_text : system -> option text -> system -> Prop :=
| system_none s : system_text s None s
| system_rest s t : plain_line t -> system_text s (Some t) s
| system_line s line t s' : plain_line line \/ keyword_line end_words line -> system_text s (Some t) s' -> system_text s (Some (line ++ newline :: t)) s'
| system_equations s title lines P tail Q o s' : readable_names (s_names s) -> keyword_line equation_words title ->
    written (constraint_line (s_names s) Equation) lines P -> follows (constraint_line (s_names s) Equation) tail Q o -> Forall (fun k => fits_both (snd k)) (P ++ Q) ->
    system_text {| s_equations := P ++ Q; s_inequalities := s_inequalities s; s_names := s_names s; s_maps := s_maps s; s_dimension := s_dimension s |} o s' ->
    system_text s (Some (title ++ newline :: lines ++ tail)) s'
| system_inequalities s title lines P tail Q o s' : readable_names (s_names s) -> keyword_line plain_inequality_words title ->
    written (constraint_line (s_names s) Inequality) lines P -> follows (constraint_line (s_names s) Inequality) tail Q o ->
    system_text {| s_equations := s_equations s; s_inequalities := P ++ Q; s_names := s_names s; s_maps := s_maps s; s_dimension := s_dimension s |} o s' ->
    system_text s (Some (title ++ newline :: lines ++ tail)) s'
| system_names s title body names sp line r s' : keyword_line names_words title -> names_text body names -> spaces sp -> sp <> [] -> keyword_line all_words line ->
    system_text {| s_equations := s_equations s; s_inequalities := s_inequalities s; s_names := names; s_maps := s_maps s; s_dimension := s_dimension s |} (Some (sp ++ line ++ newline :: r)) s' ->
    system_text s (Some (title ++ newline :: body ++ sp ++ line ++ newline :: r)) s'
| system_maps s title lines P tail Q o s' : NoDup (s_names s) -> keyword_line maps_words title -> written (map_line (s_names s)) lines P -> follows (map_line (s_names s)) tail Q o ->
    system_text {| s_equations := s_equations s; s_inequalities := s_inequalities s; s_names := s_names s; s_maps := map (completed (s_names s)) (P ++ Q); s_dimension := s_dimension s |} o s' ->
    system_text s (Some (title ++ newline :: lines ++ tail)) s'
| system_dim s title t a ws ds r s' : keyword_line dimension_words title -> title ++ newline :: t = a ++ "="%char :: ws ++ ds ++ newline :: r -> ~ In "="%char a -> spaces ws ->
    ds <> [] -> digits ds -> (digits_value ds < size_max)%Z ->
    system_text {| s_equations := s_equations s; s_inequalities := s_inequalities s; s_names := s_names s; s_maps := s_maps s; s_dimension := Some (digits_value ds) |} (Some (newline :: r)) s' ->
    system_text s (Some (title ++ newline :: t)) s'
| system_reduced s title lines P tail Q o classes s' : readable_names (s_names s) -> keyword_line reduced_inequality_words title ->
    written (constraint_line (s_names s) Inequality) lines P -> follows (constraint_line (s_names s) Inequality) tail Q o ->
    s_equations s = [] -> s_maps s <> [] -> Forall simple_map (s_maps s) -> Forall2 (class_of facet_step facet_load (s_maps s)) (map wide_row (P ++ Q)) classes ->
    system_text {| s_equations := s_equations s; s_inequalities := map row_constraint (concat classes); s_names := s_names s; s_maps := s_maps s; s_dimension := s_dimension s |} o s' ->
    system_text s (Some (title ++ newline :: lines ++ tail)) s'.

(** ** Lines *)
(** What is known about a constraint that was read. *)
Definition good_constraint (type : constraint_type) (k : wide) : Prop :=
  right_kind type (operator (snd k)) /\ Forall (fun t => fst t < fst k) (terms (snd k)) /\ NoDup (map fst (terms (snd k))) /\ int_row (wide_row k).
Lemma enumerate_distinct zs : NoDup (map fst (enumerate zs)).
Proof.
  unfold enumerate. generalize 0 at 1. induction zs as [|z zs IH]; intros s; cbn [length seq combine map fst]; constructor; auto.
  intros K. apply in_map_iff in K as ([i y] & E & K). apply in_combine_l, in_seq in K. cbn in E. lia.
Qed.
Lemma small_int_range z : small z -> int_range z /\ int_range (- z).
Proof. apply small_range. Qed.
Lemma oriented_int op row : Forall small row -> int_row (oriented op row).
Proof.
  intros H. destruct op; cbn [oriented]; try (eapply Forall_impl; [|exact H]; intros z Hz; apply small_int_range; auto).
  apply Forall_map. eapply Forall_impl; [|exact H]. intros z Hz. apply small_int_range; auto.
Qed.
Lemma constraint_line_row names type line k : readable_names names -> constraint_line names type line k ->
  reads type names line (wide_row k) /\ good_constraint type k.
Proof.
  intros (Hd & Hn & Ho) H. unfold constraint_line in H. destruct k as [w c]. destruct names as [|n0 names0]; cbn [fst snd] in H.
  - assert (K := written_unnamed_row w type line c H). split; [apply K|].
    inversion H as [lab l zs op b Hlab Hl Hw HN HK Hs|lab l zs b Hlab Hl Hw Hs]; subst; unfold good_constraint, wide_row, row_for_constraint; cbn [fst snd operator terms constant].
    + split; auto. split; [apply enumerate_indices|]. split; [apply enumerate_distinct|]. apply oriented_int. unfold coefficient_row. rewrite enumerate_coefficients. apply Forall_app. split; [apply enumerate_small; auto|].
      constructor; [|constructor]. inversion Hl; subst. unfold small, int_range, StreamModel.int_min, StreamModel.int_max in *. lia.
    + split; [destruct type; cbn; auto|]. split; [apply enumerate_indices|]. split; [apply enumerate_distinct|]. unfold coefficient_row. rewrite enumerate_coefficients, Z.opp_involutive.
      assert (E : oriented (default_operator type) (zs ++ [b]) = zs ++ [b]) by (destruct type; reflexivity). rewrite E. inversion Hl as [l' zs' p b' v Ht Hp Hb Hv]; subst. apply Forall_app. split; [|constructor; auto].
      clear - Ht. induction Ht; constructor; auto.
  - set (names := n0 :: names0) in *. destruct H as [-> H]. assert (K := written_named_row names type line c Hd Hn Ho H). split; [apply K|].
    inversion H as [lab l xs op b Hlab Hl Hx HD HN HK Hlen Hs]; subst. unfold good_constraint, wide_row, row_for_constraint. cbn [fst snd operator terms constant]. split; auto.
    split; [eapply named_indices; eauto|]. split; auto. apply oriented_int. unfold coefficient_row. apply Forall_app. split; [apply coefficients_small; auto|].
    constructor; [|constructor]. inversion Hl; subst. unfold small, int_range, StreamModel.int_min, StreamModel.int_max in *. lia.
Qed.
Lemma wide_row_length k : length (wide_row k) = S (fst k).
Proof. unfold wide_row, row_for_constraint, coefficient_row. destruct (operator (snd k)); cbn [oriented]; rewrite ?map_length, app_length, coefficients_length; cbn; lia. Qed.
Lemma row_constraint_row row : row <> [] -> wide_row (row_constraint row) = row.
Proof.
  intros H. destruct (exists_last H) as (l & z & ->). unfold wide_row, row_constraint, row_for_constraint. cbn [fst snd operator terms constant oriented]. rewrite removelast_last, last_last, app_length. unfold coefficient_row.
  replace (pred (length l + length [z])) with (length l) by (cbn; lia). rewrite enumerate_coefficients, Z.opp_involutive. reflexivity.
Qed.
Lemma row_constraint_good row : row <> [] -> int_row row -> good_constraint Inequality (row_constraint row).
Proof.
  intros H HI. split; [cbn; auto|]. destruct (exists_last H) as (l & z & E). split; [|split; [|rewrite row_constraint_row by auto; auto]]; unfold row_constraint; cbn [fst snd terms].
  - rewrite E, removelast_last, app_length. replace (pred (length l + length [z])) with (length l) by (cbn; lia). apply enumerate_indices.
  - apply enumerate_distinct.
Qed.
Lemma class_rows_good maps rows classes : Forall (fun r => r <> []) rows -> Forall2 (class_of facet_step facet_load maps) rows classes ->
  Forall (fun r => r <> [] /\ int_row r) (concat classes).
Proof.
  intros HN H. induction H as [|r c rows classes Hc _ IH]; cbn [concat]; auto. inversion HN; subst. apply Forall_app. split; [|apply IH; auto]. eapply Forall_impl; [|apply (class_int Facet_tag maps r c Hc)].
  intros x [L I]. split; auto. intros ->. destruct r; [congruence|discriminate].
Qed.
Lemma wide_rows_nonempty l : Forall (fun r : vec => r <> []) (map wide_row l).
Proof. apply Forall_map, Forall_forall. intros k _ E. assert (L := wide_row_length k). rewrite E in L. discriminate. Qed.
Lemma row_constraints_rows rows : Forall (fun r => r <> [] /\ int_row r) rows -> map wide_row (map row_constraint rows) = rows.
Proof. induction 1 as [|r rows [H _] _ IH]; cbn [map]; [reflexivity|]. rewrite IH, row_constraint_row by auto. reflexivity. Qed.
Lemma row_constraints_good rows : Forall (fun r => r <> [] /\ int_row r) rows -> Forall (good_constraint Inequality) (map row_constraint rows).
Proof. intros H. apply Forall_map. eapply Forall_impl; [|exact H]. intros r [H1 H2]. apply row_constraint_good; auto. Qed.
Lemma fits_negatable type k : good_constraint type k -> fits_both (snd k) -> negatable_row (wide_row k).
Proof.
  intros (_ & _ & HD & _) [HN HC]. assert (S : negatable_row (coefficient_row (fst k) (terms (snd k)) (constant (snd k)))).
  { unfold coefficient_row. apply Forall_app. split; [|constructor; [lia|constructor]]. unfold coefficients. apply Forall_map, Forall_forall. intros i _. assert (T := total_small (terms (snd k)) i HD HN).
    unfold small, int_range, StreamModel.int_min, StreamModel.int_max in T. lia. }
  unfold wide_row, row_for_constraint. destruct (operator (snd k)); cbn [oriented]; auto. apply Forall_map. eapply Forall_impl; [|exact S]. cbn. intros z Hz. lia.
Qed.
Lemma forall2_map {X Y} (f : X -> Y) l rows : Forall2 (fun x y => y = f x) l rows -> rows = map f l.
Proof. induction 1 as [|x y l rows -> _ IH]; [reflexivity|]. cbn [map]. rewrite IH. reflexivity. Qed.
Lemma section_good names type (lines tail : text) P Q o : readable_names names -> written (constraint_line names type) lines P -> follows (constraint_line names type) tail Q o -> Forall (good_constraint type) (P ++ Q).
Proof.
  intros HR HW HF. apply Forall_app. split.
  - clear HF. induction HW as [|u t P Hu HW IH|line c t P Hc HW IH]; auto. constructor; auto. apply (constraint_line_row names type line c HR Hc).
  - inversion HF as [u Hu Hs|line c Hc|line r Hk Hs|line r Hk Hs|line Hk Hs]; subst; auto. constructor; auto. apply (constraint_line_row names type tail c HR Hc).
Qed.
Lemma section_rows names type title lines P tail Q o : readable_names names -> keyword_line (title_words type) title -> written (constraint_line names type) lines P -> follows (constraint_line names type) tail Q o ->
  exists s, m_constraints type names (opened (title ++ newline :: lines ++ tail)) = Ok (map wide_row (P ++ Q), s) /\ left_over s o.
Proof.
  intros HR HK HW HF. destruct (section_read_gen (fun k row => row = wide_row k) type names (constraint_line names type) title lines P tail Q o) as (rows & s & E & HX & HO); auto.
  { intros line k Hk. exists (wide_row k). split; [|reflexivity]. apply (constraint_line_row names type line k HR Hk). }
  apply forall2_map in HX. subst rows. exists s. auto.
Qed.

(** ** The loop of [inequalities] *)
Definition to_outer (s : system) : outer :=
  {| o_equations := map wide_row (s_equations s); o_inequalities := map wide_row (s_inequalities s); o_dimension := match s_dimension s with Some d => d | None => size_max end; o_names := s_names s; o_maps := s_maps s |}.
Lemma outer_over k check token d s : ok s = false -> outer_loop (S k) check token d s = Ok (Some d).
Proof. intros H. cbn [outer_loop]. rewrite H. reflexivity. Qed.
Lemma outer_end k check token d t : plain_line t -> outer_loop (S k) check token d (opened t) = Ok (Some d).
Proof. intros H. cbn [outer_loop]. change (ok (opened t)) with true. cbn [negb]. destruct (m_advance_end token t H) as (w & s & E & Hs). rewrite E. cbn [bind]. rewrite Hs. reflexivity. Qed.
Lemma outer_noticed k check token d : outer_loop (S k) check token d (Stream [] true false) = Ok (Some d).
Proof. cbn [outer_loop]. change (ok (Stream [] true false)) with true. cbn [negb]. destruct (m_advance_noticed token) as (w & s & E & Hs). rewrite E. cbn [bind]. rewrite Hs. reflexivity. Qed.
Lemma outer_skip k check token d line t : plain_line line -> outer_loop (S k) check token d (opened (line ++ newline :: t)) = outer_loop (S k) check token d (opened t).
Proof. intros H. cbn [outer_loop]. change (ok (opened (line ++ newline :: t))) with true. change (ok (opened t)) with true. cbn [negb]. rewrite m_advance_skip by auto. reflexivity. Qed.
Lemma outer_ok c o c' : system_text c o c' -> exists fuel0, forall fuel, fuel0 <= fuel -> forall token s, left_over s o -> outer_loop fuel false token (to_outer c) s = Ok (Some (to_outer c')).
Proof.
  intros H. induction H as [c|c t HP|c line t c' HP HT IH|c title lines P tail Q o c' HN HK HW HF HB HT IH|c title lines P tail Q o c' HN HK HW HF HT IH|c title body names sp line r c' HK HB Hsp Hne HL HT IH|
    c title lines P tail Q o c' Hd HK HW HF HT IH|c title t a ws ds r c' HK E Ha Hws Hn Hds Hv HT IH|c title lines P tail Q o classes c' HN HK HW HF HQ HM HV HC HT IH].
  - exists 1. intros [|fuel] Hf token s Hs; [lia|]. apply outer_over. exact Hs.
  - exists 1. intros fuel Hf token s Hs. destruct fuel as [|fuel]; [lia|]. destruct Hs as [->|[-> ->]]; [apply outer_end; auto|apply outer_noticed].
  - destruct IH as (f0 & IH). exists (S (S f0)). intros fuel Hf token s0 Hs0. destruct fuel as [|fuel]; [lia|]. destruct Hs0 as [->|[E _]]; [|destruct line; discriminate].
    destruct HP as [HP|HP]; [rewrite outer_skip by auto; apply IH; [lia|left; reflexivity]|].
    destruct (title_advance end_words line token t eq_refl HP) as (w & Hw & E & Nn). cbn [outer_loop]. change (ok (opened (line ++ newline :: t))) with true. cbn [negb]. rewrite E. cbn [bind].
    change (ok (opened (line ++ newline :: t))) with true. cbn [negb].
    dispatch w Hw (fun w => negb (m_is_dimension (lit w)) && negb (m_is_names (lit w)) && negb (m_is_maps (lit w)) && negb (m_is_equations (lit w)) && negb (m_is_inequalities (lit w)) && negb (m_is_reduced_inequalities (lit w))).
    rewrite getline_newline by auto. apply IH; [lia|left; reflexivity].
  - destruct IH as (f0 & IH). destruct (section_rows (s_names c) Equation title lines P tail Q o HN HK HW HF) as (s & E2 & Hs).
    exists (S f0). intros fuel Hf token s0 Hs0. destruct fuel as [|fuel]; [lia|]. destruct Hs0 as [->|[E _]]; [|destruct title; discriminate].
    destruct (title_advance equation_words title token (lines ++ tail) eq_refl HK) as (w & Hw & E & Nn). cbn [outer_loop]. change (ok (opened (title ++ newline :: lines ++ tail))) with true. cbn [negb]. rewrite E. cbn [bind].
    change (ok (opened (title ++ newline :: lines ++ tail))) with true. cbn [negb].
    dispatch w Hw (fun w => negb (m_is_dimension (lit w)) && negb (m_is_names (lit w)) && negb (m_is_maps (lit w)) && m_is_equations (lit w)).
    change (o_names (to_outer c)) with (s_names c). rewrite E2. cbn [bind fst snd]. exact (IH fuel ltac:(lia) (lit w) s Hs).
  - destruct IH as (f0 & IH).
    assert (HK' : keyword_line (title_words Inequality) title) by (destruct HK as (u & w & v & -> & Hw & Hu & Hv); exists u, w, v; split; auto; split; auto; apply in_app_iff; left; auto).
    destruct (section_rows (s_names c) Inequality title lines P tail Q o HN HK' HW HF) as (s & E2 & Hs).
    exists (S f0). intros fuel Hf token s0 Hs0. destruct fuel as [|fuel]; [lia|]. destruct Hs0 as [->|[E _]]; [|destruct title; discriminate].
    destruct (title_advance plain_inequality_words title token (lines ++ tail) eq_refl HK) as (w & Hw & E & Nn). cbn [outer_loop]. change (ok (opened (title ++ newline :: lines ++ tail))) with true. cbn [negb]. rewrite E. cbn [bind].
    change (ok (opened (title ++ newline :: lines ++ tail))) with true. cbn [negb].
    dispatch w Hw (fun w => negb (m_is_dimension (lit w)) && negb (m_is_names (lit w)) && negb (m_is_maps (lit w)) && negb (m_is_equations (lit w)) && m_is_inequalities (lit w)).
    unfold m_read_inequalities. change (o_names (to_outer c)) with (s_names c). rewrite E2. cbn [bind fst snd]. exact (IH fuel ltac:(lia) (lit w) s Hs).
  - destruct IH as (f0 & IH). exists (S f0). intros fuel Hf token s0 Hs0. destruct fuel as [|fuel]; [lia|]. destruct Hs0 as [->|[E _]]; [|destruct title; discriminate].
    destruct (title_advance names_words title token (body ++ sp ++ line ++ newline :: r) eq_refl HK) as (w & Hw & E & Nn). cbn [outer_loop].
    change (ok (opened (title ++ newline :: body ++ sp ++ line ++ newline :: r))) with true. cbn [negb]. rewrite E. cbn [bind].
    change (ok (opened (title ++ newline :: body ++ sp ++ line ++ newline :: r))) with true. cbn [negb].
    dispatch w Hw (fun w => negb (m_is_dimension (lit w)) && m_is_names (lit w)).
    rewrite (names_section_ok title body names sp line r) by auto. cbn [bind fst snd]. apply IH; [lia|left; reflexivity].
  - destruct IH as (f0 & IH). destruct (maps_section_ok (s_names c) title lines P tail Q o Hd HK HW HF) as (f1 & K).
    exists (S (f0 + f1)). intros fuel Hf token s0 Hs0. destruct fuel as [|fuel]; [lia|]. destruct Hs0 as [->|[E _]]; [|destruct title; discriminate].
    destruct (title_advance maps_words title token (lines ++ tail) eq_refl HK) as (w & Hw & E & Nn). cbn [outer_loop]. change (ok (opened (title ++ newline :: lines ++ tail))) with true. cbn [negb]. rewrite E. cbn [bind].
    change (ok (opened (title ++ newline :: lines ++ tail))) with true. cbn [negb].
    dispatch w Hw (fun w => negb (m_is_dimension (lit w)) && negb (m_is_names (lit w)) && m_is_maps (lit w)).
    destruct (K (S fuel) ltac:(lia)) as (s & E2 & Hs). change (o_names (to_outer c)) with (s_names c). rewrite E2. cbn [bindo bind fst snd]. exact (IH fuel ltac:(lia) (lit w) s Hs).
  - destruct IH as (f0 & IH). exists (S f0). intros fuel Hf token s0 Hs0. destruct fuel as [|fuel]; [lia|]. destruct Hs0 as [->|[E' _]]; [|destruct title; discriminate].
    destruct (title_advance dimension_words title token t eq_refl HK) as (w & Hw & E' & Nn). cbn [outer_loop]. change (ok (opened (title ++ newline :: t))) with true. cbn [negb]. rewrite E'. cbn [bind].
    change (ok (opened (title ++ newline :: t))) with true. cbn [negb].
    dispatch w Hw (fun w => m_is_dimension (lit w)). rewrite E, dimension_ok by (auto; lia). cbn [bind fst snd]. apply IH; [lia|left; reflexivity].
  - destruct IH as (f0 & IH).
    assert (HK' : keyword_line (title_words Inequality) title) by (destruct HK as (u & w & v & -> & Hw & Hu & Hv); exists u, w, v; split; auto; split; auto; apply in_app_iff; right; auto).
    destruct (section_rows (s_names c) Inequality title lines P tail Q o HN HK' HW HF) as (s & E2 & Hs). destruct (normalize_all (s_maps c) HV) as (maps' & EN & HR).
    assert (HC' : Forall2 (class_of facet_step facet_load maps') (map wide_row (P ++ Q)) classes) by (clear - HC HR; induction HC; constructor; auto; apply (reordered_class (s_maps c)); auto).
    destruct (expand_ok Facet_tag maps' (map wide_row (P ++ Q)) classes) as (f1 & EX); auto; [intros ->; inversion HR; congruence|].
    exists (S (f0 + f1)). intros fuel Hf token s0 Hs0. destruct fuel as [|fuel]; [lia|]. destruct Hs0 as [->|[E _]]; [|destruct title; discriminate].
    destruct (title_advance reduced_inequality_words title token (lines ++ tail) eq_refl HK) as (w & Hw & E & Nn). cbn [outer_loop]. change (ok (opened (title ++ newline :: lines ++ tail))) with true. cbn [negb]. rewrite E. cbn [bind].
    change (ok (opened (title ++ newline :: lines ++ tail))) with true. cbn [negb].
    dispatch w Hw (fun w => negb (m_is_dimension (lit w)) && negb (m_is_names (lit w)) && negb (m_is_maps (lit w)) && negb (m_is_equations (lit w)) && negb (m_is_inequalities (lit w)) && m_is_reduced_inequalities (lit w)).
    unfold m_read_reduced_inequalities. change (o_names (to_outer c)) with (s_names c). change (o_maps (to_outer c)) with (s_maps c). rewrite E2. cbn [bind fst snd].
    assert (EQ : o_equations (to_outer c) = []) by (unfold to_outer; cbn [o_equations]; rewrite HQ; reflexivity). rewrite EQ. assert (EN2 : m_normalize_maps INT32 (@nil vec) (s_maps c) = Ok maps') by exact EN. rewrite EN2. cbn [bind]. rewrite EX by lia. cbn [bindo bind fst snd].
    specialize (IH fuel ltac:(lia) (lit w) s Hs). unfold to_outer at 1 in IH. cbn [s_equations s_inequalities s_names s_maps s_dimension] in IH. rewrite HQ in IH. cbn [map] in IH.
    rewrite row_constraints_rows in IH by (apply (class_rows_good (s_maps c) (map wide_row (P ++ Q))); auto; apply wide_rows_nonempty). exact IH.
Qed.

(** ** What is known about the constraints of the file *)
Definition sound_system (s : system) : Prop :=
  Forall (fun k => good_constraint Equation k /\ fits_both (snd k)) (s_equations s) /\ Forall (good_constraint Inequality) (s_inequalities s) /\
  match s_dimension s with Some d => (0 <= d < size_max)%Z | None => True end.
Lemma system_sound c o c' : system_text c o c' -> sound_system c -> sound_system c'.
Proof.
  intros H. induction H as [c|c t HP|c line t c' HP HT IH|c title lines P tail Q o c' HN HK HW HF HB HT IH|c title lines P tail Q o c' HN HK HW HF HT IH|c title body names sp line r c' HK HB Hsp Hne HL HT IH|
    c title lines P tail Q o c' Hd HK HW HF HT IH|c title t a ws ds r c' HK E Ha Hws Hn Hds Hv HT IH|c title lines P tail Q o classes c' HN HK HW HF HQ HM HV HC HT IH]; intros HS; try exact HS; try (apply IH; exact HS); apply IH; clear IH HT.
  - split; [|apply HS]. cbn [s_equations]. assert (G := section_good (s_names c) Equation lines tail P Q o HN HW HF). rewrite Forall_forall in *. intros k Hk. split; auto.
  - split; [apply HS|split; [|apply HS]]. apply (section_good (s_names c) Inequality lines tail P Q o HN HW HF).
  - split; [apply HS|split; [apply HS|]]. cbn [s_dimension]. split; auto. apply digits_value_nonneg; auto.
  - split; [apply HS|split; [|apply HS]]. cbn [s_inequalities]. apply row_constraints_good, (class_rows_good (s_maps c) (map wide_row (P ++ Q))); auto. apply wide_rows_nonempty.
Qed.
Lemma no_system_sound : sound_system no_system.
Proof. repeat split; constructor. Qed.

(** ** The rows that are handed to the elimination *)
Definition both_sides (rows : list vec) : list vec := flat_map (fun r => [r; map Z.opp r]) rows.
Definition stated_rows (s : system) : list vec := map wide_row (s_inequalities s) ++ both_sides (map wide_row (s_equations s)).
Definition system_rows (s : system) (so : input_order) : list vec :=
  let sorted := m_sort so (stated_rows s) in sorted ++ [repeat 0%Z (length (last sorted []) - 1) ++ [(-1)%Z]].
Lemma both_sides_ok rows : Forall negatable_row rows -> m_both_sides rows = Ok (both_sides rows).
Proof.
  induction 1 as [|r rows Hr _ IH]; [reflexivity|]. cbn [m_both_sides both_sides flat_map app]. fold (both_sides rows).
  assert (E : m_row_mul (arith INT32) r (-1)%Z = Ok (map Z.opp r)).
  { unfold m_row_mul. change (a_eqi (arith INT32) (-1)%Z 1%Z) with false. cbv iota. induction Hr as [|z r Hz _ IHr]; [reflexivity|]. cbn [mapM map]. 
    assert (M : a_mul (arith INT32) z (-1)%Z = Ok (- z)%Z).
    { replace (- z)%Z with (z * -1)%Z by lia. change (a_mul (arith INT32) z (-1)%Z) with (i_mul 32 z (-1)). unfold i_mul. apply ck_int. unfold int_range, StreamModel.int_min, StreamModel.int_max. lia. }
    rewrite M. cbn [bind]. change (num (arith INT32)) with Z in *. rewrite IHr. reflexivity. }
  change (num (arith INT32)) with Z in *. rewrite E. cbn [bind]. rewrite IH. reflexivity.
Qed.
Lemma back_last {X} (l : list X) d : l <> [] -> back l = Ok (last l d).
Proof.
  intros H. destruct l as [|x l]; [congruence|]. unfold back. f_equal. clear H. revert x. induction l as [|y l IH]; intros x; [reflexivity|]. change (last (y :: l) x = last (y :: l) d).
  clear. revert y. induction l as [|z l IH]; intros y; [reflexivity|]. cbn [last] in *. apply IH.
Qed.
Definition consistent_system (s : system) : bool :=
  match m_consistent_inequalities (map wide_row (s_inequalities s)) (s_names s) (match s_dimension s with Some d => d | None => size_max end) with Ok _ => true | _ => false end.
Lemma input_inequalities_with fs args name so t s : asks_file args name so -> fs name = Some t -> early_keyword t -> system_text no_system (Some t) s ->
  exists fuel0, forall fuel, fuel0 <= fuel ->
    m_input_inequalities fs fuel args = (if consistent_system s then run known <- m_known_vertices fs fuel args; Ok (Some (system_rows s so, s_names s, s_maps s, known)) else Throw).
Proof.
  intros HA HF HE HT. destruct (asks_file_ok args name so HA) as (A1 & A3 & A4). destruct (outer_ok no_system (Some t) s HT) as (fuel0 & K). assert (HS := system_sound _ _ _ HT no_system_sound).
  exists fuel0. intros fuel Hf.
  unfold m_input_inequalities. rewrite A1. cbn [bind]. unfold m_open. rewrite HF. cbn [bind]. rewrite early_keyword_ok by auto. cbn [negb]. rewrite A3.
  change no_outer with (to_outer no_system). rewrite (K fuel Hf [] (opened t)) by (left; reflexivity). cbn [bindo bind].
  unfold to_outer at 1 2 3 4 5 6 7. cbn [o_equations o_inequalities o_dimension o_names o_maps].
  unfold consistent_system. destruct (m_consistent_inequalities _ (s_names s) _) as [[]| |] eqn:EC; cbn [bind]; auto.
  2:{ exfalso. unfold m_consistent_inequalities in EC. destruct (map wide_row (s_inequalities s)); [discriminate|]. destruct (range_total (v :: l) (length v)) as [R|R]; rewrite R in EC; cbn [bind] in EC; [|discriminate].
      destruct (declared_total (s_names s) (match s_dimension s with Some d => d | None => size_max end) (length v)) as [R2|R2]; rewrite R2 in EC; discriminate. }
  rewrite both_sides_ok. 2:{ apply Forall_map. eapply Forall_impl; [|apply HS]. intros k [K1 K2]. eapply fits_negatable; eauto. }
  cbn [bind]. rewrite A4. cbn [bind]. fold (stated_rows s). set (sorted := m_sort so (stated_rows s)).
  assert (HP : Permutation (stated_rows s) sorted) by apply m_sort_perm.
  assert (Hne : stated_rows s <> []). { unfold stated_rows. intros E0. apply app_eq_nil in E0 as [E0 _]. rewrite E0 in EC. discriminate. }
  assert (Hs : sorted <> []). { intros E0. rewrite E0 in HP. apply Permutation_sym, Permutation_nil in HP. congruence. }
  rewrite (back_last sorted []) by auto. cbn [bind].
  assert (Hrow : last sorted [] <> []).
  { assert (HI : In (last sorted []) (stated_rows s)). { apply (Permutation_in _ (Permutation_sym HP)). destruct (exists_last Hs) as (l & x & ->). rewrite last_last. apply in_app_iff. right. left. auto. }
    assert (HL : forall r, In r (stated_rows s) -> r <> []).
    { intros r Hr. unfold stated_rows in Hr. apply in_app_iff in Hr as [Hr|Hr].
      - apply in_map_iff in Hr as (k & <- & _). assert (L := wide_row_length k). intros E0. rewrite E0 in L. discriminate.
      - unfold both_sides in Hr. apply in_flat_map in Hr as (r0 & Hr0 & Hr). apply in_map_iff in Hr0 as (k & <- & _). assert (L := wide_row_length k). destruct Hr as [<-|[<-|[]]]; intros E0; [|apply map_eq_nil in E0]; rewrite E0 in L; discriminate. }
    auto. }
  unfold m_trivial. destruct (last sorted []) as [|z l] eqn:EL; [congruence|]. cbn [bind]. unfold system_rows. fold sorted. rewrite EL. reflexivity.
Qed.
Lemma input_inequalities_ok fs args name so t s : asks args name so -> fs name = Some t -> early_keyword t -> system_text no_system (Some t) s ->
  exists fuel0, forall fuel, fuel0 <= fuel ->
    m_input_inequalities fs fuel args = (if match m_consistent_inequalities (map wide_row (s_inequalities s)) (s_names s) (match s_dimension s with Some d => d | None => size_max end) with Ok _ => true | _ => false end
      then Ok (Some (system_rows s so, s_names s, s_maps s, [])) else Throw).
Proof.
  intros HA HF HE HT. destruct (asks_ok args name so HA) as (_ & _ & A2 & _). destruct (input_inequalities_with fs args name so t s (asks_asks_file _ _ _ HA) HF HE HT) as (fuel0 & K). exists fuel0. intros fuel Hf.
  rewrite (K fuel Hf). unfold m_known_vertices. rewrite A2. reflexivity.
Qed.
