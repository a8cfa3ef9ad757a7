(** * KnownFile: reading a file with known data (option -k). *)
From Coq Require Import List ZArith QArith Arith Bool Ascii String Lia Permutation.
From Verif Require Import Base Spec LinAlg ListUtil ArithModel SafeIntModel IntTypes StreamModel StreamProofs IntLcm ClassesModel ValidityModel SortModel SortProofs CliModel InputModel InputProofs VertexInput ConstraintModel
  ConstraintInput ConstraintSection PropertiesVertices PropertiesConstraints MapInput OutputModel OutputProofs PropertiesOutput FileModel FileProofs FileInput PropertiesCli PropertiesProgram SystemFile.
Import ListNotations.
Open Scope nat_scope.
Open Scope list_scope.

(** ** Specification *)
(** The command line names a file with known facets ("-k p", "--known-data=p" or "--known-facets=p") resp. vertices. *)
Definition names_facets (args : list text) (p : text) : Prop := p <> [] /\ (parameter "k" (lit "known-data") args p \/ parameter "k" (lit "known-facets") args p).
Definition names_vertices (args : list text) (p : text) : Prop := p <> [] /\ (parameter "k" (lit "known-data") args p \/ parameter "k" (lit "known-vertices") args p).
(** A file with known facets: lines without a meaning, then one section of inequalities, in the names of the other file; what follows does not matter. *)
Inductive known_facets_text (names : list text) : text -> list wide -> Prop :=
| known_facets_line line t K : plain_line line -> known_facets_text names t K -> known_facets_text names (line ++ newline :: t) K
| known_facets_section title lines P tail Q o : keyword_line plain_inequality_words title ->
    written (constraint_line names Inequality) lines P -> follows (constraint_line names Inequality) tail Q o -> known_facets_text names (title ++ newline :: lines ++ tail) (P ++ Q).
(** The first keyword of the file, if there is one, is not the title of a section of inequalities. *)
Definition no_inequality_words : list string := (convex_words ++ conical_words ++ names_words ++ maps_words ++ equation_words ++ reduced_inequality_words ++ dimension_words ++ end_words ++ ["Reduced"%string])%list.
Inductive no_known_facets : text -> Prop :=
| no_facets_rest t : plain_line t -> no_known_facets t
| no_facets_line line t : plain_line line -> no_known_facets t -> no_known_facets (line ++ newline :: t)
| no_facets_title title t : keyword_line no_inequality_words title -> no_known_facets (title ++ newline :: t).
(** A file with known vertices: lines without a meaning and sections of points and rays; a later section replaces an earlier one of the same kind. *)
Definition ignored_words : list string := (reduced_convex_words ++ reduced_conical_words ++ names_words ++ maps_words ++ equation_words ++ inequality_words ++ dimension_words ++ end_words ++ ["Reduced"%string])%list.
Definition generators := (list (list (Z * Z)) * list (list (Z * Z)))%type.
Inductive known_vertices_text : generators -> option text -> generators -> Prop :=
| known_vertices_none g : known_vertices_text g None g
| known_vertices_rest g t : plain_line t -> known_vertices_text g (Some t) g
| known_vertices_line g line t g' : plain_line line \/ keyword_line ignored_words line -> known_vertices_text g (Some t) g' -> known_vertices_text g (Some (line ++ newline :: t)) g'
| known_vertices_points g title lines P tail Q o g' : keyword_line plain_convex_words title -> section_lines lines P -> follow tail Q o -> fitting false (P ++ Q) ->
    known_vertices_text (P ++ Q, snd g) o g' -> known_vertices_text g (Some (title ++ newline :: lines ++ tail)) g'
| known_vertices_rays g title lines P tail Q o g' : keyword_line plain_conical_words title -> section_lines lines P -> follow tail Q o -> fitting true (P ++ Q) ->
    known_vertices_text (fst g, P ++ Q) o g' -> known_vertices_text g (Some (title ++ newline :: lines ++ tail)) g'.

(** ** The name of the file *)
Lemma names_facets_ok args p : names_facets args p -> m_known_facets_filename args = Ok p.
Proof.
  intros (_ & [H|H]); inversion H as [pre q post U|pre q post U|pre q post U]; subst; destruct (C37_known_facets pre p post U) as (K1 & K2 & K3 & K4 & _); auto.
Qed.
Lemma names_vertices_ok args p : names_vertices args p -> m_known_vertices_filename args = Ok p.
Proof.
  intros (_ & [H|H]); inversion H as [pre q post U|pre q post U|pre q post U]; subst; destruct (C37_known_facets pre p post U) as (_ & _ & _ & _ & _ & _ & K1 & K2 & K3 & K4 & _); auto.
Qed.

(** ** Known facets *)
Lemma known_facets_ok names t K : readable_names names -> known_facets_text names t K ->
  exists w s s', m_advance [] (opened t) = Ok (w, s) /\ m_is_inequalities w = true /\ m_read_inequalities false names [] s = Ok (map wide_row K, s').
Proof.
  intros HN H. induction H as [line t K HP HT IH|title lines P tail Q o HK HW HF].
  - rewrite m_advance_skip by auto. exact IH.
  - assert (HK' : keyword_line (title_words Inequality) title) by (destruct HK as (u & w & v & -> & Hw & Hu & Hv); exists u, w, v; split; auto; split; auto; apply in_app_iff; left; auto).
    destruct (section_rows names Inequality title lines P tail Q o HN HK' HW HF) as (s & E2 & Hs).
    destruct (title_advance plain_inequality_words title [] (lines ++ tail) eq_refl HK) as (w & Hw & E & Nn). exists (lit w), (opened (title ++ newline :: lines ++ tail)), s. split; auto. split.
    + apply (word_check (fun w => m_is_inequalities (lit w)) _ w Hw eq_refl).
    + unfold m_read_inequalities. rewrite E2. reflexivity.
Qed.
Lemma known_facets_good names t K : readable_names names -> known_facets_text names t K -> Forall (good_constraint Inequality) K.
Proof. intros HN H. induction H as [|title lines P tail Q o HK HW HF]; auto. apply (section_good names Inequality lines tail P Q o); auto. Qed.
Lemma known_facets_read fs args names p t K : readable_names names -> names_facets args p -> ~ In (lit "-c") args -> ~ In (lit "--check") args -> fs p = Some t -> known_facets_text names t K ->
  m_known_facets fs args names = Ok (map wide_row K).
Proof.
  intros HN HP N1 N2 HF HT. unfold m_known_facets. rewrite (names_facets_ok args p HP). cbn [bind]. destruct HP as (Hp & _). destruct (at_end p) eqn:Ep; [destruct p; [congruence|discriminate]|].
  unfold m_open. rewrite HF. cbn [bind]. destruct (known_facets_ok names t K HN HT) as (w & s & s' & E1 & E2 & E3). rewrite E1. cbn [bind]. rewrite E2.
  assert (EC : m_check_validity args = false) by (destruct (m_check_validity args) eqn:E; auto; apply (C37_flags args) in E; tauto). rewrite EC, E3. reflexivity.
Qed.
Lemma advance_end_word string t : plain_line t -> exists w s, m_advance string (opened t) = Ok (w, s) /\ m_is_keyword w = false.
Proof.
  intros [Hn HK]. unfold m_advance. cbn [rest opened]. replace (length t + 3) with (S (S (S (length t)))) by lia. set (k2 := S (S (length t))). cbn [advance_loop]. fold (opened t). change (ok (opened t)) with true. cbv iota.
  rewrite peek_line_opened, first_line_end, plain_trim by auto.
  destruct t as [|c t]; [eexists; eexists; split; reflexivity|]. rewrite getline_end by (auto; discriminate). eexists; eexists; split; reflexivity.
Qed.
Lemma inequalities_keyword w : m_is_inequalities w = true -> m_is_keyword w = true.
Proof. intros H. unfold m_is_keyword. rewrite H. rewrite !orb_true_r. reflexivity. Qed.
Lemma known_facets_refused t : no_known_facets t -> exists w s, m_advance [] (opened t) = Ok (w, s) /\ m_is_inequalities w = false.
Proof.
  induction 1 as [t HP|line t HP HT IH|title t HK].
  - destruct (advance_end_word [] t HP) as (w & s & E & K). exists w, s. split; auto. destruct (m_is_inequalities w) eqn:E2; auto. apply inequalities_keyword in E2. congruence.
  - rewrite m_advance_skip by auto. exact IH.
  - destruct (title_advance no_inequality_words title [] t eq_refl HK) as (w & Hw & E & _). eexists; eexists; split; [exact E|].
    assert (K := word_check (fun w => negb (m_is_inequalities (lit w))) _ w Hw eq_refl). apply negb_true_iff; auto.
Qed.
Lemma known_facets_throw fs args names p : names_facets args p -> (fs p = None \/ exists t, fs p = Some t /\ no_known_facets t) -> m_known_facets fs args names = Throw.
Proof.
  intros HP H. unfold m_known_facets. rewrite (names_facets_ok args p HP). cbn [bind]. destruct HP as (Hp & _). destruct (at_end p) eqn:Ep; [destruct p; [congruence|discriminate]|].
  unfold m_open. destruct H as [->|(t & -> & HT)]; [reflexivity|]. cbn [bind]. destruct (known_facets_refused t HT) as (w & s & E1 & E2). rewrite E1. cbn [bind]. rewrite E2. reflexivity.
Qed.

(** ** Known vertices *)
Definition generator_rows_of (g : generators) : list vec := map point_row (fst g) ++ map ray_row (snd g).
Lemma known_loop_ok g o g' : known_vertices_text g o g' -> exists fuel0, forall fuel, fuel0 <= fuel -> forall token s, left_over s o ->
  known_vertices_loop fuel false token (map point_row (fst g)) (map ray_row (snd g)) s = Ok (Some (generator_rows_of g')).
Proof.
  intros H. induction H as [g|g t HP|g line t g' HP HT IH|g title lines P tail Q o g' HK HL HF HR HT IH|g title lines P tail Q o g' HK HL HF HR HT IH].
  - exists 1. intros [|fuel] Hf token s Hs; [lia|]. cbn [known_vertices_loop]. unfold left_over in Hs.
    assert (E : m_advance token s = Ok (token, s)) by (unfold m_advance; replace (length (rest s) + 3) with (S (length (rest s) + 2)) by lia; cbn [advance_loop]; rewrite Hs; reflexivity).
    rewrite E. cbn [bind]. rewrite Hs. reflexivity.
  - exists 1. intros [|fuel] Hf token s Hs; [lia|]. cbn [known_vertices_loop]. destruct Hs as [->|[-> ->]].
    + destruct (m_advance_end token t HP) as (w & s & E & Hs). rewrite E. cbn [bind]. rewrite Hs. reflexivity.
    + destruct (m_advance_noticed token) as (w & s & E & Hs). rewrite E. cbn [bind]. rewrite Hs. reflexivity.
  - destruct IH as (f0 & IH). exists (S (S f0)). intros fuel Hf token s0 Hs0. destruct fuel as [|fuel]; [lia|]. destruct Hs0 as [->|[E _]]; [|destruct line; discriminate]. destruct HP as [HP|HP].
    + assert (ES : known_vertices_loop (S fuel) false token (map point_row (fst g)) (map ray_row (snd g)) (opened (line ++ newline :: t)) = known_vertices_loop (S fuel) false token (map point_row (fst g)) (map ray_row (snd g)) (opened t))
        by (cbn [known_vertices_loop]; rewrite m_advance_skip by auto; reflexivity).
      rewrite ES. apply IH; [lia|left; reflexivity].
    + destruct (title_advance ignored_words line token t eq_refl HP) as (w & Hw & E & Nn). cbn [known_vertices_loop]. rewrite E. cbn [bind]. change (ok (opened (line ++ newline :: t))) with true. cbn [negb].
      dispatch w Hw (fun w => negb (m_is_convex (lit w)) && negb (m_is_conical (lit w))). rewrite getline_newline by auto. apply IH; [lia|left; reflexivity].
  - destruct IH as (f0 & IH). destruct HR as (rows & HR & HI). destruct (C31_convex_section title lines P tail Q o rows) as (f1 & K); auto.
    { destruct HK as (u & w & v & -> & Hw & Hu & Hv). exists u, w, v. split; auto. split; auto. apply in_app_iff. left. auto. }
    exists (S (f0 + f1)). intros fuel Hf token s0 Hs0. destruct fuel as [|fuel]; [lia|]. destruct Hs0 as [->|[E _]]; [|destruct title; discriminate].
    destruct (title_advance plain_convex_words title token (lines ++ tail) eq_refl HK) as (w & Hw & E & Nn). cbn [known_vertices_loop]. rewrite E. cbn [bind]. change (ok (opened (title ++ newline :: lines ++ tail))) with true. cbn [negb].
    dispatch w Hw (fun w => m_is_convex (lit w)).
    unfold m_read_vertices. destruct (K (S fuel) ltac:(lia)) as (s & E2 & Hs). unfold m_vertices_convex in E2. rewrite E2. cbn [bindo bind fst snd].
    assert (ER : rows = map point_row (P ++ Q)) by (apply (rows_fitting false); auto; apply Forall_app; split; [apply (section_lines_proper lines); auto|apply (follow_proper tail Q o); auto]).
    rewrite ER. exact (IH fuel ltac:(lia) (lit w) s Hs).
  - destruct IH as (f0 & IH). destruct HR as (rows & HR & HI). destruct (C31_conical_section title lines P tail Q o rows) as (f1 & K); auto.
    { destruct HK as (u & w & v & -> & Hw & Hu & Hv). exists u, w, v. split; auto. split; auto. apply in_app_iff. left. auto. }
    exists (S (f0 + f1)). intros fuel Hf token s0 Hs0. destruct fuel as [|fuel]; [lia|]. destruct Hs0 as [->|[E _]]; [|destruct title; discriminate].
    destruct (title_advance plain_conical_words title token (lines ++ tail) eq_refl HK) as (w & Hw & E & Nn). cbn [known_vertices_loop]. rewrite E. cbn [bind]. change (ok (opened (title ++ newline :: lines ++ tail))) with true. cbn [negb].
    dispatch w Hw (fun w => negb (m_is_convex (lit w)) && m_is_conical (lit w)).
    unfold m_read_vertices. destruct (K (S fuel) ltac:(lia)) as (s & E2 & Hs). unfold m_vertices_conical in E2. rewrite E2. cbn [bindo bind fst snd].
    assert (ER : rows = map ray_row (P ++ Q)) by (apply (rows_fitting true); auto; apply Forall_app; split; [apply (section_lines_proper lines); auto|apply (follow_proper tail Q o); auto]).
    rewrite ER. exact (IH fuel ltac:(lia) (lit w) s Hs).
Qed.
(** What is known about the points and rays that were read. *)
Definition sane_generators (g : generators) : Prop :=
  (Forall proper (fst g) /\ Forall int_row (map point_row (fst g))) /\ (Forall proper (snd g) /\ Forall int_row (map ray_row (snd g))).
Lemma generators_sane g o g' : known_vertices_text g o g' -> sane_generators g -> sane_generators g'.
Proof.
  intros H. induction H as [g|g t HP|g line t g' HP HT IH|g title lines P tail Q o g' HK HL HF HR HT IH|g title lines P tail Q o g' HK HL HF HR HT IH]; intros HS; try exact HS; apply IH; auto; clear IH HT.
  - destruct HR as (rows & HR & HI). split; [|apply HS]. assert (HP : Forall proper (P ++ Q)) by (apply Forall_app; split; [apply (section_lines_proper lines); auto|apply (follow_proper tail Q o); auto]).
    split; [exact HP|]. cbn [fst]. change point_row with (row_of false). rewrite <- (rows_fitting false (P ++ Q) rows); auto.
  - destruct HR as (rows & HR & HI). split; [apply HS|]. assert (HP : Forall proper (P ++ Q)) by (apply Forall_app; split; [apply (section_lines_proper lines); auto|apply (follow_proper tail Q o); auto]).
    split; [exact HP|]. cbn [snd]. change ray_row with (row_of true). rewrite <- (rows_fitting true (P ++ Q) rows); auto.
Qed.
Lemma no_generators_sane : sane_generators ([], []).
Proof. repeat split; constructor. Qed.
Lemma known_vertices_read fs args p t g : names_vertices args p -> ~ In (lit "-c") args -> ~ In (lit "--check") args -> fs p = Some t -> known_vertices_text ([], []) (Some t) g ->
  exists fuel0, forall fuel, fuel0 <= fuel -> m_known_vertices fs fuel args = Ok (Some (generator_rows_of g)).
Proof.
  intros HP N1 N2 HF HT. destruct (known_loop_ok _ _ _ HT) as (f0 & K). exists f0. intros fuel Hf. unfold m_known_vertices. rewrite (names_vertices_ok args p HP). cbn [bind].
  destruct HP as (Hp & _). destruct (at_end p) eqn:Ep; [destruct p; [congruence|discriminate]|]. unfold m_open. rewrite HF. cbn [bind].
  assert (EC : m_check_validity args = false) by (destruct (m_check_validity args) eqn:E; auto; apply (C37_flags args) in E; tauto). rewrite EC.
  apply (K fuel Hf [] (opened t)). left. reflexivity.
Qed.
Lemma known_vertices_throw fs fuel args p : names_vertices args p -> fs p = None -> m_known_vertices fs fuel args = Throw.
Proof.
  intros HP HF. unfold m_known_vertices. rewrite (names_vertices_ok args p HP). cbn [bind]. destruct HP as (Hp & _). destruct (at_end p) eqn:Ep; [destruct p; [congruence|discriminate]|].
  unfold m_open. rewrite HF. reflexivity.
Qed.
