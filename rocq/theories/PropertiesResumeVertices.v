(** * PropertiesResumeVertices: what vertex enumeration by adjacency decomposition has printed is no known data (C66). *)
From Coq Require Import List ZArith QArith Arith Bool Ascii String Lia Permutation.
From Verif Require Import Base Spec LinAlg ListUtil ArithModel MatrixModel FmeModel SafeIntModel IntTypes StreamModel StreamProofs IntLcm ClassesModel ValidityModel SortModel SortProofs CliModel InputModel InputProofs VertexInput ConstraintModel
  ConstraintInput ConstraintSection PropertiesVertices PropertiesConstraints MapInput MapModel OutputModel OutputProofs PropertiesOutput FileModel FileProofs FileInput PropertiesCli PropertiesProgram SystemFile KnownFile
  ListModel VertexAdModel Samples PropertiesFile PropertiesSystem MainModel PropertiesMain PropertiesMainAd PropertiesKnown PropertiesTypesAd PropertiesMapFile PropertiesReduced ListExec PropertiesAd.
Import ListNotations.
Open Scope nat_scope.
Open Scope list_scope.

(** What is on standard output at some moment of a run (method_adjacency_decomposition_implementation.cpp 50-91, 129-169, list.cpp 60-80): as [m_vad_run] (VertexAdModel.v), but the run may be at any moment. *)
Definition m_vad_shown (t : int_type) (order : list nat -> list nat) (fuel threads : nat) (inequalities : list vec) (maps : list lmap) (known : list vec) (s : state) (out : text) : Prop :=
  exists start added ls lines,
    m_vad_start t order fuel inequalities maps known = Ok (Some start) /\
    m_vad_added t fuel maps known added /\
    ListModel.run (m_vad_neighbours t order fuel inequalities maps) (initial start added threads 0) ls s /\
    m_raw_lines t (printed (sh s)) = say lines /\
    out = m_vad_title maps ++ lines.

Definition row_char (c : ascii) : bool := is_digit c || is_blank c || is_char (Some c) "-".
Lemma row_chars_plain line : Forall (fun c => row_char c = true) line -> MapInput.plain_line line.
Proof.
  intros H. rewrite Forall_forall in H. split.
  - intros Hn. specialize (H _ Hn). discriminate H.
  - intros (u & w & v & -> & Hw & _ & _).
    assert (X := word_check (fun w => existsb (fun c => negb (row_char c)) (lit w)) all_words w Hw eq_refl). cbv beta in X. apply existsb_exists in X as (c & Hc & E).
    rewrite H in E; [discriminate|]. apply in_app_iff. right. apply in_app_iff. auto.
Qed.
Lemma digits_row ds : StreamProofs.digits ds -> Forall (fun c => row_char c = true) ds.
Proof. unfold StreamProofs.digits. apply Forall_impl. intros c Hc. unfold row_char. rewrite Hc. reflexivity. Qed.
Lemma int_text_row z : Forall (fun c => row_char c = true) (int_text z).
Proof.
  unfold int_text. destruct (Z.ltb_spec z 0).
  - constructor; [reflexivity|]. apply digits_row. apply (digits_text_spec (- z)). lia.
  - apply digits_row. apply (digits_text_spec z). auto.
Qed.
Lemma print_row_chars r : Forall (fun c => row_char c = true) (m_print_row r).
Proof.
  unfold m_print_row. induction r as [|z r IH]; cbn [flat_map]; [constructor|]. apply Forall_app. split; auto. unfold m_print_entry. apply Forall_app. split; [destruct (z >=? 0)%Z; repeat constructor|].
  constructor; [reflexivity|]. apply int_text_row.
Qed.
Lemma raw_lines_ignored t rows g : forall lines, m_raw_lines t rows = say lines -> known_vertices_text g (Some lines) g.
Proof.
  unfold m_raw_lines. induction rows as [|r rows IH]; intros lines H; cbn [for_all] in H.
  - assert (lines = []) as -> by (unfold say in H; congruence). apply known_vertices_rest. apply row_chars_plain. constructor.
  - destruct (m_cast t r) as [r'| |]; cbn [calc andthen say] in H; try discriminate. unfold say in H at 1. cbn [andthen] in H.
    match type of H with (_ ++ fst ?p, snd _) = _ => destruct p as [more status] eqn:EM end. cbn [fst snd] in H. unfold say in H. inversion H; subst.
    unfold end_line. rewrite <- app_assoc. cbn [app]. apply known_vertices_line; [left; apply row_chars_plain; apply print_row_chars|]. apply (IH more). unfold say. rewrite EM in H2 |- *. cbn [snd] in H2. rewrite H2. reflexivity.
Qed.
(** What was printed at any moment contains no known vertices and rays. *)
Theorem C66_vertices : forall t order fuel threads rows maps known s out g, m_vad_shown t order fuel threads rows maps known s out -> known_vertices_text g (Some out) g.
Proof.
  intros t order fuel threads rows maps known s out g (start & added & ls & lines & _ & _ & _ & HL & ->). unfold m_vad_title, end_line. rewrite <- !app_assoc. cbn [app].
  assert (K := raw_lines_ignored t (printed (sh s)) g lines HL).
  assert (P : forall w, ~ In newline (lit w) -> m_is_keyword (m_trim (lit w)) = false -> MapInput.plain_line (lit w)) by (intros w H1 H2; destruct (plain_or_keyword (lit w) H1) as [H|H]; [exact H|congruence]).
  destruct (nonempty maps); cbn [m_reduced app].
  - apply (known_vertices_line g (lit "Reduced Vertices / Rays:")); auto. left. apply P; [cbn; intuition discriminate|vm_compute; reflexivity].
  - apply (known_vertices_line g (lit "Vertices / Rays:")); auto. left. apply P; [cbn; intuition discriminate|vm_compute; reflexivity].
Qed.
Print Assumptions C66_vertices.

(** Given as known data to another run of the program it changes nothing: that run can print and end exactly as the same call without known data. *)
Theorem C66_vertices_ignored : forall t order fs args args0 name so content sys n kname t' order' fuel' threads' rows maps known s' shown,
  Forall ordinary args -> Forall ordinary args0 -> chooses_method args AdjacencyDecomposition -> chooses_method args0 AdjacencyDecomposition -> chooses_type args t -> chooses_type args0 t -> same_threads args args0 ->
  asks_file args name so -> asks args0 name so -> fs name = Some content -> early_keyword content -> system_text no_system (Some content) sys -> ~ describes_hull content -> describes_system content -> fits_together sys n ->
  m_vad_shown t' order' fuel' threads' rows maps known s' shown -> names_vertices args kname -> fs kname = Some shown ->
  exists fuel0, forall texts fuel hardware out e, fuel0 <= fuel -> (m_main texts order fs fuel hardware args out e <-> m_main texts order fs fuel hardware args0 out e).
Proof.
  intros t order fs args args0 name so content s n kname t' order' fuel' threads' rows maps known s' shown HO HO0 HM HM0 HT HT0 HTh HA HA0 HF HK HX HS1 HS2 HG Hsh HKn HKf.
  assert (HKt := C66_vertices _ _ _ _ _ _ _ _ _ ([], []) Hsh).
  destruct (known_input_vertices fs args name so content s n kname shown ([], []) HA HF HK HX HG HKn HKf HKt) as (f1 & K1). destruct (input_inequalities_with fs args0 name so content s (asks_asks_file _ _ _ HA0) HF HK HX) as (f0 & K0).
  exists (f0 + f1). intros texts fuel hardware out e Hf.
  destruct (C53_mode fs args name content HO (proj1 HA) HF) as (_ & _ & M). destruct (C53_mode fs args0 name content HO0 (proj1 HA0) HF) as (_ & _ & M0).
  rewrite (main_mode texts order fs fuel hardware args _ (M (conj HS1 HS2))), (main_mode texts order fs fuel hardware args0 _ (M0 (conj HS1 HS2))), (vertex_main order fs fuel hardware args _ t HM HT), (vertex_main order fs fuel hardware args0 _ t HM0 HT0).
  unfold m_vertex_ad. rewrite (K1 fuel ltac:(lia)), (K0 fuel ltac:(lia)), (consistent_fits content s n HX HG). unfold m_known_vertices. destruct (asks_ok args0 name so HA0) as (_ & _ & E & _). rewrite E. cbn [bind at_end].
  rewrite (threads_same hardware args args0 HTh). reflexivity.
Qed.
Print Assumptions C66_vertices_ignored.

(** The segment between (1, 0) and (0, 1) with the map that exchanges them: the vertex (1, 0) has been printed. *)
Example C66_vertices_example : exists s,
  m_vad_shown INT32 sorted_order 40 1 [[-1; 0; 0]; [0; -2; 0]; [1; 1; -1]; [-1; -1; 1]; [0; 0; -1]]%Z [exchange2] [[0; 1; 1]]%Z s (line "Reduced Vertices / Rays:" ++ line "  1  0  1") /\ main s = Some [].
Proof.
  destruct (exec_all (m_vad_neighbours INT32 sorted_order 40 [[-1; 0; 0]; [0; -2; 0]; [1; 1; -1]; [-1; -1; 1]; [0; 0; -1]]%Z [exchange2]) [CMain] (initial [[1; 0; 1]]%Z [[1; 0; 1]]%Z 1 0)) as [s|] eqn:Es; [|vm_compute in Es; discriminate].
  destruct (exec_all_ok _ _ _ _ Es) as (ls & R). exists s. split; [|vm_compute in Es; inversion Es; reflexivity].
  exists [[1; 0; 1]]%Z, [[1; 0; 1]]%Z, ls, (line "  1  0  1").
  split; [vm_compute; reflexivity|]. split; [exists 1; split; [vm_compute; reflexivity|left; cbn; auto]|]. split; [exact R|]. vm_compute in Es. inversion Es. split; [vm_compute; reflexivity|reflexivity].
Qed.
