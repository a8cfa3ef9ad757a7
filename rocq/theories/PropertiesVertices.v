(** * PropertiesVertices: vertices and rays in an input file (C31, C32). *)
From Coq Require Import List ZArith Arith Bool Ascii String Lia.
From Verif Require Import Base Spec ListUtil ArithModel SafeIntModel IntTypes RowLcm StreamModel StreamProofs IntLcm InputModel InputProofs InputTotal VertexInput.
Import ListNotations.
Open Scope nat_scope.
Open Scope list_scope.

(** ** Specification. *)
(** [row] represents the rational point whose coordinates are the fractions [pts]: it is (x_1, ..., x_n, L) with x_i / L = numerator_i / denominator_i, where L
    is the least common denominator. *)
Definition represents (pts : list (Z * Z)) (row : vec) : Prop :=
  exists xs l, row = xs ++ [l] /\ (0 < l)%Z /\ Forall2 (fun x p => (x * snd p = fst p * l)%Z) xs pts /\
    (forall p, In p pts -> (snd p | l)%Z) /\ (forall m, (forall p, In p pts -> (snd p | m)%Z) -> (l | m)%Z).
(** [row] represents the direction of the fractions [pts]: the same multiple of each of them, and a zero in the last position. *)
Definition represents_ray (pts : list (Z * Z)) (row : vec) : Prop :=
  exists xs l, row = xs ++ [0%Z] /\ (0 < l)%Z /\ Forall2 (fun x p => (x * snd p = fst p * l)%Z) xs pts /\
    (forall p, In p pts -> (snd p | l)%Z) /\ (forall m, (forall p, In p pts -> (snd p | m)%Z) -> (l | m)%Z) /\ int_range l.
Definition row_for (conical : bool) := if conical then represents_ray else represents.
(** All entries are of type [int]. *)
Definition int_row (row : vec) : Prop := Forall int_range row.

Lemma entries_spec l pts : (0 < l)%Z -> Forall (fun p => snd p <> 0%Z /\ (snd p | l)%Z) pts -> Forall2 (fun x p => (x * snd p = fst p * l)%Z) (entries l pts) pts.
Proof.
  intros Hl. induction 1 as [|[a b] pts [Hb D] _ IH]; cbn [entries map]; constructor; auto. cbn [fst snd] in *. destruct D as [q ->]. rewrite Z.quot_mul by auto. ring.
Qed.
Lemma entries_unique l pts xs : (0 < l)%Z -> Forall (fun p => snd p <> 0%Z /\ (snd p | l)%Z) pts -> Forall2 (fun x p => (x * snd p = fst p * l)%Z) xs pts -> xs = entries l pts.
Proof.
  intros Hl HF H2. assert (H := entries_spec l pts Hl HF). revert HF H. induction H2 as [|x p xs pts Hx _ IH]; intros HF H; cbn [entries map]; auto.
  apply Forall_cons_iff in HF as [[Hb _] HF]. inversion H as [|? ? ? ? E H']; subst. f_equal; [|apply IH; auto]. apply (Z.mul_cancel_r _ _ (snd p)); auto. lia.
Qed.
Lemma common_divides pts p : In p pts -> (snd p | common pts)%Z.
Proof. intros Hp. apply rlcm_divide. apply in_map; auto. Qed.
Lemma common_least pts m : (forall p, In p pts -> (snd p | m)%Z) -> (common pts | m)%Z.
Proof. intros H. apply rlcm_least. intros x Hx. apply in_map_iff in Hx as (p & <- & Hp). auto. Qed.
Lemma common_unique pts l : proper pts -> (0 < l)%Z -> (forall p, In p pts -> (snd p | l)%Z) -> (forall m, (forall p, In p pts -> (snd p | m)%Z) -> (l | m)%Z) -> l = common pts.
Proof.
  intros Hp Hl H1 H2. assert (Hc := common_pos pts Hp). apply Z.divide_antisym_nonneg; try lia.
  - apply H2. apply common_divides.
  - apply common_least; auto.
Qed.
Lemma proper_common pts : proper pts -> Forall (fun p => snd p <> 0%Z /\ (snd p | common pts)%Z) pts.
Proof. intros H. apply Forall_forall. intros p Hp. split; [|apply common_divides; auto]. unfold proper in H. rewrite Forall_forall in H. apply H; auto. Qed.
(** There is exactly one such row. *)
Lemma represents_iff pts row : proper pts -> (represents pts row <-> row = point_row pts).
Proof.
  intros Hp. assert (Hc := common_pos pts Hp). assert (HF := proper_common pts Hp). split.
  - intros (xs & l & -> & Hl & H2 & H3 & H4). assert (E := common_unique pts l Hp Hl H3 H4). subst l. unfold point_row. rewrite <- (entries_unique _ pts xs Hl HF H2). reflexivity.
  - intros ->. exists (entries (common pts) pts), (common pts). repeat split; auto using entries_spec, common_divides, common_least.
Qed.
Lemma represents_ray_iff pts row : proper pts -> (represents_ray pts row <-> row = ray_row pts /\ int_range (common pts)).
Proof.
  intros Hp. assert (Hc := common_pos pts Hp). assert (HF := proper_common pts Hp). split.
  - intros (xs & l & -> & Hl & H2 & H3 & H4 & H5). assert (E := common_unique pts l Hp Hl H3 H4). subst l. unfold ray_row. rewrite <- (entries_unique _ pts xs Hl HF H2). auto.
  - intros [-> Hr]. exists (entries (common pts) pts), (common pts).
    split; [reflexivity|]. split; [auto|]. split; [apply entries_spec; auto|]. split; [intros; apply common_divides; auto|]. split; [intros; apply common_least; auto|auto].
Qed.
Lemma represents_point_fits conical pts row : proper pts -> row_for conical pts row -> int_row row -> row = row_of conical pts /\ point_fits pts.
Proof.
  intros Hp H Hi. destruct conical; cbn [row_for row_of] in *.
  - apply represents_ray_iff in H as [-> Hr]; auto. split; auto. split; auto. unfold int_row, ray_row in Hi. apply Forall_app in Hi. tauto.
  - apply represents_iff in H as ->; auto. split; auto. unfold int_row, point_row in Hi. apply Forall_app in Hi as [Hi Hc]. apply Forall_cons_iff in Hc. split; tauto.
Qed.

(** ** C31 *)
(** A line of coordinates is read as the row that represents the point; it is read completely, up to the end of the line. *)
Theorem C31_vertex : forall lab l pts r row, label lab -> coordinates l pts -> line_end r -> represents pts row -> int_row row ->
  exists s, m_vertex (opened (lab ++ l ++ r)) = Ok (row, s) /\ rest s = r.
Proof.
  intros lab l pts r row Hlab Hl Hr Hrow Hi. assert (Hp := proj2 (coordinates_pts l pts Hl)). fold (proper pts) in Hp.
  destruct (represents_point_fits false pts row Hp Hrow Hi) as [-> Hf]. assert (V := vertex_ok lab l pts r Hlab Hl Hr).
  destruct (m_vertex (opened (lab ++ l ++ r))) as [[row s]| |]; [|destruct V|contradiction]. destruct V as (-> & -> & _).
  exists (finish r). split; auto. destruct r; reflexivity.
Qed.
Print Assumptions C31_vertex.
(** Conversely, whenever a row is returned for such a line it represents the point; the only other outcome is an overflow, when the representation does not fit. *)
Theorem C31_vertex_sound : forall lab l pts r, label lab -> coordinates l pts -> line_end r ->
  match m_vertex (opened (lab ++ l ++ r)) with
  | Ok (row, s) => represents pts row /\ int_row row /\ rest s = r
  | Throw => False
  | UB => forall row, represents pts row -> ~ int_row row
  end.
Proof.
  intros lab l pts r Hlab Hl Hr. assert (Hp := proj2 (coordinates_pts l pts Hl)). fold (proper pts) in Hp. assert (V := vertex_ok lab l pts r Hlab Hl Hr).
  destruct (m_vertex (opened (lab ++ l ++ r))) as [[row s]| |]; [|destruct V|].
  - destruct V as (-> & -> & Hc & He). split; [apply represents_iff; auto|]. split; [|destruct r; reflexivity]. apply Forall_app. split; auto.
  - intros row Hrow Hi. destruct (represents_point_fits false pts row Hp Hrow Hi) as [_ Hf]. contradiction.
Qed.
Print Assumptions C31_vertex_sound.
(** The representation is unique. *)
Theorem C31_unique : forall l pts row row', coordinates l pts -> represents pts row -> represents pts row' -> row = row'.
Proof.
  intros l pts row row' Hl H H'. assert (Hp := proj2 (coordinates_pts l pts Hl)). fold (proper pts) in Hp. apply represents_iff in H; auto. apply represents_iff in H'; auto. congruence.
Qed.
Print Assumptions C31_unique.

(** ** Sections. *)
Definition keyword_line (words : list string) (line : text) : Prop := exists u w v, line = u ++ lit w ++ v /\ In w words /\ blanks u /\ blanks v.
Open Scope string_scope.
Definition plain_convex_words : list string := ["Vertices"; "Vertices:"; "CONV_SECTION"; "CONV_SECTION:"; "CONVEX_HULL"; "CONVEX_HULL:"; "CONVEX_HULL_SECTION"; "CONVEX_HULL_SECTION:"].
Definition reduced_convex_words : list string := ["Reduced Vertices"; "Reduced Vertices:"; "REDUCED_CONV_SECTION"; "REDUCED_CONV_SECTION:"; "REDUCED_CONVEX_HULL"; "REDUCED_CONVEX_HULL:";
  "REDUCED_CONVEX_HULL_SECTION"; "REDUCED_CONVEX_HULL_SECTION:"].
Definition convex_words : list string := (plain_convex_words ++ reduced_convex_words)%list.
Definition plain_conical_words : list string := ["Rays"; "Rays:"; "CONE_SECTION"; "CONE_SECTION:"; "CONICAL_HULL"; "CONICAL_HULL:"; "CONICAL_HULL_SECTION"; "CONICAL_HULL_SECTION:"].
Definition reduced_conical_words : list string := ["Reduced Rays"; "Reduced Rays:"; "REDUCED_CONE_SECTION"; "REDUCED_CONE_SECTION:"; "REDUCED_CONICAL_HULL"; "REDUCED_CONICAL_HULL:";
  "REDUCED_CONICAL_HULL_SECTION"; "REDUCED_CONICAL_HULL_SECTION:"].
Definition conical_words : list string := (plain_conical_words ++ reduced_conical_words)%list.
Definition names_words : list string := ["Names"; "Names:"; "Indices"; "Indices:"; "INDEX"; "INDEX:"; "INDICES"; "INDICES:"; "INDEX_SECTION"; "INDEX_SECTION:"; "INDICES_SECTION"; "INDICES_SECTION:";
  "NAMES"; "NAMES:"; "NAME_SECTION"; "NAME_SECTION:"; "NAMES_SECTION"; "NAMES_SECTION:"].
Definition maps_words : list string := ["Maps"; "Maps:"; "MAPS"; "MAPS:"; "MAP_SECTION"; "MAP_SECTION:"; "MAPS_SECTION"; "MAPS_SECTION:"].
Definition equation_words : list string := ["Equations"; "Equations:"; "EQUATIONS"; "EQUATIONS:"; "EQUATION_SECTION"; "EQUATION_SECTION:"; "EQUATIONS_SECTION"; "EQUATIONS_SECTION:"].
Definition plain_inequality_words : list string := ["Inequalities"; "Inequalities:"; "INEQUALITIES"; "INEQUALITIES:"; "INEQUALITY_SECTION"; "INEQUALITY_SECTION:"; "INEQUALITIES_SECTION";
  "INEQUALITIES_SECTION:"].
Definition reduced_inequality_words : list string := ["Reduced Inequalities"; "Reduced Inequalities:"; "REDUCED_INEQUALITIES"; "REDUCED_INEQUALITIES:"; "REDUCED_INEQUALITY_SECTION";
  "REDUCED_INEQUALITY_SECTION:"; "REDUCED_INEQUALITIES_SECTION"; "REDUCED_INEQUALITIES_SECTION:"].
Definition inequality_words : list string := (plain_inequality_words ++ reduced_inequality_words)%list.
Definition dimension_words : list string := ["DIM"; "DIM="; "Dim"; "Dim="; "DIMENSION"; "DIMENSION="; "Dimension"; "Dimension="].
Definition other_words : list string := (names_words ++ maps_words ++ equation_words ++ inequality_words ++ dimension_words)%list.
Definition end_words : list string := ["END"; "End"].
Close Scope string_scope.
Lemma trim_word u w v : blanks u -> blanks v -> stops is_blank w -> stops is_blank (rev w) -> m_trim (u ++ w ++ v) = w.
Proof.
  intros Hu Hv H1 H2. unfold m_trim. rewrite drop_app by auto. destruct w as [|c w].
  - cbn [app]. rewrite (drop_all is_blank v Hv). reflexivity.
  - rewrite (drop_stop is_blank ((c :: w) ++ v)) by exact H1. rewrite rev_app_distr, drop_app by (apply Forall_rev; exact Hv). rewrite drop_stop by exact H2. apply rev_involutive.
Qed.
Definition trimmed_word (w : string) : bool :=
  match lit w, rev (lit w) with c :: _, d :: _ => negb (is_blank c) && negb (is_blank d) && negb (existsb (fun c => is_char (Some c) newline) (lit w)) | _, _ => false end.
Lemma keyword_line_trim words line : forallb trimmed_word words = true -> keyword_line words line ->
  exists w, In w words /\ m_trim line = lit w /\ ~ In newline line.
Proof.
  intros Hw (u & w & v & -> & Hin & Hu & Hv). exists w. rewrite forallb_forall in Hw. specialize (Hw w Hin). unfold trimmed_word in Hw.
  destruct (lit w) as [|c cs] eqn:E; [discriminate|]. destruct (rev (c :: cs)) as [|d ds] eqn:E'; [discriminate|].
  apply andb_true_iff in Hw as [Hw Hw3]. apply andb_true_iff in Hw as [Hw1 Hw2]. split; auto. split.
  - apply trim_word; auto; [cbn; destruct (is_blank c); auto; discriminate|rewrite E'; cbn; destruct (is_blank d); auto; discriminate].
  - rewrite !in_app_iff. intros [K|[K|K]]; [exact (blanks_no_newline u Hu K)| |exact (blanks_no_newline v Hv K)].
    apply negb_true_iff in Hw3. assert (X : existsb (fun c => is_char (Some c) newline) (c :: cs) = true) by (apply existsb_exists; exists newline; split; auto). congruence.
Qed.
Lemma word_check (p : string -> bool) words w : In w words -> forallb p words = true -> p w = true.
Proof. intros Hw H. rewrite forallb_forall in H. auto. Qed.
(** What may follow the lines of a section, and what is left of the file after reading it: nothing, the following keyword, or the text after END. *)
Inductive follow : text -> list (list (Z * Z)) -> option text -> Prop :=
| follow_end t P : section_tail t P -> follow t P None
| follow_keyword line r : keyword_line (convex_words ++ conical_words ++ other_words) line -> follow (line ++ newline :: r) [] (Some (line ++ newline :: r))
| follow_END line r : keyword_line end_words line -> follow (line ++ newline :: r) [] (Some r)
| follow_END_last line : keyword_line end_words line -> follow line [] (Some []).
(** (At the very end of the file the end may have been noticed or not.) *)
Definition left_over (s : stream) (o : option text) : Prop := match o with None => ok s = false | Some t => s = opened t \/ (t = [] /\ s = Stream [] true false) end.

Lemma section_finish conical lines P tail Q o rows : section_lines lines P -> follow tail Q o ->
  Forall2 (row_for conical) (P ++ Q) rows -> Forall int_row rows ->
  exists fuel0, forall fuel, fuel0 <= fuel -> exists s, section_loop conical fuel [] (opened (lines ++ tail)) = Ok (Some (rows, s)) /\ left_over (m_skip_end s) o.
Proof.
  intros HL HF HR HI.
  assert (PR : Forall proper (P ++ Q)).
  { apply Forall_app. split.
    - clear - HL. induction HL as [|u t P Hu Ht IH|lab l pts t P Hlab Hl Ht IH]; auto. constructor; auto. apply (coordinates_pts l pts Hl).
    - inversion HF as [t P' HT| | |]; subst; auto. inversion HT as [u Hu|lab l pts Hlab Hl]; subst; auto. constructor; auto. apply (coordinates_pts l pts Hl). }
  assert (EQ : rows = map (row_of conical) (P ++ Q) /\ all_fit (P ++ Q) = true).
  { clear - PR HR HI. revert PR HI. induction HR as [|pts row PP rows Hr _ IH]; intros PR HI; [split; reflexivity|].
    apply Forall_cons_iff in PR as [Hp PR]. apply Forall_cons_iff in HI as [Hi HI]. destruct (IH PR HI) as [-> E].
    destruct (represents_point_fits conical pts row Hp Hr Hi) as [-> [H1 H2]]. split; auto. cbn [all_fit forallb]. fold (all_fit PP). rewrite E.
    apply fits_int in H1. rewrite H1. rewrite andb_true_r. cbn [andb]. apply forallb_forall. intros x Hx. rewrite Forall_forall in H2. apply fits_int, H2; auto. }
  destruct EQ as [-> HA]. unfold all_fit in HA. rewrite forallb_app in HA. apply andb_true_iff in HA as [HA HB]. fold (all_fit P) in HA. fold (all_fit Q) in HB.
  destruct (section_lines_ok conical lines P HL [] tail) as (k0 & K). rewrite map_app.
  exists (k0 + 3). intros fuel Hf. destruct (K fuel ltac:(lia)) as (k' & Hk' & E). rewrite HA in E. cbn [app] in E. rewrite E. clear E K.
  inversion HF as [t Q' HT|line r HK|line r HK|line HK]; subst.
  - destruct (section_tail_ok conical tail Q HT (map (row_of conical) P) k' ltac:(lia)) as (s & Hs & E). rewrite HB in E. exists s. split; auto. cbn [left_over].
    unfold m_skip_end. rewrite Hs. exact Hs.
  - destruct (keyword_line_trim (convex_words ++ conical_words ++ other_words) line eq_refl HK) as (w & Hw & Et & Nn). exists (opened (line ++ newline :: r)). destruct k' as [|k']; [lia|]. cbn [map]. rewrite app_nil_r.
    assert (W : m_is_keyword (lit w) = true /\ m_is_end (m_first_word (lit w)) = false).
    { assert (KC := word_check (fun w => m_is_keyword (lit w) && negb (m_is_end (m_first_word (lit w)))) _ w Hw eq_refl). clear Hw. rename KC into Hw. cbv beta in Hw. apply andb_true_iff in Hw as [Hw1 Hw2]. apply negb_true_iff in Hw2. auto. }
    destruct W as [W1 W2]. split; [apply section_keyword; rewrite first_line_newline, Et; auto|].
    unfold m_skip_end. change (ok (opened (line ++ newline :: r))) with true. cbv iota. rewrite peek_line_opened, first_line_newline by auto.
    assert (FW : m_first_word line = m_first_word (lit w)).
    { unfold m_first_word. rewrite Et. replace (m_trim (lit w)) with (lit w); auto.
      assert (KC := word_check (fun w => text_eqb (lit w) (m_trim (lit w))) _ w Hw eq_refl). clear Hw. rename KC into Hw. cbv beta in Hw. destruct (text_eqb_spec (lit w) (m_trim (lit w))); auto. discriminate. }
    rewrite FW, W2. left. reflexivity.
  - destruct (keyword_line_trim end_words line eq_refl HK) as (w & Hw & Et & Nn). exists (opened (line ++ newline :: r)). destruct k' as [|k']; [lia|]. cbn [map]. rewrite app_nil_r.
    assert (W : m_is_keyword (lit w) = true /\ m_is_end (m_first_word line) = true).
    { unfold m_first_word. rewrite Et. clear - Hw. cbn [end_words In] in Hw. repeat (destruct Hw as [<-|Hw]; [split; reflexivity|]). destruct Hw. }
    destruct W as [W1 W2]. split; [apply section_keyword; rewrite first_line_newline, Et; auto|].
    unfold m_skip_end. change (ok (opened (line ++ newline :: r))) with true. cbv iota. rewrite peek_line_opened, first_line_newline by auto. rewrite W2, getline_newline by auto. left. reflexivity.
  - destruct (keyword_line_trim end_words tail eq_refl HK) as (w & Hw & Et & Nn). exists (opened tail). destruct k' as [|k']; [lia|]. cbn [map]. rewrite app_nil_r.
    assert (W : m_is_keyword (lit w) = true /\ m_is_end (m_first_word tail) = true /\ lit w <> []).
    { unfold m_first_word. rewrite Et. clear - Hw. cbn [end_words In] in Hw. repeat (destruct Hw as [<-|Hw]; [split; [reflexivity|split; [reflexivity|discriminate]]|]). destruct Hw. }
    destruct W as (W1 & W2 & W3). assert (Hne : tail <> []) by (intros E; rewrite E in Et; cbn in Et; congruence).
    split; [apply section_keyword; rewrite first_line_end, Et; auto|].
    unfold m_skip_end. change (ok (opened tail)) with true. cbv iota. rewrite peek_line_opened, first_line_end by auto. rewrite W2, getline_end by auto. right. split; reflexivity.
Qed.
(** A section of points: all of them are read, in order, and the rest of the file is left for the following sections. *)
Theorem C31_convex_section : forall title lines P tail Q o rows,
  keyword_line convex_words title -> section_lines lines P -> follow tail Q o -> Forall2 represents (P ++ Q) rows -> Forall int_row rows ->
  exists fuel0, forall fuel, fuel0 <= fuel ->
    exists s, m_vertices_convex fuel (opened (title ++ newline :: lines ++ tail)) = Ok (Some (rows, s)) /\ left_over s o.
Proof.
  intros title lines P tail Q o rows HK HL HF HR HI. destruct (section_finish false lines P tail Q o rows HL HF HR HI) as (fuel0 & K). exists fuel0. intros fuel Hf.
  destruct (K fuel Hf) as (s & E & Ho). exists (m_skip_end s). split; auto. unfold m_vertices_convex, m_section.
  destruct (keyword_line_trim convex_words title eq_refl HK) as (w & Hw & Et & Nn). rewrite getline_newline by auto. change (ok (opened (lines ++ tail))) with true. cbn [negb]. rewrite Et.
  assert (W : m_is_convex (lit w) || m_is_reduced_convex (lit w) = true). { exact (word_check (fun w => m_is_convex (lit w) || m_is_reduced_convex (lit w)) _ w Hw eq_refl). }
  rewrite W. cbn [negb]. rewrite E. reflexivity.
Qed.
Print Assumptions C31_convex_section.
Theorem C31_conical_section : forall title lines P tail Q o rows,
  keyword_line conical_words title -> section_lines lines P -> follow tail Q o -> Forall2 represents_ray (P ++ Q) rows -> Forall int_row rows ->
  exists fuel0, forall fuel, fuel0 <= fuel ->
    exists s, m_vertices_conical fuel (opened (title ++ newline :: lines ++ tail)) = Ok (Some (rows, s)) /\ left_over s o.
Proof.
  intros title lines P tail Q o rows HK HL HF HR HI. destruct (section_finish true lines P tail Q o rows HL HF HR HI) as (fuel0 & K). exists fuel0. intros fuel Hf.
  destruct (K fuel Hf) as (s & E & Ho). exists (m_skip_end s). split; auto. unfold m_vertices_conical, m_section.
  destruct (keyword_line_trim conical_words title eq_refl HK) as (w & Hw & Et & Nn). rewrite getline_newline by auto. change (ok (opened (lines ++ tail))) with true. cbn [negb]. rewrite Et.
  assert (W : m_is_conical (lit w) || m_is_reduced_conical (lit w) = true). { exact (word_check (fun w => m_is_conical (lit w) || m_is_reduced_conical (lit w)) _ w Hw eq_refl). }
  rewrite W. cbn [negb]. rewrite E. reflexivity.
Qed.
Print Assumptions C31_conical_section.

(** ** C32 *)
(** A line that starts with a word: its first character that is no blank is a small letter. *)
Definition small_letter (c : ascii) : Prop := (97 <= nat_of_ascii c <= 122)%nat.
Definition word_line (line : text) : Prop := exists u c w, line = u ++ c :: w /\ blanks u /\ small_letter c /\ ~ In newline w.
Lemma small_letter_facts c : small_letter c -> is_space c = false /\ is_blank c = false /\ is_digit c = false /\ c <> "-"%char /\ c <> "+"%char /\ c <> "("%char /\ c <> newline.
Proof.
  intros H. unfold small_letter in H. assert (N : forall d, nat_of_ascii d < 97 -> c <> d) by (intros d Hd E; subst d; lia).
  repeat split; try (apply N; cbn; lia).
  - unfold is_space. repeat match goal with |- context [(nat_of_ascii c =? ?k)%nat] => destruct (Nat.eqb_spec (nat_of_ascii c) k); [lia|] end. reflexivity.
  - unfold is_blank. destruct (is_char_spec c blank) as [E|_]; [exfalso; revert E; apply N; cbn; lia|]. destruct (is_char_spec c tab) as [E|_]; [exfalso; revert E; apply N; cbn; lia|].
    destruct (is_char_spec c carriage_return) as [E|_]; [exfalso; revert E; apply N; cbn; lia|]. reflexivity.
  - unfold is_digit. destruct (Nat.leb_spec (nat_of_ascii c) 57); [lia|]. apply andb_false_r.
Qed.
Lemma small_letter_keyword c t : small_letter c -> m_is_keyword (c :: t) = false.
Proof.
  intros Hc.
  assert (K : forall words, forallb (fun w => match w with EmptyString => true | String d _ => (nat_of_ascii d <? 97)%nat end) words = true -> one_of_words words (c :: t) = false).
  { intros words Hw. unfold one_of_words. induction words as [|w words IH]; [reflexivity|]. cbn [forallb existsb] in *. apply andb_true_iff in Hw as [Hw Hws].
    rewrite IH by auto. rewrite orb_false_r. destruct (text_eqb_spec (c :: t) (lit w)) as [E|]; auto. destruct w as [|d w]; [discriminate E|]. cbn in E. injection E as -> _.
    apply Nat.ltb_lt in Hw. unfold small_letter in Hc. lia. }
  unfold m_is_keyword, m_is_conical, m_is_reduced_something, m_is_reduced_conical, m_is_convex, m_is_reduced_convex, m_is_dimension, m_is_equations,
    m_is_inequalities, m_is_reduced_inequalities, m_is_maps, m_is_names, m_is_end.
  rewrite !K; auto.
Qed.
Lemma vertex_word u c w : blanks u -> small_letter c -> m_vertex (opened (u ++ c :: w)) = Ok ([], Stream (c :: w) false true).
Proof.
  intros Hu Hc. destruct (small_letter_facts c Hc) as (Hs & Hb & Hd & H1 & H2 & H3 & H4). unfold m_vertex. rewrite (optional_identifier_ok u (c :: w)).
  - assert (R : read_int 0 (opened (c :: w)) = (0%Z, Stream (c :: w) false true)).
    { unfold read_int, formatted. change (good (opened (c :: w))) with true. cbv iota. cbn [rest opened drop_while]. rewrite Hs.
      unfold scan_integer. destruct (ascii_dec c "-"); [congruence|]. destruct (ascii_dec c "+"); [congruence|]. cbn [take_while drop_while]. rewrite Hd. reflexivity. }
    cbn [bind]. change (length (rest (opened (c :: w))) + 2) with (S (length w + 2)). cbn [vertex_loop]. rewrite R. reflexivity.
  - constructor; auto.
  - exact Hb.
  - cbn [stops]. destruct (is_char_spec c "("); [congruence|reflexivity].
Qed.
Lemma section_word_step conical k rows line r : word_line line -> line_end r -> exists c w, small_letter c /\ ~ In newline w /\
  section_loop conical (S k) rows (opened (line ++ r)) =
    section_loop conical k rows (if conical then opened (c :: w ++ r) else Stream (c :: w ++ r) false true).
Proof.
  intros (u & c & w & -> & Hu & Hc & Hw) Hr. exists c, w. split; auto. split; auto. destruct (small_letter_facts c Hc) as (Hs & Hb & Hd & H1 & H2 & H3 & H4).
  assert (Nn : ~ In newline (u ++ c :: w)). { rewrite in_app_iff. intros [K|[K|K]]; [exact (blanks_no_newline u Hu K)|congruence|auto]. }
  assert (F : first_line ((u ++ c :: w) ++ r) = u ++ c :: w).
  { destruct r as [|d r]; [rewrite app_nil_r; apply first_line_end; auto|]. cbn in Hr. subst d. apply first_line_newline; auto. }
  destruct (trim_first u c w Hu Hb) as (t & Et).
  cbn [section_loop]. change (ok (opened ((u ++ c :: w) ++ r))) with true. cbn [negb]. rewrite !peek_line_opened, F, Et, small_letter_keyword by auto. cbn [at_end].
  rewrite <- app_assoc. cbn [app]. rewrite vertex_word by auto. cbn [bind]. destruct conical; reflexivity.
Qed.
Lemma rows_rows_of conical P rows : Forall proper P -> Forall2 (row_for conical) P rows -> Forall int_row rows -> rows = map (row_of conical) P /\ all_fit P = true.
Proof.
  intros PR HR. revert PR. induction HR as [|pts row PP rows Hr _ IH]; intros PR HI; [split; reflexivity|].
  apply Forall_cons_iff in PR as [Hp PR]. apply Forall_cons_iff in HI as [Hi HI]. destruct (IH PR HI) as [-> E].
  destruct (represents_point_fits conical pts row Hp Hr Hi) as [-> [H1 H2]]. split; auto. cbn [all_fit forallb]. fold (all_fit PP). rewrite E.
  apply fits_int in H1. rewrite H1. rewrite andb_true_r. cbn [andb]. apply forallb_forall. intros x Hx. rewrite Forall_forall in H2. apply fits_int, H2; auto.
Qed.
Lemma section_lines_proper lines P : section_lines lines P -> Forall proper P.
Proof. induction 1 as [|u t P Hu Ht IH|lab l pts t P Hlab Hl Ht IH]; auto. constructor; auto. apply (coordinates_pts l pts Hl). Qed.
Lemma section_start (conical : bool) words title : (words = if conical then conical_words else convex_words) -> keyword_line words title -> forall fuel t,
  m_section conical fuel (opened (title ++ newline :: t)) = bindo (section_loop conical fuel [] (opened t)) (fun p => let '(rows, s) := p in Ok (Some (rows, m_skip_end s))).
Proof.
  intros E HK fuel t. unfold m_section.
  assert (HT : forallb trimmed_word words = true) by (subst words; destruct conical; reflexivity).
  destruct (keyword_line_trim words title HT HK) as (w & Hw & Et & Nn). rewrite getline_newline by auto. change (ok (opened t)) with true. cbn [negb]. rewrite Et.
  assert (W : (if conical then m_is_conical (lit w) || m_is_reduced_conical (lit w) else m_is_convex (lit w) || m_is_reduced_convex (lit w)) = true).
  { clear - Hw E. subst words. destruct conical; cbn [convex_words conical_words In] in Hw; repeat (destruct Hw as [<-|Hw]; [reflexivity|]); destruct Hw. }
  rewrite W. cbn [negb]. reflexivity.
Qed.
(** Refuted: a line that is not a list of numbers ends a section of points without an error, and the rest of the file is not read (the stream is in failed state):
    of the points of the section only those before that line are returned. *)
Theorem C32_truncated_refuted : forall title lines P line r rows,
  keyword_line convex_words title -> section_lines lines P -> word_line line -> line_end r -> Forall2 represents P rows -> Forall int_row rows ->
  exists fuel0, forall fuel, fuel0 <= fuel ->
    exists s, m_vertices_convex fuel (opened (title ++ newline :: lines ++ line ++ r)) = Ok (Some (rows, s)) /\ ok s = false.
Proof.
  intros title lines P line r rows HK HL HW Hr HR HI. destruct (rows_rows_of false P rows (section_lines_proper _ _ HL) HR HI) as [-> HA].
  destruct (section_lines_ok false lines P HL [] (line ++ r)) as (k0 & K). exists (k0 + 2). intros fuel Hf. destruct (K fuel ltac:(lia)) as (k' & Hk' & E). rewrite HA in E.
  destruct k' as [|[|k']]; try lia. destruct (section_word_step false (S k') (map (row_of false) P) line r HW Hr) as (c & w & _ & _ & E2).
  unfold m_vertices_convex. rewrite (section_start false convex_words title eq_refl HK). rewrite E. cbn [app]. rewrite E2. cbn [section_loop]. change (ok (Stream (c :: w ++ r) false true)) with false.
  cbn [negb bindo]. eexists. split; [reflexivity|]. reflexivity.
Qed.
Print Assumptions C32_truncated_refuted.
(** Refuted: such a line in a section of rays makes the program loop forever. *)
Theorem C32_hangs_refuted : forall title lines P line r rows,
  keyword_line conical_words title -> section_lines lines P -> word_line line -> line_end r -> Forall2 represents_ray P rows -> Forall int_row rows ->
  forall fuel, m_vertices_conical fuel (opened (title ++ newline :: lines ++ line ++ r)) = Ok None.
Proof.
  intros title lines P line r rows HK HL HW Hr HR HI. destruct (rows_rows_of true P rows (section_lines_proper _ _ HL) HR HI) as [-> HA].
  assert (H : forall fuel acc line, word_line line -> section_loop true fuel acc (opened (line ++ r)) = Ok None).
  { induction fuel as [|fuel IH]; intros acc l Hl; [reflexivity|]. destruct (section_word_step true fuel acc l r Hl Hr) as (c & w & Hc & Hw & ->).
    apply (IH acc (c :: w)). exists [], c, w. split; [reflexivity|]. split; [constructor|]. auto. }
  unfold m_vertices_conical. intros fuel. rewrite (section_start true conical_words title eq_refl HK).
  destruct (section_lines_ok true lines P HL [] (line ++ r)) as (k0 & K).
  destruct (K (fuel + k0) ltac:(lia)) as (k' & Hk' & E). rewrite HA, H in E by auto.
  assert (M : section_loop true fuel [] (opened (lines ++ line ++ r)) = Ok None \/ exists x, section_loop true fuel [] (opened (lines ++ line ++ r)) <> Ok None /\ section_loop true (fuel + k0) [] (opened (lines ++ line ++ r)) = x /\ x = section_loop true fuel [] (opened (lines ++ line ++ r))).
  { clear. generalize (opened (lines ++ line ++ r)) as s. generalize (@nil vec) as acc. induction fuel as [|fuel IH]; intros acc s; [left; reflexivity|].
    cbn [Nat.add section_loop]. destruct (negb (ok s)); [right; eexists; repeat split; discriminate|]. destruct (m_peek_line s) as [l1 s1].
    destruct (m_is_keyword (m_trim l1)); [right; eexists; repeat split; discriminate|]. destruct (m_peek_line s1) as [l2 s2]. destruct (at_end (m_trim l2)); [apply IH|].
    destruct (m_vertex s2) as [[row s3]| |]; cbn [bind]; [|right; eexists; repeat split; discriminate..]. destruct row; apply IH. }
  destruct M as [M|(x & N & M1 & M2)]; [rewrite M; reflexivity|]. exfalso. apply N. rewrite <- M2, <- M1. exact E.
Qed.
Print Assumptions C32_hangs_refuted.
(** For every text reading a section of points comes to an end. *)
Theorem C32_convex_terminates_partial : forall t fuel, length t + 3 <= fuel -> m_vertices_convex fuel (opened t) <> Ok None.
Proof.
  intros t fuel Hf H. unfold m_vertices_convex, m_section in H. destruct (getline [] (opened t)) as [token s] eqn:G. destruct (getline_size _ _ _ _ G) as [Z _].
  destruct (negb (ok s)); [discriminate|]. destruct (negb _); [discriminate|].
  assert (K := section_convex_total (fuel - 3) [] s). replace (fuel - 3 + 3) with fuel in K by lia. assert (Hs : size s <= fuel - 3) by (unfold size in *; cbn in Z; lia). specialize (K Hs).
  destruct (section_loop false fuel [] s) as [[[rows s']|]| |]; cbn [bindo] in H; congruence.
Qed.
Print Assumptions C32_convex_terminates_partial.
(** The coordinates of a line up to a fraction with denominator zero. *)
Inductive zero_denominator : text -> Prop :=
| zero_here p a u v q : integer_text p a -> int_range a -> blanks u -> blanks v -> integer_text q 0 -> zero_denominator (p ++ u ++ "/"%char :: v ++ q)
| zero_later t a b u l : coordinate t a b -> blanks u -> u <> [] -> zero_denominator l -> zero_denominator (t ++ u ++ l).
Lemma zero_denominator_first l : zero_denominator l -> exists c l', l = c :: l' /\ starts_number c = true.
Proof.
  intros H. inversion H as [p a u v q Hp|t a b u l' Ht]; subst.
  - destruct (integer_text_first _ _ Hp) as (c & p' & -> & Hc). exists c. eexists. split; [reflexivity|auto].
  - destruct (coordinate_first _ _ _ Ht) as (c & p' & -> & Hc). exists c. eexists. split; [reflexivity|auto].
Qed.
Lemma zero_denominator_loop l : zero_denominator l -> forall fuel tmp N D r, stops is_digit r -> length l < fuel -> vertex_loop fuel tmp N D (opened (l ++ r)) = Throw.
Proof.
  induction 1 as [p a u v q Hp Ha Hu Hv Hq|t a b u l Ht Hu Hn Hl IH]; intros fuel tmp N D r Hr Hf; destruct fuel as [|fuel]; try lia.
  - cbn [vertex_loop].
    assert (Hs : stops is_digit (u ++ "/"%char :: v ++ q ++ r)).
    { destruct u as [|c u]; [reflexivity|]. cbn. apply Forall_cons_iff in Hu as [Hu _]. apply blank_digit; auto. }
    assert (R := read_int_ok [] p a _ tmp (Forall_nil _) Hp Hs Ha). cbn [app] in R.
    replace ((p ++ u ++ "/"%char :: v ++ q) ++ r) with (p ++ u ++ "/"%char :: v ++ q ++ r) by (repeat (rewrite <- app_assoc || cbn [app]); reflexivity).
    rewrite R. change (ok (Stream _ _ false)) with true. cbn [negb]. rewrite skip_whitespace_at_end. cbn [bind].
    rewrite drop_app by auto. cbn [drop_while]. change (is_blank "/") with false. cbv iota. rewrite peek_opened. cbn [at_end].
    change (is_char (Some "/"%char) "/") with true. cbv iota. change (Stream ("/"%char :: v ++ q ++ r) false false) with (opened ("/"%char :: v ++ q ++ r)).
    rewrite get_opened. rewrite (read_int_ok v q 0%Z r a (blanks_spaces v Hv) Hq Hr) by (unfold int_range, StreamModel.int_min, StreamModel.int_max; lia). reflexivity.
  - destruct (zero_denominator_first l Hl) as (c & l' & El & Hc). destruct (starts_number_blank c Hc) as (Hb & _ & _ & Hs & _).
    rewrite <- !app_assoc.
    assert (Hd' : stops is_digit (u ++ l ++ r)). { destruct u as [|d u]; [congruence|]. cbn. apply Forall_cons_iff in Hu as [Hu _]. apply blank_digit; auto. }
    assert (E : drop_while is_blank (u ++ l ++ r) = c :: l' ++ r) by (rewrite drop_app by auto; rewrite El; cbn [app drop_while]; rewrite Hb; reflexivity).
    destruct (vertex_step fuel tmp N D t a b _ Ht Hd') as (tmp' & t' & e & -> & Ed & He).
    { rewrite E. cbn [stops]. destruct (is_char_spec c "/"); [congruence|reflexivity]. }
    rewrite (after_coordinate_more fuel tmp' _ _ t' c (l' ++ r) Hc) by (auto; congruence).
    change (c :: l' ++ r) with ((c :: l') ++ r). rewrite <- El. apply IH; auto. rewrite !app_length in Hf. destruct (coordinate_first _ _ _ Ht) as (c0 & p0 & -> & _). cbn in Hf. lia.
Qed.
(** A denominator zero is reported as an error, whatever follows. *)
Theorem C32_zero_denominator_partial : forall lab l r, label lab -> zero_denominator l -> stops is_digit r -> m_vertex (opened (lab ++ l ++ r)) = Throw.
Proof.
  intros lab l r Hlab Hl Hr. destruct (zero_denominator_first l Hl) as (c & l' & El & Hc). destruct (starts_number_blank c Hc) as (Hb & _ & Hp & _ & _).
  unfold m_vertex. rewrite optional_identifier_ok; auto.
  2:{ rewrite El. exact Hb. } 2:{ rewrite El. cbn [app stops]. destruct (is_char_spec c "("); [congruence|reflexivity]. }
  cbn [bind]. rewrite zero_denominator_loop; auto. cbn. rewrite app_length. lia.
Qed.
Print Assumptions C32_zero_denominator_partial.
(** A section of well-formed lines is read completely. *)
Theorem C32_complete_partial : forall (conical : bool) title lines P tail Q o rows,
  keyword_line (if conical then conical_words else convex_words) title -> section_lines lines P -> follow tail Q o ->
  Forall2 (row_for conical) (P ++ Q) rows -> Forall int_row rows ->
  exists fuel0, forall fuel, fuel0 <= fuel ->
    exists s, m_section conical fuel (opened (title ++ newline :: lines ++ tail)) = Ok (Some (rows, s)) /\ left_over s o.
Proof. intros [|]; intros; [eapply C31_conical_section|eapply C31_convex_section]; eauto. Qed.
Print Assumptions C32_complete_partial.

(** ** Examples. *)
Lemma int_text w z : forallb is_digit (lit w) = true -> lit w <> [] -> decimal (lit w) = z -> integer_text (lit w) z.
Proof. intros H Hn <-. constructor; auto. apply Forall_forall. rewrite forallb_forall in H. auto. Qed.
Lemma small_int z : (-1000 <= z <= 1000)%Z -> int_range z.
Proof. unfold int_range, StreamModel.int_min, StreamModel.int_max. lia. Qed.
(** "1/2 -2/3 4" is the point (1/2, -2/3, 4), represented by (3, -4, 24; 6). *)
Example coordinates_example : coordinates (lit "1/2 -2/3 4") [(1, 2); (-2, 3); (4, 1)]%Z.
Proof.
  apply (coordinates_more (lit "1/2") 1 2 (lit " ") (lit "-2/3 4")); [|repeat constructor|discriminate|].
  - apply (coordinate_fraction (lit "1") 1 [] [] (lit "2") 2); try (apply small_int; lia); try constructor; try lia; try discriminate; repeat constructor.
  - apply (coordinates_more (lit "-2/3") (-2) 3 (lit " ") (lit "4")); [|repeat constructor|discriminate|].
    + apply (coordinate_fraction (lit "-2") (-2) [] [] (lit "3") 3); try (apply small_int; lia); try lia; try constructor; try discriminate; try (repeat constructor).
    + apply (coordinates_last (lit "4") 4 1 []); [|constructor]. constructor; [|apply small_int; lia]. apply int_text; [reflexivity|discriminate|reflexivity].
Qed.
Example represents_example : represents [(1, 2); (-2, 3); (4, 1)]%Z [3; -4; 24; 6]%Z /\ int_row [3; -4; 24; 6]%Z.
Proof.
  split; [|repeat constructor; cbv; discriminate]. exists [3; -4; 24]%Z, 6%Z. split; [reflexivity|]. split; [lia|]. split; [repeat constructor; cbn; lia|]. split.
  - intros p [<-|[<-|[<-|[]]]]; cbn; [exists 3%Z|exists 2%Z|exists 6%Z]; lia.
  - intros m H. assert (H2 : (2 | m)%Z) by (apply (H (1, 2)%Z); left; auto). assert (H3 : (3 | m)%Z) by (apply (H (-2, 3)%Z); right; left; auto).
    destruct H2 as [a ->]. destruct H3 as [b E]. exists (a - b)%Z. lia.
Qed.
Example vertex_example : m_vertex (opened (lit "(v) 1/2 -2/3 4" ++ [newline])) = Ok ([3; -4; 24; 6]%Z, opened [newline]).
Proof. reflexivity. Qed.
(** A file with labels, an empty line and a following section. *)
Definition file_example : text := lit "Vertices:" ++ [newline] ++ lit "0 0" ++ [newline; newline] ++ lit "(a) 1/2 1" ++ [newline] ++ lit "Rays:" ++ [newline] ++ lit "1 1/3" ++ [newline].
Example convex_example : exists s, m_vertices_convex 20 (opened file_example) = Ok (Some ([[0; 0; 1]; [1; 2; 2]]%Z, s)) /\
  m_vertices_conical 20 s = Ok (Some ([[3; 1; 0]]%Z, Stream [] true true)).
Proof. eexists. split; reflexivity. Qed.
Example section_example : section_lines (lit "(a) 4" ++ [newline]) [[(4, 1)]]%Z /\ keyword_line convex_words (lit " Vertices") /\ word_line (lit "abc 1").
Proof.
  split; [|split].
  - apply (section_point (lit "(a) ") (lit "4") [(4, 1)%Z] [] []); [|apply (coordinates_last (lit "4") 4 1 [])|constructor].
    + apply (label_identifier [] (lit "a") (lit " ")); repeat constructor; discriminate.
    + constructor; [|apply small_int; lia]. apply int_text; [reflexivity|discriminate|reflexivity].
    + constructor.
  - exists (lit " "), "Vertices"%string, []. split; [reflexivity|]. split; [left; reflexivity|]. split; repeat constructor.
  - exists [], "a"%char, (lit "bc 1"). split; [reflexivity|]. split; [constructor|]. split; [unfold small_letter; cbn; lia|]. cbn. intuition discriminate.
Qed.
(** Concrete instances of the refutations, and more: a number that is too large also ends the section; the decimal 1.5 is read as 1 and ends the section;
    the denominator may be missing at the end of the file (then the numerator is taken) or be on the next line. *)
Example C32_instances :
  m_vertices_convex 20 (opened (lit "Vertices" ++ [newline] ++ lit "0 0" ++ [newline] ++ lit "x 1" ++ [newline] ++ lit "5 5" ++ [newline])) =
    Ok (Some ([[0; 0; 1]]%Z, Stream (lit "x 1" ++ [newline] ++ lit "5 5" ++ [newline]) false true)) /\
  m_vertices_convex 20 (opened (lit "Vertices" ++ [newline] ++ lit "7 3000000000" ++ [newline] ++ lit "5 5" ++ [newline])) =
    Ok (Some ([[7; 1]]%Z, Stream ([newline] ++ lit "5 5" ++ [newline]) false true)) /\
  m_vertices_convex 20 (opened (lit "Vertices" ++ [newline] ++ lit "1.5 2" ++ [newline] ++ lit "5 5" ++ [newline])) =
    Ok (Some ([[1; 1]]%Z, Stream (lit ".5 2" ++ [newline] ++ lit "5 5" ++ [newline]) false true)) /\
  m_vertices_convex 20 (opened (lit "Vertices" ++ [newline] ++ lit "1 5/")) = Ok (Some ([[5; 5; 5]]%Z, Stream [] true true)) /\
  m_vertices_convex 20 (opened (lit "Vertices" ++ [newline] ++ lit "1 5/" ++ [newline] ++ lit "3 2" ++ [newline])) = Ok (Some ([[3; 5; 6; 3]]%Z, Stream [] true true)).
Proof. repeat split; vm_compute; reflexivity. Qed.
