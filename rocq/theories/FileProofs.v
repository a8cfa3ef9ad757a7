(** * FileProofs: reading a whole file with vertices and rays. *)
From Coq Require Import List ZArith Arith Bool Ascii String Lia.
From Verif Require Import Base Spec LinAlg ListUtil FmeCore RowLcm IntLcm ArithModel SafeIntModel IntTypes StreamModel StreamProofs ClassesModel ClassesProofs ApplyTheorems Expand ValidityModel SortModel CliModel InputModel InputProofs VertexInput ConstraintModel
  ConstraintInput ConstraintSection PropertiesVertices PropertiesConstraints MapInput OutputModel FileModel.
Import ListNotations.
Open Scope nat_scope.
Open Scope list_scope.

(** ** advanceToNextKeyword *)
Lemma advance_keyword k string t : m_is_keyword (m_trim (first_line t)) = true -> advance_loop (S k) string (opened t) = Ok (m_trim (first_line t), opened t).
Proof. intros H. cbn [advance_loop]. change (ok (opened t)) with true. cbv iota. rewrite peek_line_opened, H. reflexivity. Qed.
Lemma advance_skip k string line t : plain_line line -> advance_loop (S k) string (opened (line ++ newline :: t)) = advance_loop k line (opened t).
Proof.
  intros [Hn HK]. cbn [advance_loop]. change (ok (opened (line ++ newline :: t))) with true. cbv iota. rewrite peek_line_opened, first_line_newline, plain_trim, getline_newline by auto. reflexivity.
Qed.
Lemma advance_noticed k string : exists w s, advance_loop (S (S k)) string (Stream [] true false) = Ok (w, s) /\ ok s = false.
Proof. eexists. eexists. split; reflexivity. Qed.
Lemma advance_end k string t : plain_line t -> exists w s, advance_loop (S (S (S k))) string (opened t) = Ok (w, s) /\ ok s = false.
Proof.
  intros [Hn HK]. set (k2 := S (S k)). cbn [advance_loop]. change (ok (opened t)) with true. cbv iota. rewrite peek_line_opened, first_line_end, plain_trim by auto.
  destruct t as [|c t]; [eexists; eexists; split; reflexivity|]. rewrite getline_end by (auto; discriminate). apply advance_noticed.
Qed.
Lemma line_split (t : text) : ~ In newline t \/ exists line r, t = line ++ newline :: r /\ ~ In newline line.
Proof.
  induction t as [|c t IH]; [left; intros []|]. destruct (ascii_dec c newline) as [->|N]; [right; exists [], t; split; auto|].
  destruct IH as [IH|(line & r & -> & H)]; [left; intros [K|K]; auto|right; exists (c :: line), r; split; auto; intros [K|K]; auto].
Qed.
Lemma plain_or_keyword line : ~ In newline line -> plain_line line \/ m_is_keyword (m_trim line) = true.
Proof.
  intros Hn. destruct (m_is_keyword (m_trim line)) eqn:E; auto. left. split; auto. intros HK. destruct (keyword_line_trim all_words line eq_refl HK) as (w & Hw & Et & _).
  rewrite Et, (word_check (fun w => m_is_keyword (lit w)) _ w Hw eq_refl) in E. discriminate.
Qed.
Lemma advance_total n : forall t string1 string2 k1 k2, length t <= n -> length t + 3 <= k1 -> length t + 3 <= k2 -> advance_loop k1 string1 (opened t) = advance_loop k2 string2 (opened t).
Proof.
  induction n as [|n IH]; intros t string1 string2 k1 k2 Hl H1 H2; (destruct k1 as [|[|[|k1]]]; try lia); (destruct k2 as [|[|[|k2]]]; try lia).
  - destruct t; [|cbn in Hl; lia]. reflexivity.
  - destruct (line_split t) as [N|(line & r & -> & N)].
    + destruct (plain_or_keyword t N) as [HP|HK].
      * destruct HP as [_ HK]. apply plain_trim in HK. set (a := S (S k1)). set (b := S (S k2)). cbn [advance_loop]. change (ok (opened t)) with true. cbv iota.
        rewrite peek_line_opened, first_line_end, HK by auto. destruct t as [|c t]; [reflexivity|]. rewrite getline_end by (auto; discriminate). reflexivity.
      * rewrite !advance_keyword by (rewrite first_line_end by auto; auto). reflexivity.
    + destruct (plain_or_keyword line N) as [HP|HK].
      * rewrite app_length in *. cbn [length] in *. rewrite !advance_skip by auto. apply IH; lia.
      * rewrite !advance_keyword by (rewrite first_line_newline by auto; auto). reflexivity.
Qed.
Lemma m_advance_skip string line t : plain_line line -> m_advance string (opened (line ++ newline :: t)) = m_advance string (opened t).
Proof.
  intros H. unfold m_advance. cbn [rest opened]. rewrite app_length. cbn [length]. replace (length line + S (length t) + 3) with (S (length line + length t + 3)) by lia.
  fold (opened (line ++ newline :: t)). rewrite advance_skip by auto. apply (advance_total (length t)); lia.
Qed.
Lemma m_advance_string string1 string2 t : m_advance string1 (opened t) = m_advance string2 (opened t).
Proof. unfold m_advance. apply (advance_total (length t)); cbn [rest opened]; lia. Qed.
Lemma m_advance_keyword string t : m_is_keyword (m_trim (first_line t)) = true -> m_advance string (opened t) = Ok (m_trim (first_line t), opened t).
Proof. intros H. unfold m_advance. replace (length (rest (opened t)) + 3) with (S (length (rest (opened t)) + 2)) by lia. apply advance_keyword; auto. Qed.
Lemma m_advance_end string t : plain_line t -> exists w s, m_advance string (opened t) = Ok (w, s) /\ ok s = false.
Proof. intros H. unfold m_advance. replace (length (rest (opened t)) + 3) with (S (S (S (length (rest (opened t)))))) by lia. apply advance_end; auto. Qed.
Lemma m_advance_noticed string : exists w s, m_advance string (Stream [] true false) = Ok (w, s) /\ ok s = false.
Proof. apply advance_noticed. Qed.

(** ** Names *)
(** A word that is not a keyword. *)
Definition word (n : text) : Prop := n <> [] /\ Forall (fun c => is_space c = false) n.
Definition free_word (n : text) : Prop := word n /\ forall w, In w all_words -> n <> lit w.
(** Words, separated by spaces (or line ends). *)
Inductive names_text : text -> list text -> Prop :=
| names_none : names_text [] []
| names_cons w n t ns : spaces w -> free_word n -> stops (fun c => negb (is_space c)) t -> names_text t ns -> names_text (w ++ n ++ t) (n :: ns).
Lemma free_word_keyword n : free_word n -> m_is_keyword n = false.
Proof.
  intros [_ H]. rewrite keyword_words. destruct (one_of_words model_words n) eqn:E; auto. apply one_of_in in E as (w & Hw & ->). exfalso. apply (H w); auto. apply model_all; auto.
Qed.
Lemma peek_word_ok w n r : spaces w -> word n -> stops (fun c => negb (is_space c)) r -> m_peek_word (opened (w ++ n ++ r)) = (n, opened (w ++ n ++ r)).
Proof. intros Hw [Hn Hs] Hr. unfold m_peek_word. rewrite tellg_opened. rewrite read_word_ok by auto. reflexivity. Qed.
Lemma names_stop sp line r k names : spaces sp -> keyword_line all_words line -> names_loop (S k) names (opened (sp ++ line ++ newline :: r)) = Ok (names, opened (sp ++ line ++ newline :: r)).
Proof.
  intros Hsp (u & w & v & -> & Hw & Hu & Hv).
  assert (KC := word_check (fun w => m_is_keyword (take_while (fun c => negb (is_space c)) (lit w)) && negb (at_end (take_while (fun c => negb (is_space c)) (lit w)))) _ w Hw eq_refl). cbv beta in KC.
  apply andb_true_iff in KC as [K1 K2]. set (n := take_while (fun c => negb (is_space c)) (lit w)) in *. set (d := drop_while (fun c => negb (is_space c)) (lit w)).
  assert (E : sp ++ (u ++ lit w ++ v) ++ newline :: r = (sp ++ u) ++ n ++ d ++ v ++ newline :: r).
  { rewrite <- !app_assoc. f_equal. f_equal. rewrite (app_assoc n d). unfold n, d. rewrite take_drop. reflexivity. }
  rewrite E. cbn [names_loop]. rewrite peek_word_ok; [| | |].
  - change (ok (opened ((sp ++ u) ++ n ++ d ++ v ++ newline :: r))) with true. cbn [negb]. rewrite K1. reflexivity.
  - apply Forall_app. split; auto. apply blanks_spaces; auto.
  - split; [destruct n; [discriminate|discriminate]|]. eapply Forall_impl; [|apply take_forall]. cbn. intros c Hc. apply negb_true_iff; auto.
  - assert (D : stops (fun c => negb (is_space c)) d) by apply drop_stops. destruct d as [|c d]; [|exact D]. cbn [app]. destruct v as [|c v]; [reflexivity|]. apply Forall_inv in Hv. cbn. rewrite blank_space; auto.
Qed.
Lemma names_loop_ok body names : names_text body names -> forall sp line r k acc, spaces sp -> sp <> [] -> keyword_line all_words line -> length names < k ->
  names_loop k acc (opened (body ++ sp ++ line ++ newline :: r)) = Ok (acc ++ names, opened (sp ++ line ++ newline :: r)).
Proof.
  induction 1 as [|w n t ns Hw Hn Ht HT IH]; intros sp line r k acc Hsp Hne HK Hk; (destruct k as [|k]; [lia|]).
  - rewrite app_nil_r. apply names_stop; auto.
  - rewrite <- !app_assoc. set (after := t ++ sp ++ line ++ newline :: r).
    assert (ST : stops (fun c => negb (is_space c)) after).
    { unfold after. destruct t as [|c t]; [|exact Ht]. destruct sp as [|c sp]; [congruence|]. apply Forall_inv in Hsp. cbn. rewrite Hsp. reflexivity. }
    cbn [names_loop]. rewrite peek_word_ok by (auto; apply Hn). change (ok (opened (w ++ n ++ after))) with true. cbn [negb]. rewrite free_word_keyword by auto.
    rewrite read_word_ok by (auto; apply Hn). assert (A : at_end after = false) by (unfold after; destruct t; [destruct sp; [congruence|reflexivity]|reflexivity]). rewrite A.
    fold (opened after). cbn [length] in Hk. unfold after. rewrite (IH sp line r k (acc ++ [n])) by (auto; lia). rewrite <- app_assoc. reflexivity.
Qed.
Lemma names_count body names : names_text body names -> length names <= length body.
Proof. induction 1 as [|w n t ns Hw [[Hn _] _] Ht HT IH]; auto. rewrite !app_length. cbn [length]. destruct n; [congruence|]. cbn [length]. lia. Qed.
Lemma names_section_ok title body names sp line r : keyword_line names_words title -> names_text body names -> spaces sp -> sp <> [] -> keyword_line all_words line ->
  m_names (opened (title ++ newline :: body ++ sp ++ line ++ newline :: r)) = Ok (names, opened (sp ++ line ++ newline :: r)).
Proof.
  intros HK HB Hsp Hne HL. destruct (keyword_line_trim names_words title eq_refl HK) as (w & Hw & Et & Nn). unfold m_names. rewrite getline_newline by auto.
  change (ok (opened (body ++ sp ++ line ++ newline :: r))) with true. cbn [negb]. rewrite Et, (word_check (fun w => m_is_names (lit w)) _ w Hw eq_refl). cbn [negb].
  apply (names_loop_ok body names HB sp line r _ []); auto. cbn [rest opened]. rewrite app_length. assert (C := names_count body names HB). lia.
Qed.

(** ** The dimension *)
Lemma dimension_loop_ok a r k : ~ In "="%char a -> length a < k -> dimension_loop k (opened (a ++ "="%char :: r)) = Ok (opened ("="%char :: r)).
Proof.
  revert k. induction a as [|c a IH]; intros k Hn Hk; (destruct k as [|k]; [cbn in Hk; lia|]).
  - reflexivity.
  - cbn [app dimension_loop]. change (ok (opened (c :: a ++ "="%char :: r))) with true. cbn [negb]. rewrite peek_opened. cbn [at_end].
    destruct (is_char_spec c "=") as [E|_]; [exfalso; apply Hn; left; exact E|].
    change (Stream (c :: a ++ "="%char :: r) false false) with (opened (c :: a ++ "="%char :: r)). rewrite get_opened. apply IH; [intros K; apply Hn; right; auto|cbn in Hk; lia].
Qed.
Lemma read_size_ok ws ds r old : spaces ws -> ds <> [] -> digits ds -> stops is_digit r -> (digits_value ds <= size_max)%Z -> read_size old (opened (ws ++ ds ++ r)) = (digits_value ds, Stream r (at_end r) false).
Proof.
  intros Hw Hn Hd Hr Hv. unfold read_size. destruct ds as [|d ds]; [congruence|]. assert (Hdd := Forall_inv Hd). cbn beta in Hdd. destruct (digit_sign d Hdd) as [N1 N2].
  rewrite (formatted_skip ws ((d :: ds) ++ r) Hw ltac:(discriminate) (digit_space d Hdd)). unfold scan_integer. cbn [app]. destruct (ascii_dec d "-"); [congruence|]. destruct (ascii_dec d "+"); [congruence|].
  change (d :: ds ++ r) with ((d :: ds) ++ r). rewrite take_app, drop_app, take_stop, drop_stop, app_nil_r by auto. unfold size_max in Hv. destruct (Z.ltb_spec (2 ^ 64 - 1) (digits_value (d :: ds))); [lia|]. reflexivity.
Qed.
Lemma dimension_ok a ws ds r : ~ In "="%char a -> spaces ws -> ds <> [] -> digits ds -> (digits_value ds <= size_max)%Z ->
  m_dimension_of (opened (a ++ "="%char :: ws ++ ds ++ newline :: r)) = Ok (digits_value ds, opened (newline :: r)).
Proof.
  intros Ha Hw Hn Hd Hv. unfold m_dimension_of. rewrite dimension_loop_ok by (auto; cbn [rest opened]; rewrite app_length; cbn; lia). cbn [bind]. rewrite get_opened, read_size_ok by (auto; reflexivity). reflexivity.
Qed.

(** ** Maps *)
(** A map has an image for each of its coordinates, and the last image is the constant. *)
Definition affine_map (m : lmap) : Prop := exists n, map_in (S n) m /\ nth n m [] = [(n, 1%Z)].
Lemma int_fits z : int_range z -> fits 32 z = true.
Proof. unfold int_range, int_min, int_max, fits. intros H. apply andb_true_iff. split; [apply Z.leb_le|apply Z.ltb_lt || apply Z.leb_le]; cbn; lia. Qed.
Lemma factor_int f z : factor_text f z -> int_range z.
Proof. intros H. destruct H as [| | |p z _ H]; auto; unfold int_range, int_min, int_max; lia. Qed.
Lemma image_in names t im : image_text names t im -> Forall (fun tm : term => fst tm < S (length names) /\ fits 32 (snd tm) = true) im.
Proof.
  induction 1 as [|f n z i r im Hf (Hi & _) _ _ _ IH|p z r im _ Hz _ _ IH]; constructor; auto; cbn [fst snd]; split.
  - assert (i < length names) by (apply nth_error_Some; congruence). lia.
  - apply int_fits, (factor_int f); auto.
  - lia.
  - apply int_fits; auto.
Qed.
Lemma images_in names t m : images_text names t m -> Forall (Forall (fun tm : term => fst tm < S (length names) /\ fits 32 (snd tm) = true)) m.
Proof. induction 1 as [t im H _|t im u r ims H _ _ _ _ IH]; constructor; auto; apply (image_in names t); auto. Qed.
Lemma line_affine names line m : map_line names line m -> affine_map (completed names m).
Proof.
  intros (u & t & v & _ & _ & H & _ & Hl & _). exists (length names). unfold completed. split; [split|].
  - rewrite app_length. cbn. lia.
  - apply Forall_app. split; [apply (images_in names t); auto|]. repeat constructor.
  - rewrite <- Hl. rewrite app_nth2, Nat.sub_diag by lia. reflexivity.
Qed.
Lemma written_all {C} (line_of : text -> C -> Prop) lines P : written line_of lines P -> Forall (fun c => exists l, line_of l c) P.
Proof. induction 1; auto. constructor; eauto. Qed.
Lemma follows_all {C} (line_of : text -> C -> Prop) tail Q o : follows line_of tail Q o -> Forall (fun c => exists l, line_of l c) Q.
Proof. intros H. inversion H; subst; auto. constructor; eauto. Qed.
Lemma section_affine names lines P tail Q o : written (map_line names) lines P -> follows (map_line names) tail Q o -> Forall affine_map (map (completed names) (P ++ Q)).
Proof.
  intros HW HF. apply Forall_forall. intros m Hm. apply in_map_iff in Hm as (m0 & <- & Hm). assert (K := proj2 (Forall_app _ _ _) (conj (written_all _ _ _ HW) (follows_all _ _ _ _ HF))).
  rewrite Forall_forall in K. destruct (K m0 Hm) as (l & Hl). apply (line_affine names l); auto.
Qed.
(** ** Specification: files with vertices and rays *)
(** What a file says. *)
Record contents := { c_points : list (list (Z * Z)); c_rays : list (list (Z * Z)); c_names : list text; c_maps : list lmap; c_dimension : option Z }.
Definition nothing : contents := {| c_points := []; c_rays := []; c_names := []; c_maps := []; c_dimension := None |}.
(** The coordinates can be written as integers of type [int] over a common denominator of type [int]. *)
Definition fitting (conical : bool) (P : list (list (Z * Z))) : Prop := exists rows, Forall2 (row_for conical) P rows /\ Forall int_row rows.
(** The fractions of the point, and of the direction, that a row stands for. *)
Definition row_point (row : vec) : list (Z * Z) := map (fun x => (x, last row 0%Z)) (removelast row).
Definition row_direction (row : vec) : list (Z * Z) := map (fun x => (x, 1%Z)) (removelast row).
(** The file from here on ([None]: nothing is left) turns the contents [c] into [c']: a later section replaces an earlier one of the same kind. *)
Inductive file_text : contents -> option text -> contents -> Prop :=
| file_none c : file_text c None c
| file_rest c t : plain_line t -> file_text c (Some t) c
| file_line c line t c' : plain_line line \/ keyword_line end_words line -> file_text c (Some t) c' -> file_text c (Some (line ++ newline :: t)) c'
| file_points c title lines P tail Q o c' : keyword_line plain_convex_words title -> section_lines lines P -> follow tail Q o -> fitting false (P ++ Q) ->
    file_text {| c_points := P ++ Q; c_rays := c_rays c; c_names := c_names c; c_maps := c_maps c; c_dimension := c_dimension c |} o c' ->
    file_text c (Some (title ++ newline :: lines ++ tail)) c'
| file_rays c title lines P tail Q o c' : keyword_line plain_conical_words title -> section_lines lines P -> follow tail Q o -> fitting true (P ++ Q) ->
    file_text {| c_points := c_points c; c_rays := P ++ Q; c_names := c_names c; c_maps := c_maps c; c_dimension := c_dimension c |} o c' ->
    file_text c (Some (title ++ newline :: lines ++ tail)) c'
| file_names c title body names sp line r c' : keyword_line names_words title -> names_text body names -> spaces sp -> sp <> [] -> keyword_line all_words line ->
    file_text {| c_points := c_points c; c_rays := c_rays c; c_names := names; c_maps := c_maps c; c_dimension := c_dimension c |} (Some (sp ++ line ++ newline :: r)) c' ->
    file_text c (Some (title ++ newline :: body ++ sp ++ line ++ newline :: r)) c'
| file_maps c title lines P tail Q o c' : NoDup (c_names c) -> keyword_line maps_words title -> written (map_line (c_names c)) lines P -> follows (map_line (c_names c)) tail Q o ->
    file_text {| c_points := c_points c; c_rays := c_rays c; c_names := c_names c; c_maps := map (completed (c_names c)) (P ++ Q); c_dimension := c_dimension c |} o c' ->
    file_text c (Some (title ++ newline :: lines ++ tail)) c'
| file_dimension c title t a ws ds r c' : keyword_line dimension_words title -> title ++ newline :: t = a ++ "="%char :: ws ++ ds ++ newline :: r -> ~ In "="%char a -> spaces ws ->
    ds <> [] -> digits ds -> (digits_value ds < size_max)%Z ->
    file_text {| c_points := c_points c; c_rays := c_rays c; c_names := c_names c; c_maps := c_maps c; c_dimension := Some (digits_value ds) |} (Some (newline :: r)) c' ->
    file_text c (Some (title ++ newline :: t)) c'
| file_reduced_points c title lines P tail Q o classes c' : keyword_line reduced_convex_words title -> section_lines lines P -> follow tail Q o -> fitting false (P ++ Q) ->
    c_maps c <> [] -> Forall2 (class_of image_step image_load (c_maps c)) (map point_row (P ++ Q)) classes ->
    file_text {| c_points := map row_point (concat classes); c_rays := c_rays c; c_names := c_names c; c_maps := c_maps c; c_dimension := c_dimension c |} o c' ->
    file_text c (Some (title ++ newline :: lines ++ tail)) c'
| file_reduced_rays c title lines P tail Q o classes c' : keyword_line reduced_conical_words title -> section_lines lines P -> follow tail Q o -> fitting true (P ++ Q) ->
    c_maps c <> [] -> Forall2 (class_of image_step image_load (c_maps c)) (map ray_row (P ++ Q)) classes ->
    file_text {| c_points := c_points c; c_rays := map row_direction (concat classes); c_names := c_names c; c_maps := c_maps c; c_dimension := c_dimension c |} o c' ->
    file_text c (Some (title ++ newline :: lines ++ tail)) c'.
Lemma file_affine c o c' : file_text c o c' -> Forall affine_map (c_maps c) -> Forall affine_map (c_maps c').
Proof. intros H. induction H as [| | | | | |c title lines P tail Q o c' Hd HK HW HF HT IH| | |]; auto. intros _. apply IH. apply (section_affine (c_names c) lines P tail Q o); auto. Qed.

(** ** The rows of a class *)
Lemma last_nth (x : vec) n : length x = S n -> last x 0%Z = nth n x 0%Z.
Proof. intros H. destruct (exists_last (l := x)) as (y & z & ->); [intros ->; discriminate|]. rewrite app_length in H. cbn in H. rewrite last_last, app_nth2 by lia. replace (n - length y) with 0 by lia. reflexivity. Qed.
Lemma class_last maps r rows : Forall affine_map maps -> class_of image_step image_load maps r rows -> r <> [] -> (0 <= last r 0)%Z ->
  Forall (fun x => length x = length r /\ Forall int_range x /\ (last x 0 | last r 0)%Z /\ (0 <= last x 0)%Z /\ (last x 0 = 0 <-> last r 0 = 0)%Z) rows.
Proof.
  intros HA HC Hne Hr. assert (CI := class_int Vertex_tag maps r rows HC). destruct HC as (HM & _ & _ & HI & _). rewrite Forall_forall in *. intros x Hx. destruct (CI x Hx) as [L I]. split; auto. split; auto.
  apply HI in Hx. clear - HA HM Hne Hr Hx. assert (G : length x = length r /\ (last x 0 | last r 0)%Z /\ (0 <= last x 0)%Z /\ (last x 0 = 0 <-> last r 0 = 0)%Z); [|apply G].
  destruct (length r) as [|n] eqn:En; [destruct r; [congruence|discriminate]|]. induction Hx as [|m x y _ IH Hm Hs].
  - split; auto. split; [apply Z.divide_refl|]. split; auto. tauto.
  - destruct IH as (L & D & P & Z0). destruct (HA m Hm) as (k & Hk & El). assert (Ek : k = n) by (assert (A := proj1 (HM m Hm)); assert (B := proj1 Hk); lia). subst k.
    destruct Hs as (g & Hg & E & _). assert (Ly : length y = S n) by (rewrite <- (vscale_length g y), E; apply (substitute_length (S n)); auto).
    assert (EL : (g * last y 0 = last x 0)%Z).
    { rewrite !(last_nth _ n) by auto. rewrite <- nth_vscale, E. unfold substitute. rewrite (nth_indep _ _ (image_value [] x)) by (rewrite map_length; assert (B := proj1 Hk); lia).
      rewrite (map_nth (fun im => image_value im x)), El. unfold image_value. cbn [fold_right fst snd]. lia. }
    split; auto. split; [apply (Z.divide_trans _ (last x 0%Z)); auto; exists g; lia|]. split; nia.
Qed.
Lemma common_repeat l (xs : vec) : (0 < l)%Z -> (xs = [] -> l = 1%Z) -> common (map (fun x => (x, l)) xs) = l.
Proof.
  intros Hl Hn. unfold common. rewrite map_map. cbn [snd]. destruct xs as [|x xs]; [rewrite Hn by auto; reflexivity|]. clear Hn.
  induction xs as [|y xs IH]; cbn [map] in *; [unfold rlcm; cbn [fold_right]; rewrite Z.lcm_1_r; lia|]. change (Z.lcm l (rlcm (l :: map (fun _ => l) xs)) = l). rewrite IH. rewrite Z.lcm_diag. lia.
Qed.
Lemma entries_same l (xs : vec) : (0 < l)%Z -> entries l (map (fun x => (x, l)) xs) = xs.
Proof. intros Hl. unfold entries. rewrite map_map. cbn [fst snd]. rewrite <- (map_id xs) at 2. apply map_ext. intros x. rewrite Z.quot_same by lia. lia. Qed.
Lemma row_point_row x : x <> [] -> (0 < last x 0)%Z -> (length x = 1%nat -> last x 0%Z = 1%Z) -> point_row (row_point x) = x.
Proof.
  intros Hne Hl H1. unfold point_row, row_point. rewrite common_repeat; auto; [rewrite entries_same by auto; symmetry; apply app_removelast_last; auto|].
  intros E. apply H1. rewrite (app_removelast_last 0%Z Hne), E. reflexivity.
Qed.
Lemma row_direction_row x : x <> [] -> last x 0%Z = 0%Z -> ray_row (row_direction x) = x.
Proof.
  intros Hne Hl. unfold ray_row, row_direction. destruct (removelast x) as [|y xs] eqn:E.
  - rewrite (app_removelast_last 0%Z Hne), E, Hl. reflexivity.
  - rewrite common_repeat by (lia || congruence). rewrite entries_same by lia. rewrite <- E, <- Hl at 1. symmetry. apply app_removelast_last; auto.
Qed.
Lemma in_removelast {X} (x : X) l : In x (removelast l) -> In x l.
Proof. intros H. destruct l as [|y l]; [destruct H|]. rewrite (app_removelast_last y (l := y :: l)) by discriminate. apply in_app_iff. auto. Qed.
Lemma class_points maps P classes : Forall affine_map maps -> Forall proper P -> Forall2 (class_of image_step image_load maps) (map point_row P) classes ->
  map point_row (map row_point (concat classes)) = concat classes /\ Forall proper (map row_point (concat classes)) /\ Forall int_row (concat classes).
Proof.
  intros HA HP HC. assert (G : Forall (fun x => point_row (row_point x) = x /\ proper (row_point x) /\ int_row x) (concat classes)).
  { apply Forall_concat. remember (map point_row P) as R. revert P HP HeqR. induction HC as [|r c R classes H _ IH]; intros [|p P] HP E; try discriminate; constructor.
    - injection E as -> _. apply Forall_cons_iff in HP as [Hp _]. assert (C := common_pos p Hp). assert (La : last (point_row p) 0%Z = common p) by (unfold point_row; rewrite last_last; reflexivity).
      assert (Hne : point_row p <> []) by (unfold point_row; intros K; apply app_eq_nil in K as [_ K]; discriminate).
      eapply Forall_impl; [|apply (class_last maps _ c HA H Hne); lia]. intros x (L & I & D & P0 & Z0). rewrite La in *. assert (Px : (0 < last x 0)%Z) by lia.
      assert (Nx : x <> []) by (intros ->; destruct (point_row p); [congruence|discriminate]). split; [|split; auto].
      + apply row_point_row; auto. intros L1. unfold point_row in L. rewrite app_length in L. cbn [length] in L. unfold entries in L. rewrite map_length in L. destruct p as [|q p]; [|cbn [length] in L; lia].
        change (common []) with 1%Z in D. apply Z.divide_1_r_nonneg in D; lia.
      + unfold proper, row_point. apply Forall_map. apply Forall_forall. intros z Hz. cbn [fst snd]. unfold int_row in I. rewrite Forall_forall in I. split; [apply I, in_removelast; auto|].
        split; [|lia]. apply I. rewrite (app_removelast_last 0%Z Nx) at 2. apply in_app_iff. right. left. auto.
    - injection E as _ E. apply Forall_cons_iff in HP as [_ HP]. apply (IH P); auto. }
  split; [|split].
  - rewrite map_map. rewrite <- (map_id (concat classes)) at 2. apply map_ext_in. intros x Hx. rewrite Forall_forall in G. apply G; auto.
  - apply Forall_map. eapply Forall_impl; [|exact G]. cbn. tauto.
  - eapply Forall_impl; [|exact G]. cbn. tauto.
Qed.
Lemma class_rays maps P classes : Forall affine_map maps -> Forall proper P -> Forall2 (class_of image_step image_load maps) (map ray_row P) classes ->
  map ray_row (map row_direction (concat classes)) = concat classes /\ Forall proper (map row_direction (concat classes)) /\ Forall int_row (concat classes).
Proof.
  intros HA HP HC. assert (G : Forall (fun x => ray_row (row_direction x) = x /\ proper (row_direction x) /\ int_row x) (concat classes)).
  { apply Forall_concat. remember (map ray_row P) as R. revert P HP HeqR. induction HC as [|r c R classes H _ IH]; intros [|p P] HP E; try discriminate; constructor.
    - injection E as -> _. apply Forall_cons_iff in HP as [Hp _]. assert (La : last (ray_row p) 0%Z = 0%Z) by (unfold ray_row; rewrite last_last; reflexivity).
      assert (Hne : ray_row p <> []) by (unfold ray_row; intros K; apply app_eq_nil in K as [_ K]; discriminate).
      eapply Forall_impl; [|apply (class_last maps _ c HA H Hne); lia]. intros x (L & I & D & P0 & Z0). rewrite La in *. assert (Px : last x 0%Z = 0%Z) by tauto.
      assert (Nx : x <> []) by (intros ->; destruct (ray_row p); [congruence|discriminate]). split; [apply row_direction_row; auto|split; auto].
      unfold proper, row_direction. apply Forall_map. apply Forall_forall. intros z Hz. cbn [fst snd]. unfold int_row in I. rewrite Forall_forall in I. split; [apply I, in_removelast; auto|].
      unfold int_range, int_min, int_max. lia.
    - injection E as _ E. apply Forall_cons_iff in HP as [_ HP]. apply (IH P); auto. }
  split; [|split].
  - rewrite map_map. rewrite <- (map_id (concat classes)) at 2. apply map_ext_in. intros x Hx. rewrite Forall_forall in G. apply G; auto.
  - apply Forall_map. eapply Forall_impl; [|exact G]. cbn. tauto.
  - eapply Forall_impl; [|exact G]. cbn. tauto.
Qed.

(** ** The loop of [vertices] *)
Definition to_inner (c : contents) : inner :=
  {| i_conv := map point_row (c_points c); i_cone := map ray_row (c_rays c); i_dimension := match c_dimension c with Some d => d | None => size_max end; i_names := c_names c; i_maps := c_maps c |}.
Lemma inner_over k check token d s : ok s = false -> inner_loop (S k) check token d s = Ok (Some d).
Proof. intros H. cbn [inner_loop]. rewrite H. reflexivity. Qed.
Lemma inner_end k check token d t : plain_line t -> inner_loop (S k) check token d (opened t) = Ok (Some d).
Proof. intros H. cbn [inner_loop]. change (ok (opened t)) with true. cbn [negb]. destruct (m_advance_end token t H) as (w & s & E & Hs). rewrite E. cbn [bind]. rewrite Hs. reflexivity. Qed.
Lemma inner_noticed k check token d : inner_loop (S k) check token d (Stream [] true false) = Ok (Some d).
Proof. cbn [inner_loop]. change (ok (Stream [] true false)) with true. cbn [negb]. destruct (m_advance_noticed token) as (w & s & E & Hs). rewrite E. cbn [bind]. rewrite Hs. reflexivity. Qed.
Lemma inner_skip k check token d line t : plain_line line -> inner_loop (S k) check token d (opened (line ++ newline :: t)) = inner_loop (S k) check token d (opened t).
Proof. intros H. cbn [inner_loop]. change (ok (opened (line ++ newline :: t))) with true. change (ok (opened t)) with true. cbn [negb]. rewrite m_advance_skip by auto. reflexivity. Qed.
Lemma title_advance words title token t : forallb (fun w => trimmed_word w && m_is_keyword (lit w)) words = true -> keyword_line words title ->
  exists w, In w words /\ m_advance token (opened (title ++ newline :: t)) = Ok (lit w, opened (title ++ newline :: t)) /\ ~ In newline title.
Proof.
  intros HW HK. assert (HT : forallb trimmed_word words = true) by (apply forallb_forall; intros w Hw; rewrite forallb_forall in HW; specialize (HW w Hw); apply andb_true_iff in HW; tauto).
  destruct (keyword_line_trim words title HT HK) as (w & Hw & Et & Nn). exists w. split; auto. split; auto. rewrite forallb_forall in HW. specialize (HW w Hw). apply andb_true_iff in HW as [_ HW].
  rewrite m_advance_keyword; rewrite first_line_newline by auto; rewrite Et; auto.
Qed.
Ltac dispatch w Hw tests :=
  let KC := fresh "KC" in
  assert (KC := word_check tests _ w Hw eq_refl); cbv beta in KC; repeat rewrite andb_true_iff in KC; repeat rewrite negb_true_iff in KC;
  repeat match goal with H : _ /\ _ |- _ => destruct H end; repeat match goal with H : ?a = _ |- context [if ?a then _ else _] => rewrite H end.
Lemma rows_fitting (conical : bool) P rows : Forall proper P -> Forall2 (row_for conical) P rows -> Forall int_row rows -> rows = map (row_of conical) P.
Proof. intros H1 H2 H3. apply (rows_rows_of conical P rows); auto. Qed.
Lemma follow_proper tail Q o : follow tail Q o -> Forall proper Q.
Proof.
  intros HF. inversion HF as [t P' HT| | |]; subst; auto. inversion HT as [u Hu|lab l pts Hlab Hl]; subst; auto. constructor; auto. apply (coordinates_pts l pts Hl).
Qed.
Lemma section_proper lines P tail Q o : section_lines lines P -> follow tail Q o -> Forall proper (P ++ Q).
Proof. intros HL HF. apply Forall_app; split; [apply (section_lines_proper lines); auto|apply (follow_proper tail Q o); auto]. Qed.
Lemma inner_ok c o c' : file_text c o c' -> Forall affine_map (c_maps c) ->
  exists fuel0, forall fuel, fuel0 <= fuel -> forall token s, left_over s o -> inner_loop fuel false token (to_inner c) s = Ok (Some (to_inner c')).
Proof.
  intros H. induction H as [c|c t HP|c line t c' HP HT IH|c title lines P tail Q o c' HK HL HF HR HT IH|c title lines P tail Q o c' HK HL HF HR HT IH|c title body names sp line r c' HK HB Hsp Hne HL HT IH|
    c title lines P tail Q o c' Hd HK HW HF HT IH|c title t a ws ds r c' HK E Ha Hws Hn Hds Hv HT IH|c title lines P tail Q o classes c' HK HL HF HR HM HC HT IH|c title lines P tail Q o classes c' HK HL HF HR HM HC HT IH]; intros HAf.
  - exists 1. intros [|fuel] Hf token s Hs; [lia|]. apply inner_over. exact Hs.
  - exists 1. intros fuel Hf token s Hs. destruct fuel as [|fuel]; [lia|]. destruct Hs as [->|[-> ->]]; [apply inner_end; auto|apply inner_noticed].
  - destruct (IH HAf) as (f0 & IH'). clear IH. rename IH' into IH. exists (S (S f0)). intros fuel Hf token s0 Hs0. destruct fuel as [|fuel]; [lia|]. destruct Hs0 as [->|[E _]]; [|destruct line; discriminate].
    destruct HP as [HP|HP]; [rewrite inner_skip by auto; apply IH; [lia|left; reflexivity]|].
    destruct (title_advance end_words line token t eq_refl HP) as (w & Hw & E & Nn). cbn [inner_loop]. change (ok (opened (line ++ newline :: t))) with true. cbn [negb]. rewrite E. cbn [bind].
    change (ok (opened (line ++ newline :: t))) with true. cbn [negb].
    dispatch w Hw (fun w => negb (m_is_dimension (lit w)) && negb (m_is_names (lit w)) && negb (m_is_maps (lit w)) && negb (m_is_convex (lit w)) && negb (m_is_reduced_convex (lit w)) && negb (m_is_conical (lit w)) && negb (m_is_reduced_conical (lit w))).
    rewrite getline_newline by auto. apply IH; [lia|left; reflexivity].
  - destruct (IH HAf) as (f0 & IH'). clear IH. rename IH' into IH. destruct HR as (rows & HR & HI). destruct (C31_convex_section title lines P tail Q o rows) as (f1 & K); auto.
    { destruct HK as (u & w & v & -> & Hw & Hu & Hv). exists u, w, v. split; auto. split; auto. apply in_app_iff. left. auto. }
    exists (S (f0 + f1)). intros fuel Hf token s0 Hs0. destruct fuel as [|fuel]; [lia|]. destruct Hs0 as [->|[E _]]; [|destruct title; discriminate].
    destruct (title_advance plain_convex_words title token (lines ++ tail) eq_refl HK) as (w & Hw & E & Nn). cbn [inner_loop]. change (ok (opened (title ++ newline :: lines ++ tail))) with true. cbn [negb]. rewrite E. cbn [bind].
    change (ok (opened (title ++ newline :: lines ++ tail))) with true. cbn [negb].
    dispatch w Hw (fun w => negb (m_is_dimension (lit w)) && negb (m_is_names (lit w)) && negb (m_is_maps (lit w)) && m_is_convex (lit w)).
    unfold m_read_vertices. destruct (K (S fuel) ltac:(lia)) as (s & E2 & Hs). unfold m_vertices_convex in E2. rewrite E2. cbn [bindo bind fst snd].
    assert (ER : rows = map point_row (P ++ Q)) by (apply (rows_fitting false); auto; apply Forall_app; split; [apply (section_lines_proper lines); auto|apply (follow_proper tail Q o); auto]).
    rewrite ER. exact (IH fuel ltac:(lia) (lit w) s Hs).
  - destruct (IH HAf) as (f0 & IH'). clear IH. rename IH' into IH. destruct HR as (rows & HR & HI). destruct (C31_conical_section title lines P tail Q o rows) as (f1 & K); auto.
    { destruct HK as (u & w & v & -> & Hw & Hu & Hv). exists u, w, v. split; auto. split; auto. apply in_app_iff. left. auto. }
    exists (S (f0 + f1)). intros fuel Hf token s0 Hs0. destruct fuel as [|fuel]; [lia|]. destruct Hs0 as [->|[E _]]; [|destruct title; discriminate].
    destruct (title_advance plain_conical_words title token (lines ++ tail) eq_refl HK) as (w & Hw & E & Nn). cbn [inner_loop]. change (ok (opened (title ++ newline :: lines ++ tail))) with true. cbn [negb]. rewrite E. cbn [bind].
    change (ok (opened (title ++ newline :: lines ++ tail))) with true. cbn [negb].
    dispatch w Hw (fun w => negb (m_is_dimension (lit w)) && negb (m_is_names (lit w)) && negb (m_is_maps (lit w)) && negb (m_is_convex (lit w)) && negb (m_is_reduced_convex (lit w)) && m_is_conical (lit w)).
    unfold m_read_vertices. destruct (K (S fuel) ltac:(lia)) as (s & E2 & Hs). unfold m_vertices_conical in E2. rewrite E2. cbn [bindo bind fst snd].
    assert (ER : rows = map ray_row (P ++ Q)) by (apply (rows_fitting true); auto; apply Forall_app; split; [apply (section_lines_proper lines); auto|apply (follow_proper tail Q o); auto]).
    rewrite ER. exact (IH fuel ltac:(lia) (lit w) s Hs).
  - destruct (IH HAf) as (f0 & IH'). clear IH. rename IH' into IH. exists (S f0). intros fuel Hf token s0 Hs0. destruct fuel as [|fuel]; [lia|]. destruct Hs0 as [->|[E _]]; [|destruct title; discriminate].
    destruct (title_advance names_words title token (body ++ sp ++ line ++ newline :: r) eq_refl HK) as (w & Hw & E & Nn). cbn [inner_loop].
    change (ok (opened (title ++ newline :: body ++ sp ++ line ++ newline :: r))) with true. cbn [negb]. rewrite E. cbn [bind].
    change (ok (opened (title ++ newline :: body ++ sp ++ line ++ newline :: r))) with true. cbn [negb].
    dispatch w Hw (fun w => negb (m_is_dimension (lit w)) && m_is_names (lit w)).
    rewrite (names_section_ok title body names sp line r) by auto. cbn [bind fst snd]. apply IH; [lia|left; reflexivity].
  - destruct (IH (section_affine (c_names c) lines P tail Q o HW HF)) as (f0 & IH'). clear IH. rename IH' into IH. destruct (maps_section_ok (c_names c) title lines P tail Q o Hd HK HW HF) as (f1 & K).
    exists (S (f0 + f1)). intros fuel Hf token s0 Hs0. destruct fuel as [|fuel]; [lia|]. destruct Hs0 as [->|[E _]]; [|destruct title; discriminate].
    destruct (title_advance maps_words title token (lines ++ tail) eq_refl HK) as (w & Hw & E & Nn). cbn [inner_loop]. change (ok (opened (title ++ newline :: lines ++ tail))) with true. cbn [negb]. rewrite E. cbn [bind].
    change (ok (opened (title ++ newline :: lines ++ tail))) with true. cbn [negb].
    dispatch w Hw (fun w => negb (m_is_dimension (lit w)) && negb (m_is_names (lit w)) && m_is_maps (lit w)).
    destruct (K (S fuel) ltac:(lia)) as (s & E2 & Hs). change (i_names (to_inner c)) with (c_names c). rewrite E2. cbn [bindo bind fst snd]. exact (IH fuel ltac:(lia) (lit w) s Hs).
  - destruct (IH HAf) as (f0 & IH'). clear IH. rename IH' into IH. exists (S f0). intros fuel Hf token s0 Hs0. destruct fuel as [|fuel]; [lia|]. destruct Hs0 as [->|[E' _]]; [|destruct title; discriminate].
    destruct (title_advance dimension_words title token t eq_refl HK) as (w & Hw & E' & Nn). cbn [inner_loop]. change (ok (opened (title ++ newline :: t))) with true. cbn [negb]. rewrite E'. cbn [bind].
    change (ok (opened (title ++ newline :: t))) with true. cbn [negb].
    dispatch w Hw (fun w => m_is_dimension (lit w)). rewrite E, dimension_ok by (auto; lia). cbn [bind fst snd]. apply IH; [lia|left; reflexivity].
  - destruct (IH HAf) as (f0 & IH'). clear IH. rename IH' into IH. destruct HR as (rows & HR & HI). destruct (C31_convex_section title lines P tail Q o rows) as (f1 & K); auto.
    { destruct HK as (u & w & v & -> & Hw & Hu & Hv). exists u, w, v. split; auto. split; auto. apply in_app_iff. right. auto. }
    assert (HP := section_proper lines P tail Q o HL HF). destruct (expand_ok Vertex_tag (c_maps c) (map point_row (P ++ Q)) classes HM HC) as (f2 & KE). destruct (class_points (c_maps c) (P ++ Q) classes HAf HP HC) as (EB & _ & _).
    exists (S (f0 + f1 + f2)). intros fuel Hf token s0 Hs0. destruct fuel as [|fuel]; [lia|]. destruct Hs0 as [->|[E _]]; [|destruct title; discriminate].
    destruct (title_advance reduced_convex_words title token (lines ++ tail) eq_refl HK) as (w & Hw & E & Nn). cbn [inner_loop]. change (ok (opened (title ++ newline :: lines ++ tail))) with true. cbn [negb]. rewrite E. cbn [bind].
    change (ok (opened (title ++ newline :: lines ++ tail))) with true. cbn [negb].
    dispatch w Hw (fun w => negb (m_is_dimension (lit w)) && negb (m_is_names (lit w)) && negb (m_is_maps (lit w)) && negb (m_is_convex (lit w)) && m_is_reduced_convex (lit w)).
    unfold m_read_reduced_vertices. destruct (K (S fuel) ltac:(lia)) as (s & E2 & Hs). unfold m_vertices_convex in E2. rewrite E2. cbn [bindo bind fst snd].
    assert (ER : rows = map point_row (P ++ Q)) by (apply (rows_fitting false); auto).
    rewrite ER. change (i_maps (to_inner c)) with (c_maps c). rewrite (KE (S fuel)) by lia. cbn [bindo bind fst snd].
    assert (IHs := IH fuel ltac:(lia) (lit w) s Hs). unfold to_inner at 1 in IHs. cbn [c_points c_rays c_names c_maps c_dimension] in IHs. rewrite EB in IHs. exact IHs.
  - destruct (IH HAf) as (f0 & IH'). clear IH. rename IH' into IH. destruct HR as (rows & HR & HI). destruct (C31_conical_section title lines P tail Q o rows) as (f1 & K); auto.
    { destruct HK as (u & w & v & -> & Hw & Hu & Hv). exists u, w, v. split; auto. split; auto. apply in_app_iff. right. auto. }
    assert (HP := section_proper lines P tail Q o HL HF). destruct (expand_ok Vertex_tag (c_maps c) (map ray_row (P ++ Q)) classes HM HC) as (f2 & KE). destruct (class_rays (c_maps c) (P ++ Q) classes HAf HP HC) as (EB & _ & _).
    exists (S (f0 + f1 + f2)). intros fuel Hf token s0 Hs0. destruct fuel as [|fuel]; [lia|]. destruct Hs0 as [->|[E _]]; [|destruct title; discriminate].
    destruct (title_advance reduced_conical_words title token (lines ++ tail) eq_refl HK) as (w & Hw & E & Nn). cbn [inner_loop]. change (ok (opened (title ++ newline :: lines ++ tail))) with true. cbn [negb]. rewrite E. cbn [bind].
    change (ok (opened (title ++ newline :: lines ++ tail))) with true. cbn [negb].
    dispatch w Hw (fun w => negb (m_is_dimension (lit w)) && negb (m_is_names (lit w)) && negb (m_is_maps (lit w)) && negb (m_is_convex (lit w)) && negb (m_is_reduced_convex (lit w)) && negb (m_is_conical (lit w)) && m_is_reduced_conical (lit w)).
    unfold m_read_reduced_vertices. destruct (K (S fuel) ltac:(lia)) as (s & E2 & Hs). unfold m_vertices_conical in E2. rewrite E2. cbn [bindo bind fst snd].
    assert (ER : rows = map ray_row (P ++ Q)) by (apply (rows_fitting true); auto).
    rewrite ER. change (i_maps (to_inner c)) with (c_maps c). rewrite (KE (S fuel)) by lia. cbn [bindo bind fst snd].
    assert (IHs := IH fuel ltac:(lia) (lit w) s Hs). unfold to_inner at 1 in IHs. cbn [c_points c_rays c_names c_maps c_dimension] in IHs. rewrite EB in IHs. exact IHs.
Qed.
