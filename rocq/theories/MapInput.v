(** * MapInput: the maps of an input file. *)
From Coq Require Import List ZArith Arith Bool Ascii String Lia.
From Verif Require Import Base Spec ListUtil ArithModel SafeIntModel IntTypes StreamModel StreamProofs ClassesModel InputModel InputProofs VertexInput ConstraintModel ConstraintInput ConstraintSection PropertiesVertices PropertiesConstraints.
Import ListNotations.
Open Scope nat_scope.
Open Scope list_scope.

(** ** Specification *)
(** A name without signs. *)
Definition unsigned (n : text) : Prop := Forall (fun c => is_sign c = false) n.
(** The end of the text, or a sign. *)
Definition next_sign (t : text) : Prop := match t with [] => True | c :: _ => is_sign c = true end.
(** An affine form as in "x1-2x3+4x4-1": the pair (i, z) is z times variable i; i is the number of variables for a constant. *)
Inductive image_text (names : list text) : text -> image -> Prop :=
| image_none : image_text names [] []
| image_variable f n z i r im : factor_text f z -> variable names n i -> unsigned n -> next_sign r -> image_text names r im -> image_text names (f ++ n ++ r) ((i, z) :: im)
| image_constant p z r im : integer_text p z -> int_range z -> next_sign r -> image_text names r im -> image_text names (p ++ r) ((length names, z) :: im).
(** One form per variable, separated by spaces and tabs. *)
Definition gap (u : text) : Prop := Forall (fun c => c = blank \/ c = tab) u.
Inductive images_text (names : list text) : text -> lmap -> Prop :=
| images_one token im : image_text names token im -> token <> [] -> images_text names token [im]
| images_more token im u t ims : image_text names token im -> token <> [] -> gap u -> u <> [] -> images_text names t ims -> images_text names (token ++ u ++ t) (im :: ims).
(** All keywords. *)
Definition all_words : list string := convex_words ++ conical_words ++ other_words ++ end_words ++ ["Reduced"%string].
Definition plain_line (line : text) : Prop := ~ In newline line /\ ~ keyword_line all_words line.
(** The line of a map. *)
Definition map_line (names : list text) (line : text) (m : lmap) : Prop :=
  exists u t v, line = u ++ t ++ v /\ blanks u /\ images_text names t m /\ blanks v /\ length m = length names /\ stops is_eol line /\ plain_line line.

(** ** Keywords *)
Lemma trim_split line : exists u v, line = u ++ m_trim line ++ v /\ blanks u /\ blanks v.
Proof.
  unfold m_trim. destruct (drop_suffix is_blank line) as (u & E & Hu). set (t := drop_while is_blank line) in *.
  destruct (drop_suffix is_blank (rev t)) as (v & E' & Hv). set (w := drop_while is_blank (rev t)) in *. exists u, (rev v). split; [|split; [exact Hu|apply Forall_rev; exact Hv]].
  rewrite E at 1. f_equal. rewrite <- (rev_involutive t), E', rev_app_distr. reflexivity.
Qed.
Lemma one_of_in words t : one_of_words words t = true -> exists w, In w words /\ t = lit w.
Proof.
  intros H. unfold one_of_words in H. apply existsb_exists in H as (w & Hw & E). exists w. split; auto. destruct (text_eqb_spec t (lit w)); [auto|discriminate].
Qed.
Lemma in_one_of words w : In w words -> one_of_words words (lit w) = true.
Proof. intros H. unfold one_of_words. apply existsb_exists. exists w. split; auto. destruct (text_eqb_spec (lit w) (lit w)); congruence. Qed.
Definition model_words : list string := ltac:(let x := eval cbv [m_is_conical m_is_reduced_something m_is_reduced_conical m_is_convex m_is_reduced_convex m_is_dimension m_is_equations
  m_is_inequalities m_is_reduced_inequalities m_is_maps m_is_names m_is_end m_is_keyword] in m_is_keyword in
  let rec go f := lazymatch f with
    | (fun t => one_of_words ?l t) => constr:(l)
    | (fun t => @?a t || one_of_words ?l t) => let r := go a in constr:(r ++ l)
    end in let r := go x in exact r).
Lemma keyword_words t : m_is_keyword t = one_of_words model_words t.
Proof.
  assert (A : forall a b t, one_of_words (a ++ b) t = one_of_words a t || one_of_words b t) by (intros; unfold one_of_words; apply existsb_app).
  unfold model_words. rewrite !A. reflexivity.
Qed.
Lemma model_all w : In w model_words -> In w all_words.
Proof.
  intros H. assert (K := word_check (fun w => existsb (String.eqb w) all_words) model_words w H eq_refl). cbv beta in K. apply existsb_exists in K as (w' & H' & E).
  apply String.eqb_eq in E. subst w'. exact H'.
Qed.
Lemma plain_trim line : ~ keyword_line all_words line -> m_is_keyword (m_trim line) = false.
Proof.
  intros H. destruct (m_is_keyword (m_trim line)) eqn:E; auto. exfalso. apply H. rewrite keyword_words in E. apply one_of_in in E as (w & Hw & E).
  destruct (trim_split line) as (u & v & E2 & Hu & Hv). exists u, w, v. rewrite <- E. split; auto. split; auto. apply model_all; auto.
Qed.
Lemma plain_blank u : blanks u -> plain_line u.
Proof.
  intros Hu. split; [apply blanks_no_newline; auto|]. intros HK. destruct (keyword_line_trim all_words u eq_refl HK) as (w & Hw & E & _). rewrite trim_blanks in E by auto.
  assert (K := word_check (fun w => negb (at_end (lit w))) _ w Hw eq_refl). cbv beta in K. rewrite <- E in K. discriminate.
Qed.

(** ** Images *)
Lemma extract_factor_ok f z t : factor_text f z -> stops is_digit t -> (f = [] -> stops is_factor t) -> m_extract_factor (f ++ t) = Ok (z, t).
Proof.
  intros Hf Ht Hn. inversion Hf as [| | |p z' Hp Hz]; subst.
  - cbn [app]. specialize (Hn eq_refl). destruct t as [|c t]; [reflexivity|]. cbn in Hn. cbn [m_extract_factor]. rewrite Hn. reflexivity.
  - cbn [app lit list_ascii_of_string m_extract_factor]. change (is_factor "+"%char) with true. change (is_sign "+"%char) with true. cbv iota. rewrite take_stop, drop_stop by auto. reflexivity.
  - cbn [app lit list_ascii_of_string m_extract_factor]. change (is_factor "-"%char) with true. change (is_sign "-"%char) with true. cbv iota. rewrite take_stop, drop_stop by auto. reflexivity.
  - inversion Hp as [ds Hne Hd|ds Hne Hd|ds Hne Hd]; subst.
    + destruct f as [|c ds]; [congruence|]. assert (Hc : is_digit c = true) by (apply Forall_inv in Hd; exact Hd).
      assert (F : is_factor c = true) by (unfold is_factor; rewrite Hc; apply orb_true_r). assert (S : is_sign c = false).
      { unfold is_sign. destruct (digit_sign c Hc) as [N1 N2]. destruct (is_char_spec c "+"); [congruence|]. destruct (is_char_spec c "-"); [congruence|reflexivity]. }
      cbn [app m_extract_factor]. rewrite F, S. change (c :: ds ++ t) with ((c :: ds) ++ t). rewrite take_app, drop_app, take_stop, drop_stop, app_nil_r by auto.
      rewrite (to_int_integer _ _ Hp Hz). reflexivity.
    + cbn [app m_extract_factor]. change (is_factor "+"%char) with true. change (is_sign "+"%char) with true. cbv iota. rewrite take_app, drop_app, take_stop, drop_stop, app_nil_r by auto.
      rewrite (to_int_integer _ _ Hp Hz). reflexivity.
    + cbn [app m_extract_factor]. change (is_factor "-"%char) with true. change (is_sign "-"%char) with true. cbv iota. rewrite take_app, drop_app, take_stop, drop_stop, app_nil_r by auto.
      rewrite (to_int_integer _ _ Hp Hz). reflexivity.
Qed.
Lemma sign_digit c : is_sign c = true -> is_digit c = false.
Proof.
  unfold is_sign. destruct (is_char_spec c "+") as [E|_]; [intros _; rewrite E; reflexivity|]. destruct (is_char_spec c "-") as [E|_]; [intros _; rewrite E; reflexivity|discriminate].
Qed.
Lemma extract_name_ok n r : name_text n -> unsigned n -> next_sign r -> m_extract_name (n ++ r) = (n, r).
Proof.
  intros [_ Hn] Hu Hr. destruct n as [|c n]; [destruct Hn|]. destruct Hn as (Hf & _ & _). change ((c :: n) ++ r) with (c :: n ++ r). cbn [m_extract_name]. rewrite Hf. change (c :: n ++ r) with ((c :: n) ++ r).
  assert (U : Forall (fun c => negb (is_sign c) = true) (c :: n)) by (eapply Forall_impl; [|exact Hu]; cbn; intros d ->; reflexivity).
  assert (R : stops (fun c => negb (is_sign c)) r) by (destruct r; cbn in *; auto; rewrite Hr; reflexivity).
  rewrite take_app, drop_app, take_stop, drop_stop, app_nil_r by auto. reflexivity.
Qed.
Lemma extract_name_none r : next_sign r -> m_extract_name r = ([], r).
Proof. intros H. destruct r as [|c r]; [reflexivity|]. cbn in *. unfold is_factor. rewrite H. reflexivity. Qed.
Lemma image_loop_ok names token im : NoDup names -> image_text names token im -> forall fuel acc, length token <= fuel -> image_loop fuel names acc token = Ok (acc ++ im).
Proof.
  intros Hd H. induction H as [|f n z i r im Hf Hv Hu Hr HT IH|p z r im Hp Hz Hr HT IH]; intros fuel acc Hl.
  - rewrite app_nil_r. destruct fuel; reflexivity.
  - destruct Hv as [Hi Hn]. destruct (name_stops n r Hn) as [Hne Hs]. destruct n as [|c n]; [congruence|]. rewrite !app_length in Hl. cbn [length] in Hl. destruct fuel as [|fuel]; [lia|].
    assert (E : exists d t, f ++ (c :: n) ++ r = d :: t) by (destruct f; cbn [app]; eexists; eexists; reflexivity).
    destruct E as (d & t & E). cbn [image_loop]. rewrite E. cbv iota. rewrite <- E. clear E.
    rewrite (extract_factor_ok f z ((c :: n) ++ r) Hf); auto.
    + cbn [bind]. rewrite extract_name_ok by auto. rewrite (find_name_ok names (c :: n) i Hd Hi). rewrite IH by lia. rewrite <- app_assoc. reflexivity.
    + cbn [app stops] in *. unfold is_factor in Hs. apply orb_false_iff in Hs. tauto.
  - destruct (integer_text_start p z Hp) as [Hne _]. destruct p as [|d p]; [congruence|]. rewrite app_length in Hl. cbn [length] in Hl. destruct fuel as [|fuel]; [lia|].
    cbn [image_loop app]. change (d :: p ++ r) with ((d :: p) ++ r).
    rewrite (extract_factor_ok (d :: p) z r (factor_integer _ _ Hp Hz)).
    + cbn [bind]. rewrite extract_name_none by auto. rewrite IH by lia. rewrite <- app_assoc. reflexivity.
    + destruct r as [|c r]; cbn in *; auto. apply sign_digit; auto.
    + discriminate.
Qed.
Lemma image_ok names token im : NoDup names -> image_text names token im -> token <> [] -> m_image token names = Ok im.
Proof.
  intros Hd H Hn. unfold m_image. destruct token as [|c token]; [congruence|]. exact (image_loop_ok names _ im Hd H (length (c :: token)) [] (Nat.le_refl _)).
Qed.
Lemma next_sign_space r : next_sign r -> stops is_space r.
Proof. destruct r as [|c r]; auto. cbn. intros H. apply factor_space. unfold is_factor. rewrite H. reflexivity. Qed.
Lemma image_chars names token im : image_text names token im -> Forall (fun c => is_space c = false) token /\ (token <> [] -> im <> []).
Proof.
  induction 1 as [|f n z i r im Hf [Hi [Hn _]] Hu Hr HT [IH _]|p z r im Hp Hz Hr HT [IH _]].
  - split; [constructor|congruence].
  - split; [|discriminate]. rewrite !Forall_app. split; [|auto]. apply (factor_chars f z Hf).
  - split; [|discriminate]. rewrite !Forall_app. split; [|auto]. apply (integer_chars p z Hp).
Qed.

(** ** The line of a map *)
Lemma images_first names t ims : images_text names t ims -> exists c t', t = c :: t' /\ is_space c = false.
Proof.
  intros H. assert (K : exists token t', t = token ++ t' /\ token <> [] /\ Forall (fun c => is_space c = false) token).
  { inversion H as [token im Hi Hn|token im u t' ims' Hi Hn Hu Hne HT]; subst.
    - exists t, []. rewrite app_nil_r. split; auto. split; auto. apply (image_chars names t im Hi).
    - exists token, (u ++ t'). split; auto. split; auto. apply (image_chars names token im Hi). }
  destruct K as ([|c token] & t' & -> & Hn & HF); [congruence|]. exists c, (token ++ t'). split; auto. apply Forall_inv in HF. exact HF.
Qed.
Lemma gap_spaces u : gap u -> spaces u /\ stops is_eol u /\ blanks u.
Proof.
  intros H. split; [|split].
  - eapply Forall_impl; [|exact H]. cbn. intros c [->| ->]; reflexivity.
  - destruct u as [|c u]; cbn; auto. apply Forall_inv in H. destruct H as [->| ->]; reflexivity.
  - eapply Forall_impl; [|exact H]. cbn. intros c [->| ->]; reflexivity.
Qed.
Lemma set_images (done : lmap) im k : set (done ++ repeat [] (S k)) (length done) im = Ok ((done ++ [im]) ++ repeat [] k).
Proof.
  unfold set. rewrite app_length, repeat_length. destruct (Nat.ltb_spec (length done) (length done + S k)); [|lia]. f_equal.
  clear H. induction done as [|x done IH]; [reflexivity|]. cbn [app length upd]. rewrite IH. reflexivity.
Qed.
Lemma end_of_line_at_end (r : text) : m_is_end_of_line (Stream r (at_end r) false) = (match r with [] => false | c :: _ => is_eol c end, opened r).
Proof. destruct r; reflexivity. Qed.
Lemma map_loop_done names k (done : lmap) r : map_loop (S k) names (length done) done (Stream r (at_end r) false) = Ok (done, opened r).
Proof.
  cbn [map_loop]. change (ok (Stream r (at_end r) false)) with true. cbn [negb]. rewrite end_of_line_at_end. destruct r as [|c r]; [reflexivity|].
  destruct (is_eol c); [reflexivity|]. rewrite is_end_of_file_opened. cbn [at_end]. rewrite Nat.ltb_irrefl. reflexivity.
Qed.
Lemma map_round names k done m r u t : spaces u -> stops is_eol u -> (exists c t', t = c :: t' /\ is_space c = false) -> r = u ++ t ->
  map_loop (S k) names (length done) (done ++ repeat [] (S m)) (Stream r (at_end r) false) =
    (let '(token, s) := read_word [] (opened (u ++ t)) in do im <- m_image token names; map_loop k names (S (length done)) ((done ++ [im]) ++ repeat [] m) s).
Proof.
  intros Hu He (c & t' & -> & Hc) ->. cbn [map_loop]. change (ok (Stream (u ++ c :: t') (at_end (u ++ c :: t')) false)) with true. cbn [negb]. rewrite end_of_line_at_end.
  assert (F : exists d w, u ++ c :: t' = d :: w /\ is_eol d = false).
  { destruct u as [|d u]; [exists c, t'; split; auto; apply space_eol; auto|]. exists d, (u ++ c :: t'). split; auto. }
  destruct F as (d & w & -> & Hd). rewrite Hd, is_end_of_file_opened. cbn [at_end]. rewrite app_length, repeat_length. destruct (Nat.ltb_spec (length done) (length done + S m)); [|lia]. cbn [negb].
  destruct (read_word [] (opened (d :: w))) as [token s]. destruct (m_image token names) as [im| |]; [|reflexivity..]. cbn [bind]. rewrite set_images. reflexivity.
Qed.
Lemma map_loop_ok names t ims : NoDup names -> images_text names t ims -> forall u v r done k, spaces u -> stops is_eol u -> blanks v -> line_end r -> length ims <= k ->
  map_loop (k + 1) names (length done) (done ++ repeat [] (length ims)) (Stream (u ++ t ++ v ++ r) (at_end (u ++ t ++ v ++ r)) false) = Ok (done ++ ims, opened (v ++ r)).
Proof.
  intros Hd H. induction H as [token im Hi Hn|token im u2 t ims Hi Hn Hu2 Hne HT IH]; intros u v r done k Hu He Hv Hr Hk.
  - cbn [length] in *. destruct k as [|k]; [lia|]. change (S k + 1) with (S (k + 1)). destruct (image_chars names token im Hi) as [HC _].
    rewrite (map_round names (k + 1) done 0 _ u (token ++ v ++ r) Hu He); auto.
    2: { destruct token as [|c token]; [congruence|]. exists c, (token ++ v ++ r). split; auto. apply Forall_inv in HC. exact HC. }
    assert (ST : stops (fun c => negb (is_space c)) (v ++ r)).
    { destruct v as [|c v]; [destruct r as [|c r]; cbn in *; auto; rewrite Hr; reflexivity|]. apply Forall_inv in Hv. cbn. rewrite blank_space; auto. }
    rewrite (read_word_ok u token (v ++ r) []) by auto.
    rewrite (image_ok names token im) by auto. cbn [bind repeat]. rewrite app_nil_r. replace (S (length done)) with (length (done ++ [im])) by (rewrite app_length; cbn; lia).
    replace (k + 1) with (S k) by lia. apply map_loop_done.
  - cbn [length] in *. destruct k as [|k]; [lia|]. change (S k + 1) with (S (k + 1)). destruct (image_chars names token im Hi) as [HC _]. destruct (gap_spaces u2 Hu2) as (G1 & G2 & G3).
    rewrite <- !app_assoc. rewrite (map_round names (k + 1) done (length ims) _ u (token ++ u2 ++ t ++ v ++ r) Hu He); auto.
    2: { destruct token as [|c token]; [congruence|]. exists c, (token ++ u2 ++ t ++ v ++ r). split; auto. apply Forall_inv in HC. exact HC. }
    assert (ST : stops (fun c => negb (is_space c)) (u2 ++ t ++ v ++ r)).
    { destruct u2 as [|c u2]; [congruence|]. apply Forall_inv in G1. cbn. rewrite G1. reflexivity. }
    rewrite (read_word_ok u token (u2 ++ t ++ v ++ r) []) by auto.
    rewrite (image_ok names token im) by auto. cbn [bind]. replace (S (length done)) with (length (done ++ [im])) by (rewrite app_length; cbn; lia).
    rewrite (IH u2 v r (done ++ [im]) k) by (auto; lia). rewrite <- app_assoc. reflexivity.
Qed.
Lemma blanks_drop u t : blanks u -> stops is_blank t -> drop_while is_blank (u ++ t) = t.
Proof. intros Hu Ht. rewrite drop_app by exact Hu. apply drop_stop; auto. Qed.
Lemma m_map_ok names line m r : NoDup names -> map_line names line m -> line_end r -> exists v, blanks v /\ m_map (opened (line ++ r)) names = Ok (m, opened (v ++ r)).
Proof.
  intros Hd (u & t & v & -> & Hu & HT & Hv & Hl & _) Hr. exists v. split; auto. unfold m_map. unfold opened at 1. rewrite skip_whitespace_ok by discriminate. cbn [bind].
  rewrite <- !app_assoc. destruct (images_first names t m HT) as (c & t' & E & Hc).
  rewrite blanks_drop by (auto; rewrite E; cbn; apply space_blank; auto).
  rewrite <- Hl. assert (K := map_loop_ok names t m Hd HT [] v r [] (length m) (Forall_nil _) I Hv Hr (Nat.le_refl _)). cbn [app length] in K.
  rewrite E in K |- *. exact K.
Qed.
Lemma images_nonempty names t ims : images_text names t ims -> ims <> [] /\ forallb empty_image ims = false.
Proof.
  intros H. inversion H as [token im Hi Hn|token im u t' ims' Hi Hn _ _ _]; subst; (split; [discriminate|]); destruct (image_chars names _ im Hi) as [_ K]; cbn [forallb]; destruct im; try reflexivity; exfalso; apply (K Hn); reflexivity.
Qed.

(** ** The section *)
Definition completed (names : list text) (m : lmap) : lmap := m ++ [[(length names, 1%Z)]].
Lemma maps_blank_step names k maps u t : blanks u -> maps_loop (S k) names maps (opened (u ++ newline :: t)) = maps_loop k names maps (opened t).
Proof.
  intros Hu. cbn [maps_loop]. change (ok (opened (u ++ newline :: t))) with true. cbn [negb]. rewrite !peek_line_opened.
  rewrite first_line_newline by (apply blanks_no_newline; auto). rewrite trim_blanks by auto. change (m_is_keyword []) with false. cbv iota. cbn [at_end].
  rewrite getline_newline by (apply blanks_no_newline; auto). reflexivity.
Qed.
Lemma map_line_trim names line m : map_line names line m -> at_end (m_trim line) = false.
Proof.
  intros (u & t & v & -> & Hu & HT & Hv & _). destruct (images_first names t m HT) as (c & t' & -> & Hc). destruct (trim_first u c (t' ++ v) Hu (space_blank c Hc)) as (w & E). cbn [app]. rewrite E. reflexivity.
Qed.
Lemma maps_row_step names k maps line m r : NoDup names -> map_line names line m -> line_end r ->
  maps_loop (S k) names maps (opened (line ++ r)) = maps_loop k names (maps ++ [completed names m]) (opened (drop_while is_eol r)).
Proof.
  intros Hd HL Hr. assert (T := map_line_trim names line m HL). destruct (m_map_ok names line m r Hd HL Hr) as (v & Hv & E).
  destruct HL as (u & t & v' & El & Hu & HT & Hv' & Hl & Hs & Hn & HK). cbn [maps_loop]. change (ok (opened (line ++ r))) with true. cbn [negb]. rewrite !peek_line_opened.
  assert (F : first_line (line ++ r) = line) by (destruct r as [|d r]; [rewrite app_nil_r; apply first_line_end; auto|cbn in Hr; subst d; apply first_line_newline; auto]).
  rewrite F, plain_trim, T, E by auto. cbn [bind]. destruct (images_nonempty names t m HT) as [Hne Hem].
  assert (B : negb (match m with [] => true | _ => false end) && negb (forallb empty_image m) = true) by (destruct m; [congruence|]; rewrite Hem; reflexivity). rewrite B.
  unfold opened at 1. rewrite skip_whitespace_ok by discriminate. rewrite blanks_drop by (auto; apply line_end_stops; auto). cbn [bind]. unfold opened at 1. rewrite skip_end_of_line_ok by discriminate. reflexivity.
Qed.
Definition map_lines (names : list text) := written (map_line names).
Lemma map_lines_drop names t ms tail : map_lines names t ms -> stops is_eol tail -> exists t', map_lines names t' ms /\ drop_while is_eol (t ++ tail) = t' ++ tail /\ length t' <= length t.
Proof.
  intros H Ht. induction H as [|u t rows Hu HL IH|line row t rows HR HL IH].
  - exists []. cbn [app]. rewrite drop_stop by auto. split; [constructor|auto].
  - rewrite <- app_assoc. cbn [app].
    assert (K : (drop_while is_eol (u ++ newline :: t ++ tail) = drop_while is_eol (t ++ tail)) \/
      exists u', blanks u' /\ drop_while is_eol (u ++ newline :: t ++ tail) = u' ++ newline :: t ++ tail /\ length u' <= length u).
    { induction Hu as [|c u Hc Hu IHu]; [left; reflexivity|]. cbn [app drop_while]. destruct (is_eol c) eqn:Ec; [|right; exists (c :: u); split; [constructor; auto|split; [reflexivity|lia]]].
      destruct IHu as [K|(u' & K1 & K2 & K3)]; [left; auto|right]. exists u'. split; auto. split; auto. cbn. lia. }
    destruct K as [K|(u' & K1 & K2 & K3)]; rewrite ?K, ?K2.
    + destruct IH as (t' & I1 & I2 & I3). exists t'. split; auto. split; auto. rewrite app_length. cbn. lia.
    + exists (u' ++ newline :: t). split; [constructor; auto|]. rewrite <- app_assoc. cbn [app]. split; auto. rewrite !app_length. cbn. lia.
  - exists (line ++ newline :: t). split; [apply written_line; auto|]. split; [|auto]. rewrite <- app_assoc. apply drop_stop. destruct HR as (u & w & v & E & Hu & HT & _ & _ & Hs & _).
    destruct line as [|d line]; [|exact Hs]. destruct (images_first names w row HT) as (c & w' & -> & _). destruct u; discriminate.
Qed.
Lemma map_lines_ok names n : NoDup names -> forall t ms, length t <= n -> map_lines names t ms -> forall acc tail k, stops is_eol tail ->
  exists k', k <= k' /\ maps_loop (n + k) names acc (opened (t ++ tail)) = maps_loop k' names (acc ++ map (completed names) ms) (opened tail).
Proof.
  intros Hd. induction n as [|n IH]; intros t ms Hn HL acc tail k Ht.
  - inversion HL as [|u t' rows' Hu HL'|line row t' rows' HR HL']; subst.
    + exists k. split; auto. rewrite app_nil_r. reflexivity.
    + rewrite app_length in Hn. cbn in Hn. lia.
    + rewrite app_length in Hn. cbn in Hn. lia.
  - inversion HL as [|u t' rows' Hu HL'|line row t' rows' HR HL']; subst.
    + exists (S n + k). split; [lia|]. rewrite app_nil_r. reflexivity.
    + rewrite app_length in Hn. cbn in Hn. destruct (IH t' ms ltac:(lia) HL' acc tail k Ht) as (k' & Hk & E). exists k'. split; auto.
      rewrite <- app_assoc. cbn [app Nat.add]. rewrite maps_blank_step by auto. exact E.
    + rewrite app_length in Hn. cbn in Hn. destruct (map_lines_drop _ _ _ tail HL' Ht) as (t2 & HL2 & E2 & Hlen).
      destruct (IH t2 rows' ltac:(lia) HL2 (acc ++ [completed names row]) tail k Ht) as (k' & Hk & E). exists k'. split; auto.
      rewrite <- app_assoc. cbn [app Nat.add]. rewrite (maps_row_step names (n + k) acc line row (newline :: t' ++ tail) Hd HR eq_refl).
      cbn [drop_while]. change (is_eol newline) with true. cbv iota. rewrite E2, E, <- app_assoc. reflexivity.
Qed.
Lemma maps_end names t : blanks t -> forall acc k, 3 <= k -> exists s, ok s = false /\ maps_loop k names acc (opened t) = Ok (Some (acc, s)).
Proof.
  intros Hu acc [|[|[|k]]] Hk; try lia. assert (N := blanks_no_newline t Hu). exists (match t with [] => Stream [] true true | _ => Stream [] false true end). split; [destruct t; reflexivity|].
  set (k2 := S k). cbn [maps_loop]. change (ok (opened t)) with true. cbn [negb]. rewrite !peek_line_opened, first_line_end, trim_blanks by auto. change (m_is_keyword []) with false. cbv iota. cbn [at_end].
  destruct t as [|c t]; [reflexivity|]. rewrite getline_end by (auto; discriminate). reflexivity.
Qed.
Lemma maps_last names line m : NoDup names -> map_line names line m -> forall acc k, 4 <= k -> exists s, ok s = false /\ maps_loop k names acc (opened line) = Ok (Some (acc ++ [completed names m], s)).
Proof.
  intros Hd H acc [|k] Hk; [lia|]. rewrite <- (app_nil_r line). rewrite (maps_row_step names k acc line m [] Hd H I). apply (maps_end names [] (Forall_nil _)). lia.
Qed.
Lemma maps_keyword names k maps t : m_is_keyword (m_trim (first_line t)) = true -> maps_loop (S k) names maps (opened t) = Ok (Some (maps, opened t)).
Proof. intros H. cbn [maps_loop]. change (ok (opened t)) with true. cbn [negb]. rewrite peek_line_opened, H. reflexivity. Qed.

(** What follows a section, in general. *)
Lemma skip_end_follows {C} (line_of : text -> C -> Prop) tail Q t : follows line_of tail Q (Some t) ->
  Q = [] /\ stops is_eol tail /\ m_is_keyword (m_trim (first_line tail)) = true /\ left_over (m_skip_end (opened tail)) (Some t).
Proof.
  intros H. inversion H as [| |line r Hk Hs|line r Hk Hs|line Hk Hs]; subst; (split; [reflexivity|]).
  - destruct (keyword_line_trim (convex_words ++ conical_words ++ other_words) line eq_refl Hk) as (w & Hw & Et & Nn).
    assert (KC := word_check (fun w => m_is_keyword (lit w) && negb (m_is_end (m_first_word (lit w))) && text_eqb (m_trim (lit w)) (lit w) && negb (at_end (lit w))) _ w Hw eq_refl). cbv beta in KC.
    apply andb_true_iff in KC as [KC H4]. apply andb_true_iff in KC as [KC H3]. apply andb_true_iff in KC as [H1 H2]. apply negb_true_iff in H2.
    assert (H3' : m_trim (lit w) = lit w) by (destruct (text_eqb_spec (m_trim (lit w)) (lit w)); [auto|discriminate]).
    split; [destruct line; [rewrite <- Et in H4; discriminate|exact Hs]|]. rewrite first_line_newline, Et by auto. split; auto.
    unfold m_skip_end. change (ok (opened (line ++ newline :: r))) with true. cbv iota. rewrite peek_line_opened, first_line_newline by auto.
    assert (FW : m_first_word line = m_first_word (lit w)) by (unfold m_first_word; rewrite Et, H3'; reflexivity). rewrite FW, H2. left. reflexivity.
  - destruct (keyword_line_trim end_words line eq_refl Hk) as (w & Hw & Et & Nn).
    assert (KC := word_check (fun w => m_is_keyword (lit w) && m_is_end (take_while (fun c => negb (is_char (Some c) blank) && negb (is_char (Some c) tab)) (lit w)) && negb (at_end (lit w))) _ w Hw eq_refl). cbv beta in KC.
    apply andb_true_iff in KC as [KC H3]. apply andb_true_iff in KC as [H1 H2].
    split; [destruct line; [rewrite <- Et in H3; discriminate|exact Hs]|]. rewrite first_line_newline, Et by auto. split; auto.
    unfold m_skip_end. change (ok (opened (line ++ newline :: t))) with true. cbv iota. rewrite peek_line_opened, first_line_newline by auto.
    unfold m_first_word. rewrite Et, H2, getline_newline by auto. left. reflexivity.
  - destruct (keyword_line_trim end_words tail eq_refl Hk) as (w & Hw & Et & Nn).
    assert (KC := word_check (fun w => m_is_keyword (lit w) && m_is_end (take_while (fun c => negb (is_char (Some c) blank) && negb (is_char (Some c) tab)) (lit w)) && negb (at_end (lit w))) _ w Hw eq_refl). cbv beta in KC.
    apply andb_true_iff in KC as [KC H3]. apply andb_true_iff in KC as [H1 H2]. assert (Hne : tail <> []) by (intros E; rewrite <- Et, E in H3; discriminate).
    split; [auto|]. rewrite first_line_end, Et by auto. split; auto.
    unfold m_skip_end. change (ok (opened tail)) with true. cbv iota. rewrite peek_line_opened, first_line_end by auto.
    unfold m_first_word. rewrite Et, H2, getline_end by auto. right. split; reflexivity.
Qed.
Lemma maps_section_ok names title lines P tail Q o : NoDup names -> keyword_line maps_words title -> written (map_line names) lines P -> follows (map_line names) tail Q o ->
  exists fuel0, forall fuel, fuel0 <= fuel -> exists s, m_maps fuel names (opened (title ++ newline :: lines ++ tail)) = Ok (Some (map (completed names) (P ++ Q), s)) /\ left_over s o.
Proof.
  intros Hd HK HW HF. destruct (keyword_line_trim maps_words title eq_refl HK) as (w & Hw & Et & Nn).
  assert (T : m_is_maps (lit w) = true) by exact (word_check (fun w => m_is_maps (lit w)) _ w Hw eq_refl).
  exists (length lines + 5). intros fuel Hf. unfold m_maps. rewrite getline_newline by auto. change (ok (opened (lines ++ tail))) with true. cbn [negb]. rewrite Et, T. cbn [negb].
  replace fuel with (length lines + (fuel - length lines)) by lia.
  assert (ST : stops is_eol tail).
  { inversion HF as [u Hu Hs|line c Hc|line r Hk Hs|line r Hk Hs|line Hk Hs]; subst; auto; try apply (skip_end_follows (map_line names) _ _ _ HF). destruct Hc as (u & t & v & _ & _ & _ & _ & _ & Hs & _). exact Hs. }
  destruct (map_lines_ok names (length lines) Hd lines P (Nat.le_refl _) HW [] tail (fuel - length lines) ST) as (k' & Hk' & E). rewrite E. clear E. cbn [app].
  destruct o as [t|].
  - destruct (skip_end_follows _ _ _ _ HF) as (-> & _ & KW & LO). destruct k' as [|k']; [lia|]. rewrite maps_keyword by auto. cbn [bindo]. rewrite app_nil_r. eexists. split; [reflexivity|exact LO].
  - inversion HF as [u Hu Hs|line c Hc| | |]; subst.
    + destruct (maps_end names tail Hu (map (completed names) P) k' ltac:(lia)) as (s & Hs' & E). rewrite E. cbn [bindo]. rewrite app_nil_r. exists (m_skip_end s). split; [reflexivity|]. unfold m_skip_end. rewrite Hs'. exact Hs'.
    + destruct (maps_last names tail c Hd Hc (map (completed names) P) k' ltac:(lia)) as (s & Hs' & E). rewrite E. cbn [bindo]. rewrite map_app. exists (m_skip_end s). split; [reflexivity|]. unfold m_skip_end. rewrite Hs'. exact Hs'.
Qed.
