(** * InputProofs: closed forms of the scanner functions. *)
From Coq Require Import List ZArith Arith Bool Ascii String Lia.
From Verif Require Import Base Spec ListUtil ArithModel SafeIntModel IntTypes StreamModel StreamProofs InputModel.
Import ListNotations.
Open Scope nat_scope.

Definition blanks (t : text) : Prop := Forall (fun c => is_blank c = true) t.
Lemma blank_space c : is_blank c = true -> is_space c = true.
Proof.
  unfold is_blank, is_char. destruct (ascii_dec c blank) as [->|_]; [reflexivity|]. destruct (ascii_dec c tab) as [->|_]; [reflexivity|].
  destruct (ascii_dec c carriage_return) as [->|_]; [reflexivity|]. discriminate.
Qed.
Lemma blanks_spaces t : blanks t -> spaces t.
Proof. apply Forall_impl. intros c. apply blank_space. Qed.
Lemma blank_digit c : is_blank c = true -> is_digit c = false.
Proof. intros H. apply blank_space in H. destruct (is_digit c) eqn:E; auto. apply digit_space in E. congruence. Qed.
Lemma newline_blank : is_blank newline = false. Proof. reflexivity. Qed.
Lemma blanks_app a b : blanks (a ++ b) <-> blanks a /\ blanks b.
Proof. apply Forall_app. Qed.
Lemma blanks_no_newline t : blanks t -> ~ In newline t.
Proof. intros H K. unfold blanks in H. rewrite Forall_forall in H. apply H in K. discriminate K. Qed.

(** ** Streams in a sane state. *)
Definition sane (s : stream) : Prop := eofbit s = true -> rest s = [].
Lemma ok_false r e : ok (Stream r e false) = true. Proof. reflexivity. Qed.
Lemma clear_opened s : clear s = opened (rest s). Proof. reflexivity. Qed.
Lemma seekg_clear t s : seekg (Some t) (clear s) = opened t. Proof. reflexivity. Qed.
Lemma tellg_opened r : tellg (opened r) = (Some r, opened r). Proof. reflexivity. Qed.

Definition first_line (t : text) : text := fst (split_line t).
Lemma first_line_newline l r : ~ In newline l -> first_line (l ++ newline :: r) = l.
Proof. intros H. unfold first_line. rewrite split_line_newline; auto. Qed.
Lemma first_line_end l : ~ In newline l -> first_line l = l.
Proof. intros H. unfold first_line. rewrite split_line_end; auto. Qed.
Lemma getline_fst old r : fst (getline old (opened r)) = first_line r.
Proof. unfold getline, first_line. cbn [good opened eofbit failbit negb andb rest]. destruct (split_line r) as [[|c l] [x|]]; reflexivity. Qed.
Lemma peek_line_opened r : m_peek_line (opened r) = (first_line r, opened r).
Proof.
  unfold m_peek_line. cbn [ok opened failbit negb]. fold (opened r). rewrite tellg_opened. assert (H := getline_fst [] r).
  destruct (getline [] (opened r)) as [l s]. cbn [fst] in H. subst l. rewrite seekg_clear. reflexivity.
Qed.
Lemma peek_line_eof : m_peek_line (Stream [] true false) = ([], Stream [] false true).
Proof. reflexivity. Qed.

Lemma peek_opened r : peek (opened r) = (match r with [] => None | c :: _ => Some c end, Stream r (at_end r) false).
Proof. destruct r; reflexivity. Qed.
Lemma get_opened c r : get_char (opened (c :: r)) = (Some c, opened r). Proof. reflexivity. Qed.

Lemma is_whitespace_opened r : m_is_whitespace (opened r) = (one_of is_blank (match r with [] => None | c :: _ => Some c end), opened r).
Proof. destruct r; reflexivity. Qed.
Lemma skip_whitespace_loop_opened r k : skip_whitespace_loop (S (length r + k)) (opened r) = Ok (opened (drop_while is_blank r)).
Proof.
  revert k. induction r as [|c r IH]; intros k.
  - reflexivity.
  - cbn [length]. cbn [skip_whitespace_loop]. change (ok (opened (c :: r))) with true. cbv iota. rewrite is_whitespace_opened. cbn [one_of drop_while].
    destruct (is_blank c); [|reflexivity]. rewrite get_opened. exact (IH k).
Qed.
Lemma skip_whitespace_ok r e : (e = true -> r = []) -> m_skip_whitespace (Stream r e false) = Ok (opened (drop_while is_blank r)).
Proof.
  intros H. unfold m_skip_whitespace. cbn [rest]. destruct e.
  - rewrite H by auto. reflexivity.
  - fold (opened r). replace (length r + 2) with (S (length r + 1)) by lia. apply skip_whitespace_loop_opened.
Qed.
Lemma at_end_sane r : at_end r = true -> r = [].
Proof. destruct r; [auto|discriminate]. Qed.
Lemma skip_whitespace_at_end r : m_skip_whitespace (Stream r (at_end r) false) = Ok (opened (drop_while is_blank r)).
Proof. apply skip_whitespace_ok, at_end_sane. Qed.
Lemma skip_whitespace_failed r e : m_skip_whitespace (Stream r e true) = Ok (Stream r e true).
Proof. unfold m_skip_whitespace. cbn [rest]. replace (length r + 2) with (S (length r + 1)) by lia. reflexivity. Qed.

Definition is_eol (c : ascii) : bool := is_char (Some c) carriage_return || is_char (Some c) newline.
Lemma skip_end_of_line_loop_opened r k : skip_end_of_line_loop (S (length r + k)) (opened r) = Ok (opened (drop_while is_eol r)).
Proof.
  revert k. induction r as [|c r IH]; intros k.
  - reflexivity.
  - cbn [length]. cbn [skip_end_of_line_loop]. change (ok (opened (c :: r))) with true. cbv iota. rewrite peek_opened. cbn [drop_while at_end].
    unfold is_eol at 1. destruct (is_char (Some c) carriage_return); cbn [negb andb orb].
    + change (Stream (c :: r) false false) with (opened (c :: r)). rewrite get_opened. exact (IH k).
    + destruct (is_char (Some c) newline); cbn [negb]; [|reflexivity]. change (Stream (c :: r) false false) with (opened (c :: r)). rewrite get_opened. exact (IH k).
Qed.
Lemma skip_end_of_line_ok r e : (e = true -> r = []) -> m_skip_end_of_line (Stream r e false) = Ok (opened (drop_while is_eol r)).
Proof.
  intros H. unfold m_skip_end_of_line. cbn [rest]. destruct e.
  - rewrite H by auto. reflexivity.
  - fold (opened r). replace (length r + 2) with (S (length r + 1)) by lia. apply skip_end_of_line_loop_opened.
Qed.

(** ** Identifiers. *)
(** The text of an identifier: no closing bracket and no end of line. *)
Definition identifier_text (t : text) : Prop := Forall (fun c => c <> ")"%char /\ c <> newline /\ c <> carriage_return) t.
Lemma is_char_spec c d : reflect (c = d) (is_char (Some c) d).
Proof. unfold is_char. destruct (ascii_dec c d); constructor; auto. Qed.
Lemma identifier_loop_ok t r acc k : identifier_text t -> identifier_loop (S (length t + k)) acc (opened (t ++ ")"%char :: r)) = Ok (acc ++ t, opened (")"%char :: r)).
Proof.
  intros H. revert acc k. induction H as [|c t (H1 & H2 & H3) _ IH]; intros acc k.
  - rewrite app_nil_r. reflexivity.
  - cbn [length app]. cbn [identifier_loop]. change (ok (opened (c :: t ++ ")"%char :: r))) with true. cbn [negb]. unfold m_is_end_of_line, m_is_end_of_file.
    change (ok (opened (c :: t ++ ")"%char :: r))) with true. cbv iota. rewrite peek_opened. cbn [at_end].
    destruct (is_char_spec c carriage_return); [congruence|]. destruct (is_char_spec c newline); [congruence|]. cbn [orb]. rewrite clear_opened. cbn [rest].
    change (ok (opened (c :: t ++ ")"%char :: r))) with true. cbv iota. rewrite peek_opened. cbn [at_end]. rewrite clear_opened. cbn [rest]. rewrite peek_opened. cbn [at_end].
    destruct (is_char_spec c ")"); [congruence|]. change (Stream (c :: t ++ ")"%char :: r) false false) with (opened (c :: t ++ ")"%char :: r)).
    rewrite get_opened. etransitivity; [exact (IH (acc ++ [c]) k)|]. rewrite <- app_assoc. reflexivity.
Qed.
Lemma identifier_drop t : identifier_text t -> identifier_text (drop_while is_blank t).
Proof. induction 1 as [|c t Hc Ht IH]; cbn; [constructor|]. destruct (is_blank c); auto. constructor; auto. Qed.
Lemma drop_app_stop p a b : stops p b -> b <> [] -> drop_while p (a ++ b) = drop_while p a ++ b.
Proof. intros Hb Hn. induction a as [|c a IH]; cbn [app drop_while]; [apply drop_stop; auto|]. destruct (p c); auto. Qed.
Lemma identifier_ok t r : identifier_text t -> m_identifier (opened ("("%char :: t ++ ")"%char :: r)) = Ok (m_trim (drop_while is_blank t), opened r).
Proof.
  intros H. unfold m_identifier. unfold m_is_identifier. change (ok (opened _)) with true. cbv iota. rewrite peek_opened. cbn [at_end].
  change (is_char (Some "("%char) "(") with true. cbn [negb]. rewrite clear_opened. cbn [rest]. rewrite get_opened.
  unfold opened at 1. rewrite skip_whitespace_ok by discriminate. cbn [bind rest].
  rewrite (drop_app_stop is_blank t) by (try reflexivity; discriminate). cbn [opened rest]. set (u := drop_while is_blank t).
  fold (opened (u ++ ")"%char :: r)). rewrite app_length. replace (length u + length (")"%char :: r) + 2) with (S (length u + (length (")"%char :: r) + 1))) by lia.
  rewrite identifier_loop_ok by (apply identifier_drop; auto). cbn [bind app]. rewrite peek_opened. cbn [at_end]. change (is_char (Some ")"%char) ")") with true. cbn [negb].
  change (Stream (")"%char :: r) false false) with (opened (")"%char :: r)). rewrite get_opened. reflexivity.
Qed.
(** An optional identifier between white space. *)
Inductive label : text -> Prop :=
| label_none u : blanks u -> label u
| label_identifier u t v : blanks u -> identifier_text t -> blanks v -> label (u ++ "("%char :: t ++ ")"%char :: v).
Lemma optional_identifier_ok l r : label l -> stops is_blank r -> stops (fun c => is_char (Some c) "(") r -> m_optional_identifier (opened (l ++ r)) = Ok (opened r).
Proof.
  intros Hl Hb Hp. unfold m_optional_identifier. unfold opened at 1. rewrite skip_whitespace_ok by discriminate. cbn [bind]. inversion Hl as [u Hu|u t v Hu Ht Hv]; subst.
  - rewrite drop_app, drop_stop by auto. unfold m_is_identifier. change (ok (opened r)) with true. cbv iota. rewrite peek_opened.
    assert (E : is_char (match r with [] => None | c :: _ => Some c end) "(" = false) by (destruct r; [reflexivity|exact Hp]). rewrite E. cbn [bind].
    unfold clear. cbn [rest]. rewrite skip_whitespace_ok by discriminate. rewrite drop_stop; auto.
  - rewrite <- !app_assoc. cbn [app]. rewrite <- app_assoc. cbn [app]. rewrite drop_app by auto. cbn [drop_while]. change (is_blank "(") with false. cbv iota.
    unfold m_is_identifier. change (ok (opened _)) with true. cbv iota. rewrite peek_opened. cbn [at_end]. change (is_char (Some "("%char) "(") with true.
    rewrite clear_opened. cbn [rest]. rewrite identifier_ok by auto. cbn [bind snd]. unfold opened at 1. rewrite skip_whitespace_ok by discriminate.
    rewrite drop_app, drop_stop; auto.
Qed.

(** ** Coordinates. *)
(** An integer or a fraction with its numerator and denominator. *)
Inductive coordinate : text -> Z -> Z -> Prop :=
| coordinate_integer p a : integer_text p a -> int_range a -> coordinate p a 1
| coordinate_fraction p a u v q b : integer_text p a -> int_range a -> blanks u -> blanks v -> integer_text q b -> int_range b -> b <> 0%Z ->
    coordinate (p ++ u ++ "/"%char :: v ++ q) a b.
(** Coordinates separated by blanks. *)
Inductive coordinates : text -> list (Z * Z) -> Prop :=
| coordinates_last t a b u : coordinate t a b -> blanks u -> coordinates (t ++ u) [(a, b)]
| coordinates_more t a b u l pts : coordinate t a b -> blanks u -> u <> [] -> coordinates l pts -> coordinates (t ++ u ++ l) ((a, b) :: pts).

Definition starts_number (c : ascii) : bool := is_digit c || is_char (Some c) "-" || is_char (Some c) "+".
Lemma integer_text_first p z : integer_text p z -> exists c p', p = c :: p' /\ starts_number c = true.
Proof.
  intros H. inversion H as [ds Hn Hd|ds Hn Hd|ds Hn Hd]; subst.
  - destruct p as [|c p]; [congruence|]. exists c, p. split; auto. apply Forall_cons_iff in Hd as [Hd _]. unfold starts_number. rewrite Hd. reflexivity.
  - exists "+"%char, ds. split; auto.
  - exists "-"%char, ds. split; auto.
Qed.
Lemma coordinate_first t a b : coordinate t a b -> exists c p', t = c :: p' /\ starts_number c = true.
Proof.
  intros H. inversion H as [p z Hp Hz|p z u v q w Hp]; subst; destruct (integer_text_first _ _ Hp) as (c & p' & -> & Hc).
  - exists c, p'. auto.
  - exists c. eexists. split; [reflexivity|auto].
Qed.
Lemma coordinates_first l pts : coordinates l pts -> exists c l', l = c :: l' /\ starts_number c = true.
Proof.
  intros H. inversion H as [t a b u Ht|t a b u l' pts' Ht]; subst; destruct (coordinate_first _ _ _ Ht) as (c & p' & -> & Hc); exists c; eexists; split; eauto; reflexivity.
Qed.
Lemma starts_number_blank c : starts_number c = true -> is_blank c = false /\ is_space c = false /\ c <> "("%char /\ c <> "/"%char /\ c <> newline.
Proof.
  unfold starts_number. rewrite !orb_true_iff. intros [[H|H]|H].
  - assert (Hs := digit_space c H). repeat split; auto; try (intros ->; discriminate H). destruct (is_blank c) eqn:E; auto. apply blank_space in E. congruence.
  - assert (E : c = "-"%char) by (destruct (is_char_spec c "-"); [auto|discriminate]). rewrite E. repeat split; auto; discriminate.
  - assert (E : c = "+"%char) by (destruct (is_char_spec c "+"); [auto|discriminate]). rewrite E. repeat split; auto; discriminate.
Qed.
(** What follows a line: its end or the end of the file. *)
Definition line_end (r : text) : Prop := match r with [] => True | c :: _ => c = newline end.
Definition finish (r : text) : stream := match r with [] => Stream [] true true | _ => opened r end.
Lemma line_end_stops r : line_end r -> stops is_blank r /\ stops is_digit r.
Proof. destruct r as [|c r]; cbn; auto. intros ->. auto. Qed.

(** The part of an iteration of [vertex_loop] after a coordinate: blanks, then the next coordinate or the end of the line. *)
Definition after_coordinate (fuel : nat) (tmp : Z) (numerator denominator : vec) (s : stream) : res (vec * vec * stream) :=
  do s <- m_skip_whitespace s;
  let '(c, s) := peek s in
  if is_char c newline then Ok (numerator, denominator, s) else vertex_loop fuel tmp numerator denominator s.
Lemma after_coordinate_more fuel tmp N D t c r : starts_number c = true -> drop_while is_blank t = c :: r ->
  forall e, (e = true -> t = []) -> after_coordinate fuel tmp N D (Stream t e false) = vertex_loop fuel tmp N D (opened (c :: r)).
Proof.
  intros Hc Hd e He. unfold after_coordinate. rewrite skip_whitespace_ok by auto. cbn [bind]. rewrite Hd, peek_opened. cbn [at_end].
  destruct (starts_number_blank c Hc) as (_ & _ & _ & _ & Hn). destruct (is_char_spec c newline); [congruence|]. reflexivity.
Qed.
Lemma after_coordinate_end fuel tmp N D t r : line_end r -> drop_while is_blank t = r -> 0 < fuel ->
  forall e, (e = true -> t = []) -> after_coordinate fuel tmp N D (Stream t e false) = Ok (N, D, finish r).
Proof.
  intros Hr Hd Hf e He. unfold after_coordinate. rewrite skip_whitespace_ok by auto. cbn [bind]. rewrite Hd, peek_opened.
  destruct r as [|c r]; cbn [at_end finish].
  - cbn [is_char]. destruct fuel; [lia|]. reflexivity.
  - cbn [line_end] in Hr. subst c. destruct (is_char_spec newline newline); [|congruence]. reflexivity.
Qed.
Lemma vertex_step fuel tmp N D t a b tail : coordinate t a b -> stops is_digit tail -> stops (fun c => is_char (Some c) "/") (drop_while is_blank tail) ->
  exists tmp' t' e, vertex_loop (S fuel) tmp N D (opened (t ++ tail)) = after_coordinate fuel tmp' (N ++ [a]) (D ++ [b]) (Stream t' e false) /\
    drop_while is_blank t' = drop_while is_blank tail /\ (e = true -> t' = []).
Proof.
  intros H Hd Hsl. inversion H as [p z Hp Hz|p z u v q w Hp Hz Hu Hv Hq Hw Hw0]; subst.
  - exists a, (drop_while is_blank tail), (at_end (drop_while is_blank tail)). cbn [vertex_loop].
    assert (R := read_int_ok [] t a tail tmp (Forall_nil _) Hp Hd Hz). cbn [app] in R. rewrite R. change (ok (Stream tail (at_end tail) false)) with true. cbn [negb].
    rewrite skip_whitespace_at_end. cbn [bind]. rewrite peek_opened.
    assert (E : is_char (match drop_while is_blank tail with [] => None | c :: _ => Some c end) "/" = false).
    { destruct (drop_while is_blank tail); [reflexivity|exact Hsl]. }
    rewrite E. cbn [bind]. split; [reflexivity|]. split; [apply drop_idem|apply at_end_sane].
  - exists b, tail, (at_end tail). cbn [vertex_loop].
    assert (Hs : stops is_digit (u ++ "/"%char :: v ++ q ++ tail)).
    { destruct u as [|c u]; [reflexivity|]. cbn. apply Forall_cons_iff in Hu as [Hu _]. apply blank_digit; auto. }
    assert (R := read_int_ok [] p a _ tmp (Forall_nil _) Hp Hs Hz). cbn [app] in R.
    replace ((p ++ u ++ "/"%char :: v ++ q) ++ tail) with (p ++ u ++ "/"%char :: v ++ q ++ tail) by (repeat (rewrite <- app_assoc || cbn [app]); reflexivity).
    rewrite R. change (ok (Stream _ _ false)) with true. cbn [negb]. rewrite skip_whitespace_at_end. cbn [bind].
    rewrite drop_app by auto. cbn [drop_while]. change (is_blank "/") with false. cbv iota. rewrite peek_opened. cbn [at_end].
    change (is_char (Some "/"%char) "/") with true. cbv iota. change (Stream ("/"%char :: v ++ q ++ tail) false false) with (opened ("/"%char :: v ++ q ++ tail)).
    rewrite get_opened. rewrite (read_int_ok v q b tail a (blanks_spaces v Hv) Hq Hd Hw). destruct (Z.eqb_spec b 0); [congruence|]. cbn [bind].
    split; [reflexivity|]. split; [reflexivity|apply at_end_sane].
Qed.
Lemma vertex_loop_ok l pts : coordinates l pts -> forall fuel tmp N D r, line_end r -> length pts < fuel ->
  vertex_loop fuel tmp N D (opened (l ++ r)) = Ok (N ++ map fst pts, D ++ map snd pts, finish r).
Proof.
  induction 1 as [t a b u Ht Hu|t a b u l pts Ht Hu Hn Hl IH]; intros fuel tmp N D r Hr Hf; destruct fuel as [|fuel]; cbn [length] in Hf; try lia.
  - rewrite <- app_assoc. destruct (line_end_stops r Hr) as [Hb Hd].
    assert (Hd' : stops is_digit (u ++ r)). { destruct u as [|c u]; auto. cbn. apply Forall_cons_iff in Hu as [Hu _]. apply blank_digit; auto. }
    assert (E : drop_while is_blank (u ++ r) = r) by (rewrite drop_app, drop_stop; auto).
    destruct (vertex_step fuel tmp N D t a b (u ++ r) Ht Hd') as (tmp' & t' & e & -> & Ed & He).
    { rewrite E. destruct r as [|c r]; cbn; auto. cbn in Hr. subst c. reflexivity. }
    rewrite (after_coordinate_end fuel tmp' _ _ t' r Hr); auto; [congruence|lia].
  - rewrite <- !app_assoc. destruct (coordinates_first l pts Hl) as (c & l' & -> & Hc). destruct (starts_number_blank c Hc) as (Hb & _ & _ & Hs & _).
    assert (Hd' : stops is_digit (u ++ (c :: l') ++ r)). { destruct u as [|d u]; [congruence|]. cbn. apply Forall_cons_iff in Hu as [Hu _]. apply blank_digit; auto. }
    assert (E : drop_while is_blank (u ++ (c :: l') ++ r) = c :: l' ++ r) by (rewrite drop_app, drop_stop; auto).
    destruct (vertex_step fuel tmp N D t a b _ Ht Hd') as (tmp' & t' & e & -> & Ed & He).
    { rewrite E. cbn [stops]. destruct (is_char_spec c "/"); [congruence|reflexivity]. }
    rewrite (after_coordinate_more fuel tmp' _ _ t' c (l' ++ r) Hc) by (auto; congruence).
    change (c :: l' ++ r) with ((c :: l') ++ r). rewrite IH by (auto; lia). cbn [map fst snd]. rewrite <- !app_assoc. reflexivity.
Qed.
Lemma coordinates_length l pts : coordinates l pts -> length pts <= length l.
Proof.
  induction 1 as [t a b u Ht Hu|t a b u l pts Ht Hu Hn Hl IH]; destruct (coordinate_first _ _ _ Ht) as (c & p' & -> & _); rewrite ?app_length; cbn [length app]; lia.
Qed.
Lemma coordinates_pts l pts : coordinates l pts -> pts <> [] /\ Forall (fun p => int_range (fst p) /\ int_range (snd p) /\ snd p <> 0%Z) pts.
Proof.
  assert (H1 : int_range 1) by (unfold int_range, StreamModel.int_min, StreamModel.int_max; lia).
  assert (K : forall t a b, coordinate t a b -> int_range a /\ int_range b /\ b <> 0%Z).
  { intros t a b H. inversion H as [p z Hp Hz|p z u v q w Hp Hz Hu Hv Hq Hw Hw0]; subst; split; [exact Hz| |exact Hz|]; split; auto. lia. }
  induction 1 as [t a b u Ht Hu|t a b u l pts Ht Hu Hn Hl IH]; split; try discriminate; constructor; cbn [fst snd]; eauto. apply IH.
Qed.
