(** * StreamProofs: facts about reading from streams. *)
From Coq Require Import List ZArith Arith Bool Ascii String Lia.
From Verif Require Import Base SafeIntModel StreamModel.
Import ListNotations.
Open Scope Z_scope.

Definition spaces (t : text) : Prop := Forall (fun c => is_space c = true) t.
Definition digits (t : text) : Prop := Forall (fun c => is_digit c = true) t.
(** Not starting with a character that satisfies [p]. *)
Definition stops (p : ascii -> bool) (t : text) : Prop := match t with [] => True | c :: _ => p c = false end.

Lemma drop_all p t : Forall (fun c => p c = true) t -> drop_while p t = [].
Proof. induction 1; cbn [drop_while]; auto. rewrite H. auto. Qed.
Lemma drop_app p a b : Forall (fun c => p c = true) a -> drop_while p (a ++ b) = drop_while p b.
Proof. induction 1; cbn [drop_while app]; auto. rewrite H. auto. Qed.
Lemma take_app p a b : Forall (fun c => p c = true) a -> take_while p (a ++ b) = a ++ take_while p b.
Proof. induction 1; cbn [take_while app]; auto. rewrite H, IHForall. auto. Qed.
Lemma drop_stop p t : stops p t -> drop_while p t = t.
Proof. destruct t as [|c t]; cbn; auto. intros ->. auto. Qed.
Lemma take_stop p t : stops p t -> take_while p t = [].
Proof. destruct t as [|c t]; cbn; auto. intros ->. auto. Qed.
Lemma take_drop p t : take_while p t ++ drop_while p t = t.
Proof. induction t as [|c t IH]; cbn; auto. destruct (p c); cbn; congruence. Qed.
Lemma take_forall p t : Forall (fun c => p c = true) (take_while p t).
Proof. induction t as [|c t IH]; cbn; auto. destruct (p c) eqn:E; auto. Qed.
Lemma drop_stops p t : stops p (drop_while p t).
Proof. induction t as [|c t IH]; cbn; auto. destruct (p c) eqn:E; cbn; auto. Qed.
Lemma drop_idem p t : drop_while p (drop_while p t) = drop_while p t.
Proof. apply drop_stop, drop_stops. Qed.
Lemma drop_suffix p t : exists a, t = a ++ drop_while p t /\ Forall (fun c => p c = true) a.
Proof. exists (take_while p t). split; [symmetry; apply take_drop|apply take_forall]. Qed.

Lemma digit_space c : is_digit c = true -> is_space c = false.
Proof. unfold is_digit, is_space. rewrite andb_true_iff, Nat.leb_le, Nat.leb_le. intros. repeat (rewrite orb_false_iff; split); apply Nat.eqb_neq; lia. Qed.
Lemma digit_sign c : is_digit c = true -> c <> "-"%char /\ c <> "+"%char.
Proof. intros H. split; intros ->; vm_compute in H; discriminate. Qed.

(** The value of a decimal numeral, most significant digit first. *)
Fixpoint decimal (ds : text) : Z := match ds with [] => 0 | d :: ds' => digit_value d * 10 ^ Z.of_nat (length ds') + decimal ds' end.
Lemma digits_value_gen ds acc : fold_left (fun acc c => 10 * acc + digit_value c) ds acc = acc * 10 ^ Z.of_nat (length ds) + decimal ds.
Proof.
  revert acc. induction ds as [|d ds IH]; intros acc; cbn [fold_left decimal length]; [cbn; lia|].
  rewrite IH, Nat2Z.inj_succ, Z.pow_succ_r by lia. lia.
Qed.
Lemma digits_value_decimal ds : digits_value ds = decimal ds.
Proof. unfold digits_value. rewrite digits_value_gen. lia. Qed.

(** A decimal integer: optional sign and digits. *)
Inductive integer_text : text -> Z -> Prop :=
| integer_plain ds : ds <> [] -> digits ds -> integer_text ds (decimal ds)
| integer_plus ds : ds <> [] -> digits ds -> integer_text ("+"%char :: ds) (decimal ds)
| integer_minus ds : ds <> [] -> digits ds -> integer_text ("-"%char :: ds) (- decimal ds).

Lemma scan_plain ds r : ds <> [] -> digits ds -> stops is_digit r -> scan_integer (ds ++ r) = (false, ds, r).
Proof.
  intros Hn Hd Hr. destruct ds as [|d ds]; [congruence|].
  assert (Hd' := Hd). apply Forall_cons_iff in Hd' as [Hd1 _]. destruct (digit_sign d Hd1) as [Hm Hp].
  assert (K : scan_integer ((d :: ds) ++ r) = (false, take_while is_digit ((d :: ds) ++ r), drop_while is_digit ((d :: ds) ++ r))).
  { cbn [scan_integer app]. destruct (ascii_dec d "-"); [congruence|]. destruct (ascii_dec d "+"); [congruence|]. reflexivity. }
  rewrite K, take_app, drop_app, take_stop, drop_stop, app_nil_r; auto.
Qed.
Lemma scan_signed ds r (m : bool) : digits ds -> stops is_digit r -> scan_integer ((if m then "-" else "+")%char :: ds ++ r) = (m, ds, r).
Proof.
  intros Hd Hr. destruct m; cbn [scan_integer]; [destruct (ascii_dec "-" "-"); [|congruence]|destruct (ascii_dec "+" "-"); [discriminate|]; destruct (ascii_dec "+" "+"); [|congruence]];
    rewrite take_app, drop_app, take_stop, drop_stop, app_nil_r; auto.
Qed.
Lemma integer_text_start p z : integer_text p z -> p <> [] /\ stops is_space p.
Proof.
  intros H. inversion H as [ds Hn Hd|ds Hn Hd|ds Hn Hd]; subst; [|split; [discriminate|reflexivity]|split; [discriminate|reflexivity]].
  split; auto. destruct p as [|d ds]; [congruence|]. apply Forall_cons_iff in Hd as [Hd _]. cbn. apply digit_space; auto.
Qed.
Lemma formatted_skip ws t : spaces ws -> t <> [] -> stops is_space t -> formatted (opened (ws ++ t)) = Some t.
Proof.
  intros Hw Hn Ht. unfold formatted. cbn [good opened eofbit failbit negb andb rest]. rewrite drop_app, drop_stop by auto. destruct t; congruence.
Qed.
Lemma stops_app p a b : a <> [] -> stops p a -> stops p (a ++ b).
Proof. destruct a; [congruence|]. cbn. auto. Qed.

(** Reading an integer: exactly the numeral is consumed; if it is out of range the stream fails. *)
Definition int_range (z : Z) : Prop := int_min <= z <= int_max.
Definition clamp (z : Z) : Z := if z <? int_min then int_min else if int_max <? z then int_max else z.
Lemma read_int_gen ws p z r old : spaces ws -> integer_text p z -> stops is_digit r ->
  read_int old (opened (ws ++ p ++ r)) = (clamp z, Stream r (at_end r) (negb ((int_min <=? z) && (z <=? int_max)))).
Proof.
  intros Hw Hp Hr. destruct (integer_text_start p z Hp) as [Hn Hs].
  unfold read_int. rewrite formatted_skip; auto; [|destruct p; [congruence|discriminate]|apply stops_app; auto].
  assert (K : exists m ds, scan_integer (p ++ r) = (m, ds, r) /\ ds <> [] /\ z = (if m : bool then - decimal ds else decimal ds)).
  { inversion Hp as [ds Hn' Hd|ds Hn' Hd|ds Hn' Hd]; subst.
    - exists false, p. rewrite scan_plain; auto.
    - exists false, ds. cbn [app]. rewrite (scan_signed ds r false); auto.
    - exists true, ds. cbn [app]. rewrite (scan_signed ds r true); auto. }
  destruct K as (m & ds & -> & Hds & ->). destruct ds as [|d ds]; [congruence|]. rewrite digits_value_decimal. unfold clamp.
  set (v := if m then _ else _). destruct (Z.ltb_spec v int_min), (Z.leb_spec int_min v), (Z.ltb_spec int_max v), (Z.leb_spec v int_max); cbn [andb negb]; auto; try lia;
    unfold int_min, int_max in *; lia.
Qed.
Lemma read_int_ok ws p z r old : spaces ws -> integer_text p z -> stops is_digit r -> int_range z ->
  read_int old (opened (ws ++ p ++ r)) = (z, Stream r (at_end r) false).
Proof.
  intros Hw Hp Hr [H1 H2]. rewrite (read_int_gen ws p z r old Hw Hp Hr). unfold clamp.
  destruct (Z.ltb_spec z int_min), (Z.leb_spec int_min z), (Z.ltb_spec int_max z), (Z.leb_spec z int_max); try lia. reflexivity.
Qed.
(** Conversely, when an integer is read successfully the text starts with white space and a numeral. *)
Lemma read_int_inv old t n s : read_int old (opened t) = (n, s) -> failbit s = false ->
  exists ws p, t = ws ++ p ++ rest s /\ spaces ws /\ integer_text p n /\ stops is_digit (rest s) /\ int_range n /\ eofbit s = at_end (rest s).
Proof.
  unfold read_int. destruct (formatted (opened t)) as [u|] eqn:F.
  2:{ intros E Hs. injection E as <- <-. unfold formatted_failure in Hs. cbn in Hs. discriminate. }
  unfold formatted in F. cbn [good opened eofbit failbit negb andb rest] in F.
  assert (Hu : drop_while is_space t = u) by (destruct (drop_while is_space t); congruence). clear F.
  assert (Ht : t = take_while is_space t ++ u) by (rewrite <- Hu; symmetry; apply take_drop).
  assert (Hw : spaces (take_while is_space t)) by apply take_forall.
  destruct (scan_integer u) as [[m ds] r] eqn:E. intros E' Hf.
  assert (Hx : ds <> [] /\ s = Stream r (at_end r) false /\ n = (if m then - digits_value ds else digits_value ds) /\ int_range n).
  { destruct ds as [|d ds]; [injection E' as <- <-; discriminate Hf|].
    destruct (Z.ltb_spec (if m then - digits_value (d :: ds) else digits_value (d :: ds)) int_min); [injection E' as <- <-; discriminate Hf|].
    destruct (Z.ltb_spec int_max (if m then - digits_value (d :: ds) else digits_value (d :: ds))); [injection E' as <- <-; discriminate Hf|].
    injection E' as <- <-. repeat split; auto; discriminate. }
  destruct Hx as (Hds & -> & -> & Hr). cbn [rest eofbit].
  assert (K : exists p, u = p ++ r /\ integer_text p (if m then - digits_value ds else digits_value ds) /\ stops is_digit r).
  { rewrite digits_value_decimal. unfold scan_integer in E. destruct u as [|c u].
    - injection E as <- <- <-. congruence.
    - assert (Q : forall v, exists p, v = p ++ drop_while is_digit v /\ p = take_while is_digit v) by (intros v; exists (take_while is_digit v); rewrite take_drop; auto).
      destruct (ascii_dec c "-") as [->|_].
      + injection E as <- <- <-. exists ("-"%char :: take_while is_digit u). cbn [app]. rewrite take_drop. repeat split; auto using drop_stops.
        constructor; auto. apply take_forall.
      + destruct (ascii_dec c "+") as [->|_].
        * injection E as <- <- <-. exists ("+"%char :: take_while is_digit u). cbn [app]. rewrite take_drop. repeat split; auto using drop_stops. constructor; auto. apply take_forall.
        * assert (E1 : m = false) by congruence. assert (E2 : ds = take_while is_digit (c :: u)) by congruence.
          assert (E3 : r = drop_while is_digit (c :: u)) by congruence. rewrite E1, E2, E3. rewrite E2 in Hds.
          exists (take_while is_digit (c :: u)). rewrite take_drop. repeat split; auto using drop_stops. apply integer_plain; auto. apply take_forall. }
  destruct K as (p & -> & Hp & Hstop). exists (take_while is_space t), p. repeat split; auto; apply Hr.
Qed.
Lemma app_same_length {A} (a b c d : list A) : a ++ b = c ++ d -> length a = length c -> a = c /\ b = d.
Proof.
  revert c. induction a as [|x a IH]; intros [|y c] E L; try discriminate; auto. cbn in *. injection E as -> E. injection L as L.
  destruct (IH c E L) as [-> ->]. auto.
Qed.
(** The decomposition is unique. *)
Lemma integer_text_unique p q z z' : integer_text p z -> integer_text q z' -> forall r s, stops is_digit r -> stops is_digit s -> p ++ r = q ++ s ->
  p = q /\ z = z' /\ r = s.
Proof.
  intros Hp Hq r s Hr Hs E.
  assert (A : digits [] ) by constructor.
  assert (K : forall p z r, integer_text p z -> stops is_digit r -> exists m ds, scan_integer (p ++ r) = (m, ds, r) /\ z = if m : bool then - decimal ds else decimal ds).
  { intros p0 z0 r0 H0 Hr0. inversion H0 as [ds Hn' Hd|ds Hn' Hd|ds Hn' Hd]; subst.
    - exists false, p0. rewrite scan_plain; auto.
    - exists false, ds. cbn [app]. rewrite (scan_signed ds r0 false); auto.
    - exists true, ds. cbn [app]. rewrite (scan_signed ds r0 true); auto. }
  destruct (K p z r Hp Hr) as (m & ds & E1 & ->). destruct (K q z' s Hq Hs) as (m' & ds' & E2 & ->). rewrite E in E1.
  rewrite E1 in E2. injection E2 as -> -> ->. apply app_inv_tail in E. auto.
Qed.

(** Reading a word. *)
Lemma read_word_ok ws w r old : spaces ws -> w <> [] -> Forall (fun c => is_space c = false) w -> stops (fun c => negb (is_space c)) r ->
  read_word old (opened (ws ++ w ++ r)) = (w, Stream r (at_end r) false).
Proof.
  intros Hw Hn H Hr. unfold read_word. rewrite formatted_skip; auto.
  - assert (H' : Forall (fun c => negb (is_space c) = true) w) by (eapply Forall_impl; [|exact H]; cbn; intros a ->; auto).
    rewrite take_app, drop_app, take_stop, drop_stop, app_nil_r; auto.
  - destruct w; [congruence|discriminate].
  - apply stops_app; auto. destruct w; [congruence|]. apply Forall_cons_iff in H as [H _]. exact H.
Qed.
Lemma read_word_none ws old : spaces ws -> read_word old (opened ws) = (old, Stream [] true true).
Proof. intros Hw. unfold read_word, formatted. cbn [good opened eofbit failbit negb andb rest]. rewrite drop_all; auto. Qed.
Lemma opened_rest s : good s = true -> s = opened (rest s).
Proof. destruct s as [t [] []]; cbn; try discriminate. reflexivity. Qed.

Lemma text_eqb_spec a b : reflect (a = b) (text_eqb a b).
Proof. unfold text_eqb. destruct (list_eq_dec ascii_dec a b); constructor; auto. Qed.

(** Lines. *)
Lemma split_line_newline l r : ~ In newline l -> split_line (l ++ newline :: r) = (l, Some r).
Proof.
  induction l as [|c l IH]; cbn [app split_line].
  - destruct (ascii_dec newline newline); congruence.
  - intros H. destruct (ascii_dec c newline) as [->|_]; [exfalso; apply H; left; auto|]. rewrite IH; auto. intros K. apply H. right. auto.
Qed.
Lemma split_line_end l : ~ In newline l -> split_line l = (l, None).
Proof.
  induction l as [|c l IH]; cbn [split_line]; auto.
  intros H. destruct (ascii_dec c newline) as [->|_]; [exfalso; apply H; left; auto|]. rewrite IH; auto. intros K. apply H. right. auto.
Qed.
Lemma getline_newline old l r : ~ In newline l -> getline old (opened (l ++ newline :: r)) = (l, opened r).
Proof. intros H. unfold getline. cbn [good opened eofbit failbit negb andb rest]. rewrite split_line_newline; auto. destruct l; reflexivity. Qed.
Lemma getline_end old l : ~ In newline l -> l <> [] -> getline old (opened l) = (l, Stream [] true false).
Proof. intros H Hn. unfold getline. cbn [good opened eofbit failbit negb andb rest]. rewrite split_line_end; auto. destruct l; [congruence|reflexivity]. Qed.
