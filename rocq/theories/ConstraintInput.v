(** * ConstraintInput: the grammar of constraints, and how they are read. *)
From Coq Require Import List ZArith Arith Bool Ascii String Lia.
From Verif Require Import Base Spec LinAlg ListUtil ArithModel SafeIntModel IntTypes RowLcm StreamModel StreamProofs IntLcm InputModel InputProofs ClassesModel ConstraintModel.
Import ListNotations.
Open Scope nat_scope.

(** ** Characters *)
Definition starts_relation (c : ascii) : bool := is_char (Some c) "<" || is_char (Some c) "=" || is_char (Some c) ">".
(** A name: no white space; it does not start like a number, an identifier or a relation. *)
Definition name_text (n : text) : Prop :=
  Forall (fun c => is_space c = false) n /\ match n with [] => False | c :: _ => is_factor c = false /\ c <> "("%char /\ starts_relation c = false end.
Definition variable (names : list text) (n : text) (i : nat) : Prop := nth_error names i = Some n /\ name_text n.
(** A factor: nothing, a sign or an integer. *)
Inductive factor_text : text -> Z -> Prop :=
| factor_none : factor_text [] 1
| factor_plus : factor_text (lit "+") 1
| factor_minus : factor_text (lit "-") (-1)
| factor_integer p z : integer_text p z -> int_range z -> factor_text p z.
(** A term: factor and name, possibly with a sign before it (and blanks between). *)
Inductive term_text (names : list text) : text -> nat * Z -> Prop :=
| term_joined f n z i : factor_text f z -> variable names n i -> term_text names (f ++ n) (i, z)
| term_plus u f n z i : blanks u -> u <> [] -> factor_text f z -> (0 <= z)%Z -> variable names n i -> term_text names ("+"%char :: u ++ f ++ n) (i, z)
| term_minus u f n z i : blanks u -> u <> [] -> factor_text f z -> (0 <= z)%Z -> variable names n i -> term_text names ("-"%char :: u ++ f ++ n) (i, - z)%Z.
(** Terms, each followed by blanks. *)
Inductive terms_text (names : list text) : text -> list (nat * Z) -> Prop :=
| terms_none : terms_text names [] []
| terms_cons t x u l xs : term_text names t x -> blanks u -> u <> [] -> terms_text names l xs -> terms_text names (t ++ u ++ l) (x :: xs).
(** A relation operator with the blanks that follow it ("=" must be followed by one). *)
Inductive relation_text : text -> relation_operator -> Prop :=
| relation_le v : blanks v -> relation_text (lit "<=" ++ v) LessEqual
| relation_ge v : blanks v -> relation_text (lit ">=" ++ v) GreaterEqual
| relation_eq v : blanks v -> v <> [] -> relation_text (lit "=" ++ v) Equal
| relation_eqeq v : blanks v -> relation_text (lit "==" ++ v) Equal.

Lemma integer_chars p z : integer_text p z -> Forall (fun c => is_factor c = true) p /\ Forall (fun c => is_space c = false) p.
Proof.
  assert (D : forall ds, digits ds -> Forall (fun c => is_factor c = true) ds /\ Forall (fun c => is_space c = false) ds).
  { intros ds H. split; (eapply Forall_impl; [|exact H]); cbn; intros c Hc; [unfold is_factor; rewrite Hc; apply orb_true_r|apply digit_space; auto]. }
  intros H. inversion H as [ds Hn Hd|ds Hn Hd|ds Hn Hd]; subst; try solve [apply D; auto]; destruct (D ds Hd); split; constructor; auto.
Qed.
Lemma factor_chars f z : factor_text f z -> Forall (fun c => is_factor c = true) f /\ Forall (fun c => is_space c = false) f.
Proof.
  intros H. inversion H as [| | |p z' Hp Hz]; subst; [repeat constructor..|]. eapply integer_chars; eauto.
Qed.
Lemma factor_range f z : factor_text f z -> int_range z.
Proof. intros H. inversion H as [| | |p z' Hp Hz]; subst; auto; unfold int_range, StreamModel.int_min, StreamModel.int_max; lia. Qed.
Lemma to_int_integer p z : integer_text p z -> int_range z -> m_to_int p = Ok z.
Proof.
  intros Hp Hz. unfold m_to_int. assert (R := read_int_ok [] p z [] 0%Z (Forall_nil _) Hp I Hz). cbn [app] in R. rewrite app_nil_r in R. rewrite R.
  assert (N : p <> [] /\ p <> lit "+" /\ p <> lit "-").
  { inversion Hp as [ds Hn Hd|ds Hn Hd|ds Hn Hd]; subst.
    - split; [auto|]. split; intros ->; apply Forall_cons_iff in Hd as [Hd _]; discriminate Hd.
    - split; [discriminate|]. split; [|discriminate]. intros E. injection E as ->. auto.
    - split; [discriminate|]. split; [discriminate|]. intros E. injection E as ->. auto. }
  destruct N as (N1 & N2 & N3). destruct p as [|c p]; [congruence|]. cbn [at_end orb].
  destruct (text_eqb_spec (c :: p) (lit "+")); [congruence|]. destruct (text_eqb_spec (c :: p) (lit "-")); [congruence|]. reflexivity.
Qed.
Lemma to_int_factor f z : factor_text f z -> m_to_int f = Ok z.
Proof. intros H. inversion H as [| | |p z' Hp Hz]; subst; try reflexivity. apply to_int_integer; auto. Qed.
Lemma name_stops n r : name_text n -> n <> [] /\ stops is_factor (n ++ r).
Proof. intros [_ H]. destruct n as [|c n]; [destruct H|]. split; [discriminate|]. cbn. tauto. Qed.
Lemma find_name_ok names n i : NoDup names -> nth_error names i = Some n -> find_name n names = Some i.
Proof.
  intros H. revert i. induction H as [|m names Hm H IH]; intros [|i] E; cbn in *; try discriminate.
  - injection E as ->. destruct (text_eqb_spec n n); [auto|congruence].
  - destruct (text_eqb_spec m n) as [->|]; [exfalso; apply Hm; eapply nth_error_In; eauto|]. rewrite (IH i E). reflexivity.
Qed.
Lemma term_variable names f n z i : NoDup names -> factor_text f z -> variable names n i -> m_term (f ++ n) names = Ok (i, z).
Proof.
  intros Hd Hf [Hi Hn]. destruct (name_stops n [] Hn) as [Hne Hs]. rewrite app_nil_r in Hs. destruct (factor_chars f z Hf) as [Hc _]. unfold m_term.
  rewrite take_app, drop_app, take_stop, drop_stop, app_nil_r by auto. rewrite (to_int_factor f z Hf). cbn [bind]. destruct n; [congruence|]. rewrite (find_name_ok names _ i); auto.
Qed.
Lemma term_rhs names p b : integer_text p b -> int_range b -> int_range (- b) -> m_term p names = Ok (length names, (- b)%Z).
Proof.
  intros Hp Hb Hb'. destruct (integer_chars p b Hp) as [Hc _]. unfold m_term. rewrite <- (app_nil_r p). rewrite take_app, drop_app by auto. cbn [take_while drop_while]. rewrite app_nil_r.
  rewrite (to_int_integer p b) by auto. cbn [bind]. unfold i_neg. rewrite ck_int by auto. reflexivity.
Qed.

(** ** Tests at the beginning of a round *)
Lemma is_end_of_line_opened t : m_is_end_of_line (opened t) = (match t with [] => false | c :: _ => is_eol c end, opened t).
Proof. destruct t; reflexivity. Qed.
Lemma is_end_of_file_opened t : m_is_end_of_file (opened t) = (at_end t, opened t).
Proof. destruct t; reflexivity. Qed.
Lemma is_relation_not c t : starts_relation c = false -> m_is_relation (opened (c :: t)) = (false, opened (c :: t)).
Proof. intros H. unfold m_is_relation. rewrite tellg_opened. change (ok (opened (c :: t))) with true. cbn [negb]. rewrite peek_opened. unfold starts_relation in H. rewrite H. reflexivity. Qed.
Lemma is_relation_ok w op r : relation_text w op -> m_is_relation (opened (w ++ r)) = (true, opened (w ++ r)).
Proof.
  intros H. inversion H as [v Hv|v Hv|v Hv Hn|v Hv]; subst; try reflexivity. destruct v as [|c v]; [congruence|]. apply Forall_cons_iff in Hv as [Hc _].
  unfold is_blank in Hc. cbn [app lit list_ascii_of_string]. unfold m_is_relation. rewrite tellg_opened. change (ok (opened _)) with true. cbn [negb]. rewrite peek_opened. cbn [at_end].
  change (is_char (Some "="%char) "<" || is_char (Some "="%char) "=" || is_char (Some "="%char) ">") with true. cbv iota.
  change (Stream ("="%char :: c :: v ++ r) false false) with (opened ("="%char :: c :: v ++ r)). rewrite get_opened. change (ok (opened (c :: v ++ r))) with true. cbv iota.
  rewrite peek_opened. cbn [at_end]. destruct (is_char (Some c) "="); [reflexivity|].
  change (ok (Stream (c :: v ++ r) false false)) with true. cbn [negb]. change (Stream (c :: v ++ r) false false) with (opened (c :: v ++ r)).
  rewrite is_whitespace_opened. cbn [one_of]. unfold is_blank. rewrite Hc. reflexivity.
Qed.
Lemma relation_operator_ok w op r : relation_text w op -> stops is_blank r -> stops (fun c => is_char (Some c) "=") r ->
  exists s, m_relation_operator (opened (w ++ r)) = Ok (op, s) /\ m_skip_whitespace s = Ok (opened r).
Proof.
  intros H Hr Hq. inversion H as [v Hv|v Hv|v Hv Hn|v Hv]; subst.
  - exists (opened (v ++ r)). split; [reflexivity|]. unfold opened at 1. rewrite skip_whitespace_ok by discriminate. rewrite drop_app, drop_stop; auto.
  - exists (opened (v ++ r)). split; [reflexivity|]. unfold opened at 1. rewrite skip_whitespace_ok by discriminate. rewrite drop_app, drop_stop; auto.
  - exists (opened (v ++ r)). split; [|unfold opened at 1; rewrite skip_whitespace_ok by discriminate; rewrite drop_app, drop_stop; auto].
    destruct v as [|c v]; [congruence|]. apply Forall_cons_iff in Hv as [Hc _]. cbn [app lit list_ascii_of_string]. unfold m_relation_operator.
    change (ok (opened _)) with true. cbn [negb]. rewrite get_opened. change (ok (opened (c :: v ++ r))) with true. cbv iota. rewrite peek_opened. cbn [at_end].
    change (is_char (Some "="%char) "<") with false. change (is_char (Some "="%char) "=") with true. cbv iota.
    destruct (is_char_spec c "=") as [->|]; [discriminate Hc|]. change (ok (Stream (c :: v ++ r) false false)) with true. cbn [negb].
    change (Stream (c :: v ++ r) false false) with (opened (c :: v ++ r)). rewrite is_whitespace_opened. cbn [one_of]. rewrite Hc. reflexivity.
  - exists (opened (v ++ r)). split; [reflexivity|]. unfold opened at 1. rewrite skip_whitespace_ok by discriminate. rewrite drop_app, drop_stop; auto.
Qed.

(** ** Coefficient vectors *)
Fixpoint total (j : nat) (terms : list (nat * Z)) : Z :=
  match terms with [] => 0%Z | (i, z) :: terms' => ((if (i =? j)%nat then z else 0) + total j terms')%Z end.
Definition coefficients (n : nat) (terms : list (nat * Z)) : vec := map (fun j => total j terms) (seq 0 n).
Lemma total_app j a b : total j (a ++ b) = (total j a + total j b)%Z.
Proof. induction a as [|[i z] a IH]; cbn; auto. rewrite IH. lia. Qed.
Lemma coefficients_length n terms : length (coefficients n terms) = n.
Proof. unfold coefficients. rewrite map_length, seq_length. reflexivity. Qed.
Lemma coefficients_nth n terms j : j < n -> nth j (coefficients n terms) 0%Z = total j terms.
Proof. intros H. unfold coefficients. rewrite (nth_indep _ 0%Z (total 0 terms)) by (rewrite map_length, seq_length; auto). rewrite (map_nth (fun j => total j terms)), seq_nth by auto. reflexivity. Qed.
Lemma get_nth l i : i < length l -> get l i = Ok (nth i l 0%Z).
Proof. intros H. unfold get. rewrite (nth_error_nth' l 0%Z H). reflexivity. Qed.
Lemma set_upd (l : vec) i x : i < length l -> set l i x = Ok (upd l i x).
Proof. intros H. unfold set. destruct (Nat.ltb_spec i (length l)); [auto|lia]. Qed.
Lemma upd_coefficients n terms i z e : i < n -> total i terms = 0%Z -> upd (coefficients n terms ++ [e]) i z = coefficients n (terms ++ [(i, z)]) ++ [e].
Proof.
  intros Hi Ht. apply (nth_ext _ _ 0%Z 0%Z); [rewrite upd_length, !app_length, !coefficients_length; auto|]. intros j Hj.
  rewrite upd_length, app_length, coefficients_length in Hj. cbn [length] in Hj. rewrite nth_upd, app_length, coefficients_length. cbn [length].
  destruct (Nat.ltb_spec j (n + 1)); [|lia]. rewrite andb_true_r. destruct (Nat.eqb_spec j i) as [->|Hji].
  - rewrite app_nth1 by (rewrite coefficients_length; auto). rewrite coefficients_nth by auto. rewrite total_app, Ht. cbn [total]. rewrite Nat.eqb_refl. lia.
  - destruct (Nat.lt_ge_cases j n).
    + rewrite !app_nth1 by (rewrite coefficients_length; auto). rewrite !coefficients_nth by auto. rewrite total_app. cbn [total]. destruct (Nat.eqb_spec i j); [lia|]. lia.
    + rewrite !app_nth2 by (rewrite coefficients_length; auto). rewrite !coefficients_length. reflexivity.
Qed.
Lemma upd_last n terms e x : upd (coefficients n terms ++ [e]) n x = coefficients n terms ++ [x].
Proof.
  assert (K : forall (l : vec), upd (l ++ [e]) (length l) x = l ++ [x]) by (induction l as [|y l IH]; cbn; congruence).
  rewrite <- (coefficients_length n terms) at 2. apply K.
Qed.
Lemma repeat_coefficients n : repeat 0%Z (n + 1) = coefficients n [] ++ [0%Z].
Proof. rewrite repeat_app. f_equal. unfold coefficients. cbn [total]. induction n as [|n IH]; [reflexivity|]. rewrite seq_S, map_app, <- IH. cbn [map]. rewrite <- repeat_cons. reflexivity. Qed.

(** ** The loop over a constraint with names *)
Lemma factor_space c : is_factor c = true -> is_space c = false.
Proof.
  unfold is_factor, is_sign. rewrite !orb_true_iff. intros [[H|H]|H].
  - destruct (is_char_spec c "+") as [E|]; [rewrite E; reflexivity|discriminate].
  - destruct (is_char_spec c "-") as [E|]; [rewrite E; reflexivity|discriminate].
  - apply digit_space; auto.
Qed.
Lemma factor_relation c : is_factor c = true -> starts_relation c = false /\ c <> "("%char.
Proof.
  intros H. assert (N : forall d, is_factor d = false -> c <> d) by (intros d Hd ->; congruence). split; [|apply N; reflexivity].
  unfold starts_relation. destruct (is_char_spec c "<") as [E|_]; [exfalso; revert E; apply N; reflexivity|]. destruct (is_char_spec c "=") as [E|_]; [exfalso; revert E; apply N; reflexivity|].
  destruct (is_char_spec c ">") as [E|_]; [exfalso; revert E; apply N; reflexivity|]. reflexivity.
Qed.
Lemma space_eol c : is_space c = false -> is_eol c = false.
Proof.
  intros H. unfold is_eol. destruct (is_char_spec c carriage_return) as [->|_]; [discriminate H|]. destruct (is_char_spec c newline) as [->|_]; [discriminate H|]. reflexivity.
Qed.
Lemma space_blank c : is_space c = false -> is_blank c = false.
Proof. intros H. destruct (is_blank c) eqn:E; auto. apply blank_space in E. congruence. Qed.
Definition plain_first (c : ascii) : Prop := is_space c = false /\ starts_relation c = false /\ c <> "("%char.
Lemma factor_name_first names f n z i : factor_text f z -> variable names n i -> exists c t, f ++ n = c :: t /\ plain_first c.
Proof.
  intros Hf [_ [Hsp Hn]]. destruct (factor_chars f z Hf) as [Hc _]. destruct f as [|c f].
  - destruct n as [|c n]; [destruct Hn|]. exists c, n. apply Forall_cons_iff in Hsp as [Hsp _]. unfold plain_first. cbn. tauto.
  - apply Forall_cons_iff in Hc as [Hc _]. exists c, (f ++ n). split; auto. split; [apply factor_space; auto|apply factor_relation; auto].
Qed.
Lemma term_first names t x : term_text names t x -> exists c t', t = c :: t' /\ plain_first c.
Proof.
  intros H. inversion H as [f n z i Hf Hv|u f n z i Hu Hne Hf Hz Hv|u f n z i Hu Hne Hf Hz Hv]; subst.
  - eapply factor_name_first; eauto.
  - exists "+"%char. eexists. split; [reflexivity|]. repeat split; discriminate.
  - exists "-"%char. eexists. split; [reflexivity|]. repeat split; discriminate.
Qed.
Lemma term_index names t i z : term_text names t (i, z) -> i < length names /\ int_range z.
Proof.
  intros H. inversion H as [f n z' i' Hf Hv|u f n z' i' Hu Hne Hf Hz Hv|u f n z' i' Hu Hne Hf Hz Hv]; subst; (split; [apply nth_error_Some; destruct Hv as [-> _]; discriminate|]);
    assert (R := factor_range _ _ Hf); auto. unfold int_range, StreamModel.int_min, StreamModel.int_max in *. lia.
Qed.
Lemma factor_name_spaces names f n z i : factor_text f z -> variable names n i -> Forall (fun c => is_space c = false) (f ++ n) /\ f ++ n <> [] /\ f ++ n <> lit "+" /\ f ++ n <> lit "-".
Proof.
  intros Hf [_ [Hsp Hn]]. destruct (factor_chars f z Hf) as [Hc Hc']. split; [apply Forall_app; auto|]. destruct n as [|c n]; [destruct Hn|]. destruct Hn as (Hn & _).
  split; [destruct f; discriminate|].
  assert (K : forall d, is_factor d = true -> f ++ c :: n <> [d]).
  { intros d Hd E. destruct f as [|x f]; cbn in E; [injection E as -> ->; congruence|]. injection E as _ E. destruct f; discriminate E. }
  split; apply K; reflexivity.
Qed.
Lemma round_plain c t T : T = c :: t -> is_space c = false ->
  m_is_end_of_line (opened T) = (false, opened T) /\ m_is_end_of_file (opened T) = (false, opened T) /\ (starts_relation c = false -> m_is_relation (opened T) = (false, opened T)).
Proof. intros -> H. rewrite is_end_of_line_opened, space_eol, is_end_of_file_opened by auto. split; [reflexivity|]. split; [reflexivity|]. apply is_relation_not. Qed.
Lemma at_end_app_cons (u : text) r : u <> [] -> Stream (u ++ r) (at_end (u ++ r)) false = opened (u ++ r).
Proof. destruct u; [congruence|]. reflexivity. Qed.
Lemma blanks_stop_space u r : blanks u -> u <> [] -> stops (fun c => negb (is_space c)) (u ++ r).
Proof. destruct u as [|c u]; [congruence|]. intros H _. apply Forall_cons_iff in H as [H _]. cbn. rewrite blank_space by auto. reflexivity. Qed.

Lemma named_term_step names type k ieq rel t i z u l : NoDup names -> length ieq = length names + 1 -> term_text names t (i, z) -> blanks u -> u <> [] -> stops is_blank l ->
  named_loop (S k) names type ieq rel false (opened (t ++ u ++ l)) =
    if (nth i ieq 0 =? 0)%Z then named_loop k names type (upd ieq i z) rel false (opened l) else Throw.
Proof.
  intros Hd Hlen Ht Hu Hn Hl. destruct (term_index _ _ _ _ Ht) as [Hi Hz]. destruct (term_first _ _ _ Ht) as (c & t' & Et & Hsp & Hrel & _).
  destruct (round_plain c (t' ++ u ++ l) (t ++ u ++ l)) as (T1 & T2 & T3); [rewrite Et; reflexivity|auto|].
  cbn [named_loop]. change (ok (opened (t ++ u ++ l))) with true. cbn [negb]. rewrite T1, T2, T3 by auto. clear c t' Et Hsp Hrel T1 T2 T3.
  assert (Hi' : i < length ieq) by lia.
  assert (Fin : forall w e, drop_while is_blank w = l -> (e = true -> w = []) ->
    (do x <- get ieq i;
     if negb (x =? 0)%Z && (i + 1 <? length ieq) then Throw
     else do ieq <- set ieq i z; if false then Throw else do has_rhs <- (if i + 1 =? length ieq then if negb (m_decided rel) then Throw else Ok true else Ok false);
       do s <- m_skip_whitespace (Stream w e false); named_loop k names type ieq rel has_rhs s)%res =
    if (nth i ieq 0 =? 0)%Z then named_loop k names type (upd ieq i z) rel false (opened l) else Throw).
  { intros w e Hw He. rewrite get_nth by auto. cbn [bind]. destruct (Nat.ltb_spec (i + 1) (length ieq)); [|lia]. rewrite andb_true_r. destruct (nth i ieq 0 =? 0)%Z; cbn [negb]; [|reflexivity].
    rewrite set_upd by auto. cbn [bind]. rewrite upd_length. destruct (Nat.eqb_spec (i + 1) (length ieq)); [lia|]. cbn [bind]. rewrite skip_whitespace_ok by auto. rewrite Hw. reflexivity. }
  assert (Hd' : drop_while is_blank (u ++ l) = l) by (rewrite drop_app, drop_stop; auto).
  assert (Hss := blanks_stop_space u l Hu Hn).
  inversion Ht as [f n z' i' Hf Hv|v f n z' i' Hv' Hvn Hf Hz' Hv|v f n z' i' Hv' Hvn Hf Hz' Hv]; subst.
  - destruct (factor_name_spaces _ _ _ _ _ Hf Hv) as (F1 & F2 & F3 & F4).
    assert (RW := read_word_ok [] (f ++ n) (u ++ l) [] (Forall_nil _) F2 F1 Hss). cbn [app] in RW. rewrite RW.
    destruct (text_eqb_spec (f ++ n) (lit "+")); [congruence|]. destruct (text_eqb_spec (f ++ n) (lit "-")); [congruence|]. cbn [orb].
    rewrite (term_variable names f n z i) by auto. cbn [bind fst snd]. apply Fin; auto. apply at_end_sane.
  - destruct (factor_name_spaces _ _ _ _ _ Hf Hv) as (F1 & F2 & F3 & F4). assert (Hs2 := blanks_stop_space v ((f ++ n) ++ u ++ l) Hv' Hvn).
    replace (("+"%char :: v ++ f ++ n) ++ u ++ l) with (lit "+" ++ v ++ (f ++ n) ++ u ++ l) by (cbn; rewrite <- !app_assoc; reflexivity).
    assert (RW := read_word_ok [] (lit "+") _ [] (Forall_nil _) ltac:(discriminate) ltac:(repeat constructor) Hs2). rewrite app_nil_l in RW. rewrite RW, at_end_app_cons by auto.
    change (text_eqb (lit "+") (lit "+")) with true. cbn [orb]. rewrite (read_word_ok v (f ++ n) (u ++ l) _ (blanks_spaces v Hv') F2 F1 Hss).
    rewrite (term_variable names f n z i) by auto. cbn [bind]. destruct (Z.ltb_spec z 0); [lia|]. cbn [negb bind]. apply Fin; auto. apply at_end_sane.
  - destruct (factor_name_spaces _ _ _ _ _ Hf Hv) as (F1 & F2 & F3 & F4). assert (Hs2 := blanks_stop_space v ((f ++ n) ++ u ++ l) Hv' Hvn).
    replace (("-"%char :: v ++ f ++ n) ++ u ++ l) with (lit "-" ++ v ++ (f ++ n) ++ u ++ l) by (cbn; rewrite <- !app_assoc; reflexivity).
    assert (RW := read_word_ok [] (lit "-") _ [] (Forall_nil _) ltac:(discriminate) ltac:(repeat constructor) Hs2). rewrite app_nil_l in RW. rewrite RW, at_end_app_cons by auto.
    change (text_eqb (lit "-") (lit "+")) with false. change (text_eqb (lit "-") (lit "-")) with true. cbn [orb].
    rewrite (read_word_ok v (f ++ n) (u ++ l) _ (blanks_spaces v Hv') F2 F1 Hss).
    rewrite (term_variable names f n z' i) by auto. cbn [bind]. destruct (Z.ltb_spec z' 0); [lia|]. cbn [negb]. unfold i_mul. replace (z' * -1)%Z with (- z')%Z by lia.
    rewrite ck_int by auto. cbn [bind]. apply Fin; auto. apply at_end_sane.
Qed.
Lemma relation_first w op : relation_text w op -> exists c w', w = c :: w' /\ is_space c = false /\ c <> "("%char /\ is_digit c = false.
Proof. intros H. inversion H; subst; eexists; eexists; (split; [reflexivity|]); repeat split; discriminate. Qed.
Lemma named_relation_step names type k ieq has_rhs w op r : relation_text w op -> stops is_blank r -> stops (fun c => is_char (Some c) "=") r ->
  named_loop (S k) names type ieq Undecided has_rhs (opened (w ++ r)) =
    if m_relation_allowed type op then named_loop k names type ieq op has_rhs (opened r) else Throw.
Proof.
  intros Hw Hr Hq. destruct (relation_first w op Hw) as (c & w' & Ew & Hc & _).
  destruct (round_plain c (w' ++ r) (w ++ r)) as (T1 & T2 & _); [rewrite Ew; reflexivity|auto|].
  cbn [named_loop]. change (ok (opened (w ++ r))) with true. cbn [negb]. rewrite T1, T2, (is_relation_ok w op r Hw). cbn [m_decided].
  destruct (relation_operator_ok w op r Hw Hr Hq) as (s & -> & E). cbn [bind]. destruct (m_relation_allowed type op); cbn [negb]; [|reflexivity]. rewrite E. reflexivity.
Qed.
Lemma integer_first p z : integer_text p z -> exists c p', p = c :: p' /\ plain_first c /\ is_char (Some c) "=" = false.
Proof.
  intros H. destruct (integer_text_first p z H) as (c & p' & -> & Hc). exists c, p'. split; auto.
  destruct (integer_chars _ _ H) as [H1 H2]. apply Forall_cons_iff in H1 as [H1 _]. apply Forall_cons_iff in H2 as [H2 _]. destruct (factor_relation c H1) as [H3 H4].
  split; [split; auto|]. unfold starts_relation in H3. rewrite !orb_false_iff in H3. tauto.
Qed.
Lemma line_end_space w r : blanks w -> line_end r -> stops (fun c => negb (is_space c)) (w ++ r).
Proof. intros Hw Hr. destruct w as [|c w]; [|apply (blanks_stop_space (c :: w) r Hw); discriminate]. destruct r as [|c r]; [exact I|]. cbn in Hr. subst c. reflexivity. Qed.
Lemma line_end_blanks w r : blanks w -> line_end r -> drop_while is_blank (w ++ r) = r.
Proof. intros Hw Hr. rewrite drop_app by auto. apply drop_stop. destruct r as [|c r]; [exact I|]. cbn in Hr. subst c. reflexivity. Qed.
Lemma named_end names type k ieq rel has_rhs r : line_end r -> named_loop (S k) names type ieq rel has_rhs (opened r) = Ok (ieq, rel, has_rhs, opened r).
Proof. intros H. destruct r as [|c r]; [reflexivity|]. cbn in H. subst c. reflexivity. Qed.
Lemma named_rhs_step names type k terms op p b w r : m_decided op = true -> integer_text p b -> int_range b -> int_range (- b) -> blanks w -> line_end r ->
  named_loop (S (S k)) names type (coefficients (length names) terms ++ [0%Z]) op false (opened (p ++ w ++ r)) = Ok (coefficients (length names) terms ++ [(- b)%Z], op, true, opened r).
Proof.
  intros Hop Hp Hb Hb' Hw Hr. destruct (integer_first p b Hp) as (c & p' & Ep & (Hc & Hrel & _) & _).
  destruct (round_plain c (p' ++ w ++ r) (p ++ w ++ r)) as (T1 & T2 & T3); [rewrite Ep; reflexivity|auto|].
  set (k1 := S k). cbn [named_loop]. change (ok (opened (p ++ w ++ r))) with true. cbn [negb]. rewrite T1, T2, T3 by auto.
  destruct (integer_chars p b Hp) as [F1 F2]. assert (F3 : p <> []) by (rewrite Ep; discriminate).
  assert (RW := read_word_ok [] p (w ++ r) [] (Forall_nil _) F3 F2 (line_end_space w r Hw Hr)). rewrite app_nil_l in RW. rewrite RW. clear RW.
  assert (N : p <> lit "+" /\ p <> lit "-").
  { inversion Hp as [ds Hn Hd|ds Hn Hd|ds Hn Hd]; subst.
    - split; intros E; rewrite E in Hd; apply Forall_cons_iff in Hd as [Hd _]; discriminate Hd.
    - split; [|discriminate]. intros E. injection E as E. auto.
    - split; [discriminate|]. intros E. injection E as E. auto. }
  destruct N as [N1 N2]. destruct (text_eqb_spec p (lit "+")); [congruence|]. destruct (text_eqb_spec p (lit "-")); [congruence|]. cbn [orb].
  rewrite (term_rhs names p b) by auto. cbn [bind fst snd].
  assert (L : length (coefficients (length names) terms ++ [0%Z]) = length names + 1) by (rewrite app_length, coefficients_length; reflexivity).
  rewrite get_nth by lia. cbn [bind]. rewrite L. destruct (Nat.ltb_spec (length names + 1) (length names + 1)); [lia|]. rewrite andb_false_r.
  rewrite set_upd by lia. cbn [bind]. rewrite upd_last. rewrite app_length, coefficients_length. cbn [length]. rewrite Nat.eqb_refl, Hop. cbn [negb bind].
  rewrite skip_whitespace_at_end, line_end_blanks by auto. cbn [bind]. apply named_end; auto.
Qed.
(** A variable occurs again after it has got a coefficient. *)
Fixpoint repeats (seen terms : list (nat * Z)) : bool :=
  match terms with
  | [] => false
  | (i, z) :: terms' => negb (total i seen =? 0)%Z || repeats (seen ++ [(i, z)]) terms'
  end.
Lemma terms_first names l xs r : terms_text names l xs -> stops is_blank r -> stops is_blank (l ++ r).
Proof.
  intros H Hr. inversion H as [|t x u l' xs' Ht]; subst; auto. destruct (term_first _ _ _ Ht) as (c & t' & -> & Hc & _). cbn. apply space_blank; auto.
Qed.
Lemma named_terms names type rel l xs : NoDup names -> terms_text names l xs -> forall seen k r, stops is_blank r ->
  named_loop (length xs + k) names type (coefficients (length names) seen ++ [0%Z]) rel false (opened (l ++ r)) =
    if repeats seen xs then Throw else named_loop k names type (coefficients (length names) (seen ++ xs) ++ [0%Z]) rel false (opened r).
Proof.
  intros Hd. induction 1 as [|t [i z] u l xs Ht Hu Hn Hl IH]; intros seen k r Hr; cbn [length repeats].
  - rewrite app_nil_r. reflexivity.
  - rewrite <- !app_assoc. destruct (term_index _ _ _ _ Ht) as [Hi _].
    etransitivity; [apply (named_term_step names type (length xs + k) _ rel t i z u (l ++ r)); auto; [rewrite app_length, coefficients_length; reflexivity|eapply terms_first; eauto]|].
    rewrite app_nth1 by (rewrite coefficients_length; auto). rewrite coefficients_nth by auto. destruct (Z.eqb_spec (total i seen) 0) as [E|E]; cbn [negb orb]; [|reflexivity].
    rewrite upd_coefficients by auto. rewrite IH by auto. rewrite <- app_assoc. reflexivity.
Qed.
Lemma terms_length names l xs : terms_text names l xs -> length xs <= length l.
Proof. induction 1 as [|t x u l xs Ht Hu Hn Hl IH]; cbn; auto. destruct (term_first _ _ _ Ht) as (c & t' & -> & _). rewrite !app_length. cbn. lia. Qed.
(** ** Normalisation *)
Definition oriented (op : relation_operator) (row : vec) : vec := match op with GreaterEqual => map Z.opp row | _ => row end.
Lemma normalize_ok row op : Forall small row -> m_normalize_relation row op = Ok (oriented op row).
Proof.
  intros H. destruct op; try reflexivity. cbn [m_normalize_relation oriented]. unfold m_row_mul. change (a_eqi (arith INT32) (-1)%Z 1) with false. cbv iota.
  induction H as [|x row Hx _ IH]; [reflexivity|]. cbn [mapM map]. change (a_mul (arith INT32) x (-1)%Z) with (i_mul 32 x (-1)). unfold i_mul.
  rewrite ck_int by (unfold small, int_range, StreamModel.int_min, StreamModel.int_max in *; lia). cbn [bind]. rewrite IH. cbn [bind]. do 2 f_equal. lia.
Qed.
(** A constraint with names: label, terms, relation, right hand side. *)
Inductive named_text (names : list text) : text -> list (nat * Z) -> relation_operator -> Z -> Prop :=
| named_line l xs w op p b v : terms_text names l xs -> relation_text w op -> integer_text p b -> int_range b -> int_range (- b) -> blanks v ->
    named_text names (l ++ w ++ p ++ v) xs op b.
Definition coefficient_row (n : nat) (xs : list (nat * Z)) (b : Z) : vec := coefficients n xs ++ [(- b)%Z].
Lemma first_line_nonempty c t : c <> newline -> at_end (first_line (c :: t)) = false.
Proof. intros H. unfold first_line. cbn [split_line]. destruct (ascii_dec c newline); [congruence|]. destruct (split_line t). reflexivity. Qed.
Lemma named_first names line xs op b : named_text names line xs op b -> exists c t, line = c :: t /\ is_space c = false /\ c <> "("%char.
Proof.
  intros H. inversion H as [l xs' w op' p b' v Hl Hw Hp Hb Hb' Hv]; subst. inversion Hl as [|t x u l' xs' Ht]; subst.
  - destruct (relation_first _ _ Hw) as (c & w' & -> & H1 & H2 & _). cbn [app]. eauto.
  - destruct (term_first _ _ _ Ht) as (c & t' & -> & P1 & _ & P2). cbn [app]. eauto.
Qed.
Lemma named_constraint_ok names type lab line xs op b r : NoDup names -> label lab -> named_text names line xs op b -> line_end r -> Forall small (coefficients (length names) xs) ->
  m_named_constraint type names (opened (lab ++ line ++ r)) =
    if repeats [] xs || negb (m_relation_allowed type op) then Throw else Ok (oriented op (coefficient_row (length names) xs b), opened r).
Proof.
  intros Hd Hlab Hline Hr Hs. destruct (named_first _ _ _ _ _ Hline) as (c & t & Ec & Hc & Hp'). unfold m_named_constraint.
  rewrite optional_identifier_ok; auto.
  2:{ rewrite Ec. cbn. apply space_blank; auto. } 2:{ rewrite Ec. cbn [app stops]. destruct (is_char_spec c "("); [congruence|reflexivity]. }
  cbn [bind]. rewrite peek_line_opened. replace (at_end (first_line (line ++ r))) with false.
  2:{ rewrite Ec. cbn [app]. symmetry. apply first_line_nonempty. intros ->. discriminate Hc. }
  clear c t Ec Hc Hp'. inversion Hline as [l xs' w op' p b' v Hl Hw Hp Hb Hb' Hv]; subst.
  destruct (integer_first p b Hp) as (c & p' & Ep & (Hc & _ & _) & He).
  destruct (relation_first w op Hw) as (d & w' & Ew & Hdsp & _).
  rewrite repeat_coefficients. replace (length (rest (opened ((l ++ w ++ p ++ v) ++ r))) + 2) with (length xs + S (S (S (length l - length xs + length (w ++ p ++ v) + length r - 1)))).
  2:{ cbn [opened rest]. rewrite !app_length. assert (H := terms_length _ _ _ Hl). rewrite Ep. cbn [length]. lia. }
  replace ((l ++ w ++ p ++ v) ++ r) with (l ++ w ++ p ++ v ++ r) by (rewrite <- !app_assoc; reflexivity).
  rewrite (named_terms names type Undecided l xs Hd Hl); [|rewrite Ew; cbn; apply space_blank; auto]. destruct (repeats [] xs); cbn [orb bind]; [reflexivity|].
  rewrite (named_relation_step names type _ _ false w op); auto; [|rewrite Ep; cbn; apply space_blank; auto|rewrite Ep; exact He].
  destruct (m_relation_allowed type op) eqn:Ha; cbn [negb bind]; [|reflexivity].
  assert (Hop : m_decided op = true) by (inversion Hw; reflexivity). rewrite (named_rhs_step names type _ ([] ++ xs) op p b v r) by auto.
  cbn [bind negb app]. change ([] ++ xs) with xs. rewrite normalize_ok; [reflexivity|]. apply Forall_app. split; auto. constructor; [|constructor].
  unfold small, int_range, StreamModel.int_min, StreamModel.int_max in *. lia.
Qed.

(** ** Constraints without names *)
Inductive integers_text : text -> list Z -> Prop :=
| integers_none : integers_text [] []
| integers_cons p z u l zs : integer_text p z -> int_range z -> blanks u -> u <> [] -> integers_text l zs -> integers_text (p ++ u ++ l) (z :: zs).
(** Coefficients, relation, right hand side. *)
Inductive unnamed_text : text -> list Z -> relation_operator -> Z -> Prop :=
| unnamed_line l zs w op p b v : integers_text l zs -> relation_text w op -> integer_text p b -> int_range b -> int_range (- b) -> blanks v ->
    unnamed_text (l ++ w ++ p ++ v) zs op b.
(** Raw format: a row of numbers. *)
Inductive raw_text : text -> list Z -> Z -> Prop :=
| raw_line l zs p b v : integers_text l zs -> integer_text p b -> int_range b -> blanks v -> raw_text (l ++ p ++ v) zs b.

Lemma blanks_stop_digit u r : blanks u -> stops is_digit r -> stops is_digit (u ++ r).
Proof. destruct u as [|c u]; auto. intros H _. apply Forall_cons_iff in H as [H _]. cbn. apply blank_digit; auto. Qed.
Lemma unnamed_integer_step type k ieq rel p z l r : integer_text p z -> int_range z -> stops is_digit l -> drop_while is_blank l = r ->
  unnamed_loop (S k) type ieq rel false (opened (p ++ l)) = unnamed_loop k type (ieq ++ [z]) rel (m_decided rel) (opened r).
Proof.
  intros Hp Hz Hl Hr. destruct (integer_first p z Hp) as (c & p' & Ep & (Hc & Hrel & _) & _).
  destruct (round_plain c (p' ++ l) (p ++ l)) as (T1 & T2 & T3); [rewrite Ep; reflexivity|auto|].
  cbn [unnamed_loop]. change (ok (opened (p ++ l))) with true. cbn [negb]. rewrite T1, T2, T3 by auto.
  assert (R := read_int_ok [] p z l 0%Z (Forall_nil _) Hp Hl Hz). rewrite app_nil_l in R. rewrite R. change (ok (Stream l (at_end l) false)) with true. cbn [negb].
  rewrite skip_whitespace_at_end, Hr. cbn [bind]. destruct (m_decided rel); reflexivity.
Qed.
Lemma integers_first l zs r : integers_text l zs -> stops is_blank r -> stops is_blank (l ++ r).
Proof.
  intros H Hr. inversion H as [|p z u l' zs' Hp]; subst; auto. destruct (integer_first p z Hp) as (c & p' & -> & (Hc & _) & _). cbn. apply space_blank; auto.
Qed.
Lemma unnamed_integers type l zs : integers_text l zs -> forall ieq k r, stops is_blank r -> stops is_digit r \/ True ->
  unnamed_loop (length zs + k) type ieq Undecided false (opened (l ++ r)) = unnamed_loop k type (ieq ++ zs) Undecided false (opened r).
Proof.
  induction 1 as [|p z u l zs Hp Hz Hu Hn Hl IH]; intros ieq k r Hr _; cbn [length].
  - rewrite app_nil_r. reflexivity.
  - rewrite <- !app_assoc. etransitivity; [apply (unnamed_integer_step type (length zs + k) ieq Undecided p z (u ++ l ++ r) (l ++ r)); auto|].
    + destruct u as [|c u]; [congruence|]. apply Forall_cons_iff in Hu as [Hu _]. cbn. apply blank_digit; auto.
    + rewrite drop_app by auto. apply drop_stop. eapply integers_first; eauto.
    + cbn [m_decided]. rewrite IH by auto. rewrite <- app_assoc. reflexivity.
Qed.
Lemma integers_length l zs : integers_text l zs -> length zs <= length l.
Proof. induction 1 as [|p z u l zs Hp Hz Hu Hn Hl IH]; cbn; auto. destruct (integer_first p z Hp) as (c & p' & -> & _). rewrite !app_length. cbn. lia. Qed.
Lemma unnamed_end type k ieq rel has_rhs r : line_end r -> unnamed_loop (S k) type ieq rel has_rhs (opened r) = Ok (ieq, rel, has_rhs, opened r).
Proof. intros H. destruct r as [|c r]; [reflexivity|]. cbn in H. subst c. reflexivity. Qed.
Lemma unnamed_relation_step type k ieq has_rhs w op r : relation_text w op -> stops is_blank r -> stops (fun c => is_char (Some c) "=") r ->
  unnamed_loop (S k) type ieq Undecided has_rhs (opened (w ++ r)) =
    if m_relation_allowed type op then unnamed_loop k type ieq op has_rhs (opened r) else Throw.
Proof.
  intros Hw Hr Hq. destruct (relation_first w op Hw) as (c & w' & Ew & Hc & _).
  destruct (round_plain c (w' ++ r) (w ++ r)) as (T1 & T2 & _); [rewrite Ew; reflexivity|auto|].
  cbn [unnamed_loop]. change (ok (opened (w ++ r))) with true. cbn [negb]. rewrite T1, T2, (is_relation_ok w op r Hw). cbn [m_decided].
  destruct (relation_operator_ok w op r Hw Hr Hq) as (s & -> & E). cbn [bind]. destruct (m_relation_allowed type op); cbn [negb]; [|reflexivity]. rewrite E. reflexivity.
Qed.
Lemma back_last (l : vec) x : back (l ++ [x]) = Ok x.
Proof. unfold back. destruct (l ++ [x]) as [|y l'] eqn:E; [destruct l; discriminate|]. rewrite <- E. rewrite last_last. reflexivity. Qed.
Lemma line_end_digit w r : blanks w -> line_end r -> stops is_digit (w ++ r).
Proof. intros Hw Hr. apply blanks_stop_digit; auto. destruct r as [|c r]; [exact I|]. cbn in Hr. subst c. reflexivity. Qed.
Lemma unnamed_first line zs op b : unnamed_text line zs op b -> exists c t, line = c :: t /\ is_space c = false /\ c <> "("%char.
Proof.
  intros H. inversion H as [l zs' w op' p b' v Hl Hw Hp Hb Hb' Hv]; subst. inversion Hl as [|p0 x u l' xs' Ht]; subst.
  - destruct (relation_first _ _ Hw) as (c & w' & -> & P1 & P2 & _). cbn [app]. eauto.
  - destruct (integer_first _ _ Ht) as (c & t' & -> & (P1 & _ & P2) & _). cbn [app]. eauto.
Qed.
Lemma unnamed_constraint_ok type lab line zs op b r : label lab -> unnamed_text line zs op b -> line_end r -> Forall small zs ->
  m_unnamed_constraint type (opened (lab ++ line ++ r)) = if m_relation_allowed type op then Ok (oriented op (zs ++ [(- b)%Z]), opened r) else Throw.
Proof.
  intros Hlab Hline Hr Hs. destruct (unnamed_first _ _ _ _ Hline) as (c & t & Ec & Hc & Hp'). unfold m_unnamed_constraint.
  rewrite optional_identifier_ok; auto.
  2:{ rewrite Ec. cbn. apply space_blank; auto. } 2:{ rewrite Ec. cbn [app stops]. destruct (is_char_spec c "("); [congruence|reflexivity]. }
  cbn [bind]. clear c t Ec Hc Hp'. inversion Hline as [l zs' w op' p b' v Hl Hw Hp Hb Hb' Hv]; subst.
  destruct (integer_first p b Hp) as (c & p' & Ep & (Hc & _ & _) & He). destruct (relation_first w op Hw) as (d & w' & Ew & Hdsp & _).
  replace (length (rest (opened ((l ++ w ++ p ++ v) ++ r))) + 2) with (length zs + S (S (S (length l - length zs + length (w ++ p ++ v) + length r - 1)))).
  2:{ cbn [opened rest]. rewrite !app_length. assert (H := integers_length _ _ Hl). rewrite Ep. cbn [length]. lia. }
  replace ((l ++ w ++ p ++ v) ++ r) with (l ++ w ++ p ++ v ++ r) by (rewrite <- !app_assoc; reflexivity).
  rewrite (unnamed_integers type l zs Hl); auto; [|rewrite Ew; cbn; apply space_blank; auto]. cbn [app].
  rewrite (unnamed_relation_step type _ _ false w op); auto; [|rewrite Ep; cbn; apply space_blank; auto|rewrite Ep; exact He].
  destruct (m_relation_allowed type op) eqn:Ha; cbn [bind]; [|reflexivity].
  assert (Hop : m_decided op = true) by (inversion Hw; reflexivity).
  rewrite (unnamed_integer_step type _ zs op p b (v ++ r) r) by (auto using line_end_digit, line_end_blanks). rewrite unnamed_end by auto. cbn [bind]. rewrite Hop. cbn [andb negb].
  destruct (zs ++ [b]) as [|x xs] eqn:E; [destruct zs; discriminate|]. rewrite <- E. rewrite back_last. cbn [bind]. unfold i_mul. replace (b * -1)%Z with (- b)%Z by lia.
  rewrite ck_int by auto. cbn [bind]. rewrite removelast_app by discriminate. cbn [removelast]. rewrite app_nil_r. rewrite normalize_ok; [reflexivity|].
  apply Forall_app. split; auto. constructor; [|constructor]. unfold small, int_range, StreamModel.int_min, StreamModel.int_max in *. lia.
Qed.
Lemma raw_constraint_ok type lab line zs b r : label lab -> raw_text line zs b -> line_end r ->
  m_unnamed_constraint type (opened (lab ++ line ++ r)) = Ok (zs ++ [b], opened r).
Proof.
  intros Hlab Hline Hr. inversion Hline as [l zs' p b' v Hl Hp Hb Hv]; subst. destruct (integer_first p b Hp) as (c & p' & Ep & (Hc & Hrel & Hpar) & He).
  assert (F : stops is_blank ((l ++ p ++ v) ++ r) /\ stops (fun c => is_char (Some c) "(") ((l ++ p ++ v) ++ r)).
  { inversion Hl as [|q x u l' xs' Ht]; subst.
    - cbn [app stops]. split; [apply space_blank; auto|]. destruct (is_char_spec c "("); [congruence|reflexivity].
    - destruct (integer_first _ _ Ht) as (d & t' & -> & (P1 & _ & P2) & _). cbn [app stops]. split; [apply space_blank; auto|]. destruct (is_char_spec d "("); [congruence|reflexivity]. }
  destruct F as [F1 F2]. unfold m_unnamed_constraint. rewrite optional_identifier_ok by auto. cbn [bind].
  replace (length (rest (opened ((l ++ p ++ v) ++ r))) + 2) with (length zs + S (S (length l - length zs + length (p ++ v) + length r))).
  2:{ cbn [opened rest]. rewrite !app_length. assert (H := integers_length _ _ Hl). lia. }
  replace ((l ++ p ++ v) ++ r) with (l ++ p ++ v ++ r) by (rewrite <- !app_assoc; reflexivity).
  rewrite (unnamed_integers type l zs Hl); auto; [|rewrite Ep; cbn; apply space_blank; auto]. cbn [app].
  rewrite (unnamed_integer_step type _ zs Undecided p b (v ++ r) r) by (auto using line_end_digit, line_end_blanks). rewrite unnamed_end by auto. cbn [bind m_decided andb].
  destruct (zs ++ [b]) as [|x xs] eqn:E; [destruct zs; discriminate|]. reflexivity.
Qed.
