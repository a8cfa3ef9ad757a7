(** * ConstraintSection: the choice between constraints with and without names, and sections of constraints. *)
From Coq Require Import List ZArith Arith Bool Ascii String Lia.
From Verif Require Import Base Spec LinAlg ListUtil ArithModel SafeIntModel IntTypes RowLcm StreamModel StreamProofs IntLcm InputModel InputProofs InputTotal VertexInput ClassesModel
  ConstraintModel ConstraintInput.
Import ListNotations.
Open Scope nat_scope.

(** ** The search for names *)
Lemma is_prefix_spec w n : is_prefix w n = true <-> exists v, n = w ++ v.
Proof.
  unfold is_prefix. rewrite andb_true_iff, Nat.leb_le. split.
  - intros [H1 H2]. destruct (text_eqb_spec (firstn (length w) n) w) as [E|]; [|discriminate]. exists (skipn (length w) n). rewrite <- E at 1. symmetry. apply firstn_skipn.
  - intros (v & ->). rewrite app_length. split; [lia|]. rewrite firstn_app, Nat.sub_diag, firstn_all. cbn [firstn]. rewrite app_nil_r. destruct (text_eqb_spec w w); congruence.
Qed.
(** No name is a proper beginning of a name before it. *)
Definition prefix_ordered (names : list text) : Prop :=
  forall i j m n v, i < j -> nth_error names i = Some m -> nth_error names j = Some n -> m <> n ++ v \/ v = [].
Lemma find_prefix_name names n i : prefix_ordered names -> nth_error names i = Some n -> find (is_prefix n) names = Some n.
Proof.
  intros Ho Hi. destruct (find (is_prefix n) names) as [m|] eqn:E.
  - apply find_some in E as E'. destruct E' as [Hm Hp]. apply is_prefix_spec in Hp as (v & ->).
    (* position of the found name *)
    assert (K : exists j, nth_error names j = Some (n ++ v) /\ j <= i).
    { clear Ho Hm. revert i Hi E. induction names as [|x names IH]; intros [|i] Hi E; cbn in *; try discriminate.
      - injection Hi as ->. assert (P : is_prefix n n = true) by (apply is_prefix_spec; exists []; rewrite app_nil_r; auto). rewrite P in E. exists 0. split; [exact E|lia].
      - destruct (is_prefix n x); [exists 0; split; [exact E|lia]|]. destruct (IH i Hi E) as (j & H1 & H2). exists (S j). split; auto. lia. }
    destruct K as (j & Hj & Hle). destruct (Nat.eq_dec j i) as [->|Hne].
    + f_equal. rewrite Hi in Hj. injection Hj as Hj. auto.
    + destruct (Ho j i (n ++ v) n v ltac:(lia) Hj Hi) as [K| ->]; [congruence|rewrite app_nil_r; auto].
  - exfalso. assert (H := find_none _ _ E n (nth_error_In _ _ Hi)). assert (P : is_prefix n n = true) by (apply is_prefix_spec; exists []; rewrite app_nil_r; auto). congruence.
Qed.
Definition no_space_names (names : list text) : Prop := Forall name_text names.
Lemma no_prefix names w : (forall n v, In n names -> n <> w ++ v) -> find (is_prefix w) names = None.
Proof.
  intros H. destruct (find (is_prefix w) names) as [n|] eqn:E; auto. apply find_some in E as [Hn Hp]. apply is_prefix_spec in Hp as (v & ->). exfalso. exact (H _ v Hn eq_refl).
Qed.
Definition found (r : res (bool * stream)) : Prop := exists s, r = Ok (true, s).
Definition step_loop (fuel : nat) (names : list text) (counter : nat) (word : text) (t : text) := contains_names_loop fuel names counter word (opened t).
Lemma contains_step k names counter word c t : (word = [] -> counter < 2000) ->
  step_loop (S k) names counter word (c :: t) =
    match find (is_prefix (word ++ [c])) names with
    | Some name => if text_eqb name (word ++ [c]) then Ok (true, opened t) else step_loop k names (S counter) (word ++ [c]) t
    | None => step_loop k names (S counter) [] t
    end.
Proof.
  intros H. unfold step_loop. cbn [contains_names_loop]. change (ok (opened (c :: t))) with true. cbn [negb].
  assert (E : at_end word && negb (counter <? 2000) = false).
  { destruct word as [|x word]; [|reflexivity]. cbn [at_end andb]. destruct (Nat.ltb_spec counter 2000); [reflexivity|]. specialize (H eq_refl). lia. }
  rewrite E, get_opened. reflexivity.
Qed.
(** Anything that ends with white space. *)
Lemma contains_space names t c r : no_space_names names -> is_space c = true -> forall k counter word, counter + length t < 2000 ->
  found (step_loop (length t + S k) names counter word (t ++ c :: r)) \/
  step_loop (length t + S k) names counter word (t ++ c :: r) = step_loop k names (counter + length t + 1) [] r.
Proof.
  intros Hn Hc. induction t as [|d t IH]; intros k counter word Hk.
  - right. cbn [length Nat.add app]. rewrite contains_step by (cbn in Hk; lia). rewrite no_prefix; [f_equal; cbn; lia|].
    intros n v Hin E. unfold no_space_names in Hn. rewrite Forall_forall in Hn. destruct (Hn n Hin) as [Hs _]. rewrite E, <- app_assoc in Hs.
    apply Forall_app in Hs as [_ Hs]. apply Forall_app in Hs as [Hs _]. apply Forall_cons_iff in Hs as [Hs _]. congruence.
  - cbn [length Nat.add app] in *. rewrite contains_step by lia. destruct (find (is_prefix (word ++ [d])) names) as [name|].
    + destruct (text_eqb name (word ++ [d])); [left; eexists; reflexivity|]. destruct (IH k (S counter) (word ++ [d]) ltac:(lia)) as [K|K]; [left; exact K|right]. rewrite K. f_equal. lia.
    + destruct (IH k (S counter) [] ltac:(lia)) as [K|K]; [left; exact K|right]. rewrite K. f_equal. lia.
Qed.
(** Characters no name starts with. *)
Lemma contains_skip names t r : no_space_names names -> Forall (fun c => is_space c = true \/ is_factor c = true) t -> forall k counter, counter + length t <= 2000 ->
  step_loop (length t + k) names counter [] (t ++ r) = step_loop k names (counter + length t) [] r.
Proof.
  intros Hn. induction 1 as [|c t Hc _ IH]; intros k counter Hk.
  - cbn [length Nat.add app]. f_equal. lia.
  - cbn [length Nat.add app] in *. rewrite contains_step by lia. cbn [app]. rewrite no_prefix.
    + rewrite IH by lia. f_equal. lia.
    + intros n v Hin E. unfold no_space_names in Hn. rewrite Forall_forall in Hn. destruct (Hn n Hin) as [Hs Hf]. subst n. cbn [app] in *. apply Forall_cons_iff in Hs as [Hs _].
      destruct Hc as [Hc|Hc]; [congruence|]. destruct Hf as [Hf _]. congruence.
Qed.
Lemma contains_name names n i r : prefix_ordered names -> nth_error names i = Some n -> n <> [] -> forall k counter, counter < 2000 -> found (step_loop (length n + k) names counter [] (n ++ r)).
Proof.
  intros Ho Hi Hne k.
  assert (K : forall v w counter, n = w ++ v -> v <> [] -> (w = [] -> counter < 2000) -> found (step_loop (length v + k) names counter w (v ++ r))).
  { induction v as [|c v IH]; intros w counter E Hv Hc; [congruence|]. cbn [length Nat.add app]. rewrite contains_step by auto.
    destruct v as [|d v].
    - rewrite <- E, (find_prefix_name names n i Ho Hi). destruct (text_eqb_spec n n); [|congruence]. eexists; reflexivity.
    - assert (P : find (is_prefix (w ++ [c])) names <> None).
      { intros F. assert (H := find_none _ _ F n (nth_error_In _ _ Hi)). assert (T : is_prefix (w ++ [c]) n = true) by (apply is_prefix_spec; exists (d :: v); rewrite <- app_assoc; auto). congruence. }
      destruct (find (is_prefix (w ++ [c])) names) as [name|]; [|congruence]. destruct (text_eqb name (w ++ [c])); [eexists; reflexivity|].
      apply IH; [rewrite <- app_assoc; auto|discriminate|]. intros E'. destruct w; discriminate. }
  intros counter Hc. apply (K n [] counter); auto.
Qed.
Lemma step_mono names : forall k t counter word, found (step_loop k names counter word t) -> forall k', k <= k' -> found (step_loop k' names counter word t).
Proof.
  unfold step_loop. assert (G : forall k s counter word, found (contains_names_loop k names counter word s) -> forall k', k <= k' -> found (contains_names_loop k' names counter word s)).
  { induction k as [|k IH]; intros s counter word [s' H] k' Hk; [discriminate|]. destruct k' as [|k']; [lia|]. cbn [contains_names_loop] in *.
    destruct (negb (ok s)); [discriminate|]. destruct (at_end word && negb (counter <? 2000)); [discriminate|]. destruct (get_char s) as [c s1].
    match goal with |- context [find ?p names] => destruct (find p names) as [name|] end.
    - destruct (text_eqb name _); [eexists; reflexivity|]. apply IH; [eexists; exact H|lia].
    - apply IH; [eexists; exact H|lia]. }
  intros. eapply G; eauto.
Qed.
(** A label that cannot run into the first term. *)
Inductive spaced_label : text -> Prop :=
| spaced_none u : blanks u -> spaced_label u
| spaced_identifier u t v : blanks u -> identifier_text t -> blanks v -> v <> [] -> spaced_label (u ++ "("%char :: t ++ ")"%char :: v).
Lemma spaced_is_label l : spaced_label l -> label l.
Proof. intros H. inversion H; subst; [apply label_none|apply label_identifier]; auto. Qed.
Lemma term_split names t x : term_text names t x -> exists a n i, t = a ++ n /\ variable names n i /\ Forall (fun c => is_space c = true \/ is_factor c = true) a.
Proof.
  assert (F : forall f z, factor_text f z -> Forall (fun c => is_space c = true \/ is_factor c = true) f).
  { intros f z H. destruct (factor_chars f z H) as [H1 _]. eapply Forall_impl; [|exact H1]. cbn. auto. }
  assert (B : forall u, blanks u -> Forall (fun c => is_space c = true \/ is_factor c = true) u).
  { intros u H. eapply Forall_impl; [|exact H]. cbn. intros c Hc. left. apply blank_space; auto. }
  intros H. inversion H as [f n z i Hf Hn|u f n z i Hu Hne Hf Hz Hn|u f n z i Hu Hne Hf Hz Hn]; subst.
  - exists f, n, i. split; auto. split; auto. eapply F; eauto.
  - exists ("+"%char :: u ++ f), n, i. split; [cbn; rewrite <- app_assoc; reflexivity|]. split; auto. constructor; [right; reflexivity|]. apply Forall_app. split; [auto|eapply F; eauto].
  - exists ("-"%char :: u ++ f), n, i. split; [cbn; rewrite <- app_assoc; reflexivity|]. split; auto. constructor; [right; reflexivity|]. apply Forall_app. split; [auto|eapply F; eauto].
Qed.
Lemma contains_names_ok names lab t x r : no_space_names names -> prefix_ordered names -> spaced_label lab -> term_text names t x -> length (lab ++ t) <= 2000 ->
  m_contains_names names (opened (lab ++ t ++ r)) = Ok (true, opened (lab ++ t ++ r)).
Proof.
  intros Hn Ho Hlab Ht Hlen. destruct (term_split names t x Ht) as (a & n & i & -> & [Hi Hnt] & Ha). destruct (name_stops n [] Hnt) as [Hne _].
  assert (Ln : 0 < length n) by (destruct n; [congruence|cbn; lia]). rewrite !app_length in Hlen.
  assert (F : found (step_loop (length (lab ++ (a ++ n) ++ r) + 3) names 0 [] (lab ++ (a ++ n) ++ r))).
  { assert (G : forall counter k, counter + length a + length n <= 2000 -> length a + length n <= k -> found (step_loop k names counter [] ((a ++ n) ++ r))).
    { intros counter k Hc Hk. rewrite <- app_assoc. apply (step_mono names (length a + (length n + 0))); [|lia]. rewrite contains_skip by (auto; lia).
      apply (contains_name names n i); auto. lia. }
    inversion Hlab as [u Hu|u t v Hu Ht' Hv Hvn]; subst.
    - assert (HF : Forall (fun c => is_space c = true \/ is_factor c = true) lab) by (eapply Forall_impl; [|exact Hu]; cbn; intros c Hc; left; apply blank_space; auto).
      apply (step_mono names (length lab + (length a + length n))); [|rewrite !app_length; lia].
      rewrite (contains_skip names lab ((a ++ n) ++ r) Hn HF) by lia. apply G; lia.
    - destruct (exists_last Hvn) as (v' & c & ->). apply Forall_app in Hv as [_ Hv]. apply Forall_cons_iff in Hv as [Hv _]. apply blank_space in Hv.
      set (L := u ++ "("%char :: t ++ ")"%char :: v'). replace (u ++ "("%char :: t ++ ")"%char :: v' ++ [c]) with (L ++ [c]) in *.
      2:{ unfold L. rewrite <- app_assoc. cbn [app]. rewrite <- app_assoc. reflexivity. }
      rewrite app_length in Hlen. cbn [length] in Hlen.
      apply (step_mono names (length L + S (length a + length n))); [|rewrite !app_length; cbn [length]; lia].
      rewrite <- (app_assoc L [c]). cbn [app]. destruct (contains_space names L c ((a ++ n) ++ r) Hn Hv (length a + length n) 0 [] ltac:(lia)) as [K|K]; [exact K|].
      rewrite K. apply G; lia. }
  destruct F as (s & F). unfold m_contains_names. rewrite tellg_opened. unfold step_loop in F. cbn [opened rest] in F |- *. fold (opened (lab ++ (a ++ n) ++ r)). rewrite F. reflexivity.
Qed.
(** The line begins with a term, which ends within the first 2000 characters. *)
Definition early_term (names : list text) (lab line : text) : Prop := exists t x r, line = t ++ r /\ term_text names t x /\ length (lab ++ t) <= 2000.
Lemma short_early names lab line xs op b : named_text names line xs op b -> xs <> [] -> length (lab ++ line) <= 2000 -> early_term names lab line.
Proof.
  intros Hline Hne Hlen. inversion Hline as [l xs' w op' p b' v Hl]; subst. inversion Hl as [|t x u l' xs' Ht]; subst; [congruence|].
  exists t, x, ((u ++ l') ++ w ++ p ++ v). split; [rewrite <- !app_assoc; reflexivity|]. split; auto. rewrite !app_length in *. lia.
Qed.
(** The constraint is read as one with names. *)
Lemma named_chosen names type lab line r : no_space_names names -> prefix_ordered names -> spaced_label lab -> early_term names lab line ->
  m_constraint type names (opened (lab ++ line ++ r)) = m_named_constraint type names (opened (lab ++ line ++ r)).
Proof.
  intros Hn Ho Hlab (t & x & l & -> & Ht & Hlen). unfold m_constraint. destruct names as [|n0 names].
  { exfalso. destruct (term_split _ _ _ Ht) as (a & n & i & _ & [Hi _] & _). destruct i; discriminate. }
  rewrite <- (app_assoc t). rewrite (contains_names_ok (n0 :: names) lab t x (l ++ r) Hn Ho Hlab Ht Hlen). reflexivity.
Qed.

(** ** Lines of a section *)
(** A line, without its end, that is read as [row]. *)
Definition reads (type : constraint_type) (names : list text) (line : text) (row : vec) : Prop :=
  (forall r, line_end r -> m_constraint type names (opened (line ++ r)) = Ok (row, opened r)) /\ row <> [] /\ ~ In newline line /\ stops is_eol line /\
  exists l c u, line = l ++ c :: u /\ is_digit c = true /\ blanks u.
Inductive constraint_lines (type : constraint_type) (names : list text) : text -> list vec -> Prop :=
| constraint_none : constraint_lines type names [] []
| constraint_blank u t rows : blanks u -> constraint_lines type names t rows -> constraint_lines type names (u ++ newline :: t) rows
| constraint_row line row t rows : reads type names line row -> constraint_lines type names t rows -> constraint_lines type names (line ++ newline :: t) (row :: rows).
Inductive constraint_tail (type : constraint_type) (names : list text) : text -> list vec -> Prop :=
| constraint_tail_end u : blanks u -> constraint_tail type names u []
| constraint_tail_row line row : reads type names line row -> constraint_tail type names line [row].

Lemma trim_digit l c u : is_digit c = true -> blanks u -> exists l', m_trim (l ++ c :: u) = l' ++ [c].
Proof.
  intros Hc Hu. assert (Hb : is_blank c = false) by (apply space_blank, digit_space; auto). unfold m_trim.
  assert (K : exists l', drop_while is_blank (l ++ c :: u) = l' ++ c :: u).
  { induction l as [|d l IH]; cbn [app drop_while]; [rewrite Hb; exists []; reflexivity|]. destruct (is_blank d); [auto|]. exists (d :: l). reflexivity. }
  destruct K as (l' & ->). rewrite rev_app_distr. cbn [rev]. rewrite <- app_assoc. rewrite drop_app by (apply Forall_rev; exact Hu). cbn [app drop_while]. rewrite Hb.
  exists l'. cbn [rev]. rewrite rev_involutive. reflexivity.
Qed.
Lemma keyword_digit l c : is_digit c = true -> m_is_keyword (l ++ [c]) = false.
Proof.
  intros Hc.
  assert (K : forall words, forallb (fun w => match rev (lit w) with [] => true | d :: _ => negb (is_digit d) end) words = true -> one_of_words words (l ++ [c]) = false).
  { intros words Hw. unfold one_of_words. induction words as [|w words IH]; [reflexivity|]. cbn [forallb existsb] in *. apply andb_true_iff in Hw as [Hw Hws].
    rewrite IH by auto. rewrite orb_false_r. destruct (text_eqb_spec (l ++ [c]) (lit w)) as [E|]; auto. rewrite <- E, rev_app_distr in Hw. cbn in Hw. rewrite Hc in Hw. discriminate. }
  unfold m_is_keyword, m_is_conical, m_is_reduced_something, m_is_reduced_conical, m_is_convex, m_is_reduced_convex, m_is_dimension, m_is_equations,
    m_is_inequalities, m_is_reduced_inequalities, m_is_maps, m_is_names, m_is_end.
  rewrite !K; auto.
Qed.
Lemma constraints_blank_step type names k rows u t : blanks u -> constraints_loop (S k) type names rows (opened (u ++ newline :: t)) = constraints_loop k type names rows (opened t).
Proof.
  intros Hu. cbn [constraints_loop]. change (ok (opened (u ++ newline :: t))) with true. cbn [negb]. rewrite !peek_line_opened.
  rewrite first_line_newline by (apply blanks_no_newline; auto). rewrite trim_blanks by auto. change (m_is_keyword []) with false. cbv iota. cbn [at_end].
  rewrite getline_newline by (apply blanks_no_newline; auto). reflexivity.
Qed.
Lemma constraints_row_step type names k rows line row r : reads type names line row -> line_end r ->
  constraints_loop (S k) type names rows (opened (line ++ r)) = constraints_loop k type names (rows ++ [row]) (opened (drop_while is_eol r)).
Proof.
  intros (H1 & H2 & H3 & H4 & l & c & u & E & Hc & Hu) Hr. cbn [constraints_loop]. change (ok (opened (line ++ r))) with true. cbn [negb]. rewrite !peek_line_opened.
  assert (F : first_line (line ++ r) = line) by (destruct r as [|d r]; [rewrite app_nil_r; apply first_line_end; auto|cbn in Hr; subst d; apply first_line_newline; auto]).
  rewrite F. destruct (trim_digit l c u Hc Hu) as (l' & T). rewrite <- E in T. rewrite T, keyword_digit by auto.
  assert (A : at_end (l' ++ [c]) = false) by (destruct l'; reflexivity). rewrite A, H1 by auto. cbn [bind].
  assert (D : drop_while is_blank r = r) by (apply drop_stop; apply line_end_stops; auto).
  unfold opened at 1. rewrite skip_whitespace_ok by discriminate. rewrite D. cbn [bind]. unfold opened at 1. rewrite skip_end_of_line_ok by discriminate. cbn [bind].
  destruct row; [congruence|reflexivity].
Qed.
Lemma lines_drop type names t rows tail : constraint_lines type names t rows -> stops is_eol tail -> exists t', constraint_lines type names t' rows /\ drop_while is_eol (t ++ tail) = t' ++ tail /\ length t' <= length t.
Proof.
  intros H Ht. induction H as [|u t rows Hu HL IH|line row t rows HR HL IH].
  - exists []. cbn [app]. rewrite drop_stop by auto. split; [constructor|auto].
  - rewrite <- app_assoc. cbn [app].
    assert (K : (drop_while is_eol (u ++ newline :: t ++ tail) = drop_while is_eol (t ++ tail)) \/
      exists u', blanks u' /\ drop_while is_eol (u ++ newline :: t ++ tail) = u' ++ newline :: t ++ tail /\ length u' <= length u).
    { induction Hu as [|c u Hc Hu IHu]; [left; reflexivity|]. cbn [app drop_while]. destruct (is_eol c) eqn:Ec; [|right; exists (c :: u); split; [constructor; auto|split; [reflexivity|lia]]].
      destruct IHu as [K|(u' & K1 & K2 & K3)]; [left; auto|right]. exists u'. split; auto. split; auto. cbn. lia. }
    destruct K as [K|(u' & K1 & K2 & K3)]; rewrite ?K, ?K2.
    + destruct IH as (t' & I1 & I2 & I3). exists t'. split; auto. split; auto. rewrite app_length. cbn. lia.
    + exists (u' ++ newline :: t). split; [constructor; auto|]. rewrite <- app_assoc. cbn [app]. split; auto. rewrite !app_length. cbn. lia.
  - exists (line ++ newline :: t). split; [apply constraint_row; auto|]. split; [|auto]. rewrite <- app_assoc. apply drop_stop. destruct HR as (_ & _ & _ & Hs & l & c & u & E & _).
    destruct line as [|d line]; [destruct l; discriminate|]. exact Hs.
Qed.
Lemma constraint_lines_ok type names n : forall t rows, length t <= n -> constraint_lines type names t rows -> forall acc tail k, stops is_eol tail ->
  exists k', k <= k' /\ constraints_loop (n + k) type names acc (opened (t ++ tail)) = constraints_loop k' type names (acc ++ rows) (opened tail).
Proof.
  induction n as [|n IH]; intros t rows Hn HL acc tail k Ht.
  - inversion HL as [|u t' rows' Hu HL'|line row t' rows' HR HL']; subst.
    + exists k. split; auto. rewrite app_nil_r. reflexivity.
    + rewrite app_length in Hn. cbn in Hn. lia.
    + rewrite app_length in Hn. cbn in Hn. lia.
  - inversion HL as [|u t' rows' Hu HL'|line row t' rows' HR HL']; subst.
    + exists (S n + k). split; [lia|]. rewrite app_nil_r. reflexivity.
    + rewrite app_length in Hn. cbn in Hn. destruct (IH t' rows ltac:(lia) HL' acc tail k Ht) as (k' & Hk & E). exists k'. split; auto.
      rewrite <- app_assoc. cbn [app Nat.add]. rewrite constraints_blank_step by auto. exact E.
    + rewrite app_length in Hn. cbn in Hn. destruct (lines_drop _ _ _ _ tail HL' Ht) as (t2 & HL2 & E2 & Hlen).
      destruct (IH t2 rows' ltac:(lia) HL2 (acc ++ [row]) tail k Ht) as (k' & Hk & E). exists k'. split; auto.
      rewrite <- app_assoc. cbn [app Nat.add]. rewrite (constraints_row_step type names (n + k) acc line row (newline :: t' ++ tail) HR eq_refl).
      cbn [drop_while]. change (is_eol newline) with true. cbv iota. rewrite E2, E, <- app_assoc. reflexivity.
Qed.
Lemma constraint_tail_ok type names t rows : constraint_tail type names t rows -> forall acc k, 3 <= k -> exists s, ok s = false /\
  constraints_loop k type names acc (opened t) = Ok (acc ++ rows, s).
Proof.
  intros H acc [|[|[|k]]] Hk; try lia. inversion H as [u Hu|line row HR]; subst.
  - assert (N := blanks_no_newline t Hu). exists (match t with [] => Stream [] true true | _ => Stream [] false true end). split; [destruct t; reflexivity|]. rewrite app_nil_r.
    set (k2 := S k). cbn [constraints_loop]. change (ok (opened t)) with true. cbn [negb].
    rewrite !peek_line_opened, first_line_end, trim_blanks by auto. change (m_is_keyword []) with false. cbv iota. cbn [at_end].
    destruct t as [|c t]; [reflexivity|]. rewrite getline_end by (auto; discriminate). reflexivity.
  - exists (Stream [] true true). split; [reflexivity|]. rewrite <- (app_nil_r t). rewrite (constraints_row_step type names (S (S k)) acc t row [] HR I). reflexivity.
Qed.
Lemma constraints_keyword type names k rows t : m_is_keyword (m_trim (first_line t)) = true -> constraints_loop (S k) type names rows (opened t) = Ok (rows, opened t).
Proof. intros H. cbn [constraints_loop]. change (ok (opened t)) with true. cbn [negb]. rewrite peek_line_opened, H. reflexivity. Qed.
