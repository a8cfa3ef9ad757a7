(** * ModeDetection: the keywords of a file and the operation mode. *)
From Coq Require Import List ZArith Arith Bool Ascii String Lia.
From Verif Require Import Base ListUtil StreamModel StreamProofs CliModel PropertiesCli InputModel InputProofs VertexInput PropertiesVertices MapInput FileModel FileProofs.
Import ListNotations.
Open Scope nat_scope.
Open Scope list_scope.

(** [line] is one of the lines of the text. *)
Definition has_line (t line : text) : Prop :=
  exists a b, t = a ++ line ++ b /\ (a = [] \/ exists a', a = a' ++ [newline]) /\ (b = [] \/ exists b', b = newline :: b') /\ ~ In newline line.
(** Some line of the text consists of one of the words. *)
Definition says (words : list string) (t : text) : Prop := exists line, has_line t line /\ keyword_line words line.

Lemma has_line_end t line : ~ In newline t -> has_line t line <-> line = t.
Proof.
  intros N. split.
  - intros (a & b & -> & Ha & Hb & _). destruct Ha as [->|(a' & ->)]; [|exfalso; apply N; rewrite !in_app_iff; left; right; left; auto].
    destruct Hb as [->|(b' & ->)]; [rewrite app_nil_r; auto|exfalso; apply N; rewrite !in_app_iff; right; right; left; auto].
  - intros ->. exists [], []. rewrite app_nil_r. auto.
Qed.
Lemma has_line_more l r line : ~ In newline l -> has_line (l ++ newline :: r) line <-> line = l \/ has_line r line.
Proof.
  intros N. split.
  - intros (a & b & E & Ha & Hb & Hl). destruct Ha as [->|(a' & ->)].
    + left. cbn [app] in E. destruct Hb as [->|(b' & ->)].
      * rewrite app_nil_r in E. exfalso. apply Hl. rewrite <- E. apply in_app_iff. right. left. auto.
      * clear - E N Hl. revert line E N Hl. induction l as [|c l IH]; intros [|d line] E N Hl; cbn in E; auto; try (inversion E; subst; exfalso; first [apply N; left; reflexivity|apply Hl; left; reflexivity]).
        inversion E; subst. f_equal. apply IH; auto; intros K; [apply N|apply Hl]; right; auto.
    + right. assert (P : exists a0, a' ++ [newline] = l ++ newline :: a0 /\ r = a0 ++ line ++ b).
      { rewrite <- app_assoc in E. cbn [app] in E. clear - E N. revert l E N. induction a' as [|c a' IH]; intros [|d l] E N; cbn in E.
        - inversion E; subst. exists []. auto.
        - inversion E; subst. exfalso. apply N. left; auto.
        - inversion E; subst. exists (a' ++ [newline]). split; auto. rewrite <- app_assoc. reflexivity.
        - inversion E; subst. destruct (IH l) as (a0 & E1 & E2); auto; [intros K; apply N; right; auto|]. exists a0. split; auto. cbn [app]. rewrite E1. reflexivity. }
      destruct P as (a0 & E1 & ->). exists a0, b. split; auto. split; auto. destruct a0 as [|c a0] using rev_ind; [auto|]. right. exists a0. 
      assert (K : last (a' ++ [newline]) " "%char = last (l ++ newline :: a0 ++ [c]) " "%char) by (rewrite E1; auto).
      rewrite last_last in K. replace (l ++ newline :: a0 ++ [c]) with ((l ++ newline :: a0) ++ [c]) in K by (rewrite <- app_assoc; reflexivity). rewrite last_last in K. subst c. reflexivity.
  - intros [->|(a & b & -> & Ha & Hb & Hl)].
    + exists [], (newline :: r). split; [reflexivity|]. split; auto. split; auto. right. eauto.
    + exists (l ++ newline :: a), b. split; [rewrite <- app_assoc; reflexivity|]. split; [|auto]. right. destruct Ha as [->|(a' & ->)]; [exists l; auto|]. exists (l ++ newline :: a'). rewrite <- app_assoc. reflexivity.
Qed.
Lemma says_end words t : ~ In newline t -> says words t <-> keyword_line words t.
Proof. intros N. unfold says. split; [intros (l & H & K); apply has_line_end in H; auto; subst; auto|intros K; exists t; split; auto; apply has_line_end; auto]. Qed.
Lemma says_more words l r : ~ In newline l -> says words (l ++ newline :: r) <-> keyword_line words l \/ says words r.
Proof.
  intros N. unfold says. split.
  - intros (x & H & K). apply has_line_more in H as [->|H]; eauto.
  - intros [K|(x & H & K)]; [exists l|exists x]; split; auto; apply has_line_more; auto.
Qed.

(** ** The tests *)
Definition tested (words : list string) (test : text -> bool) : Prop := forall line, test (m_trim line) = true <-> keyword_line words line.
Lemma tested_words words list test : forallb trimmed_word words = true -> (forall t, test t = one_of_words list t) ->
  forallb (fun w => existsb (String.eqb w) words) list = true -> forallb (fun w => existsb (String.eqb w) list) words = true -> tested words test.
Proof.
  intros HT HL H1 H2 line. rewrite HL. split.
  - intros E. apply one_of_in in E as (w & Hw & E). destruct (trim_split line) as (u & v & E2 & Hu & Hv). exists u, w, v. rewrite <- E. split; auto. split; auto.
    rewrite forallb_forall in H1. specialize (H1 w Hw). apply existsb_exists in H1 as (w' & Hw' & E'). apply String.eqb_eq in E'. subst. auto.
  - intros K. destruct (keyword_line_trim words line HT K) as (w & Hw & -> & _). apply in_one_of. rewrite forallb_forall in H2. specialize (H2 w Hw). apply existsb_exists in H2 as (w' & Hw' & E').
    apply String.eqb_eq in E'. subst. auto.
Qed.
Lemma one_of_app a b t : one_of_words (a ++ b) t = one_of_words a t || one_of_words b t.
Proof. unfold one_of_words. apply existsb_app. Qed.
Ltac tested_tac x y :=
  let a := eval unfold x in x in let b := eval unfold y in y in
  match a with one_of_words ?l1 => match b with one_of_words ?l2 =>
    apply (tested_words _ (l1 ++ l2)); [reflexivity|intros t; rewrite one_of_app; reflexivity|reflexivity|reflexivity] end end.
Lemma tested_conical : tested conical_words (fun t => m_is_conical t || m_is_reduced_conical t).
Proof. tested_tac m_is_conical m_is_reduced_conical. Qed.
Lemma tested_convex : tested convex_words (fun t => m_is_convex t || m_is_reduced_convex t).
Proof. tested_tac m_is_convex m_is_reduced_convex. Qed.
Lemma tested_inequalities : tested inequality_words (fun t => m_is_inequalities t || m_is_reduced_inequalities t).
Proof. tested_tac m_is_inequalities m_is_reduced_inequalities. Qed.
Lemma disjoint words words' line : forallb trimmed_word words = true -> forallb trimmed_word words' = true -> forallb (fun w => negb (existsb (fun w' => text_eqb (lit w) (lit w')) words')) words = true ->
  keyword_line words line -> ~ keyword_line words' line.
Proof.
  intros T T' D K K'. destruct (keyword_line_trim words line T K) as (w & Hw & E & _). destruct (keyword_line_trim words' line T' K') as (w' & Hw' & E' & _).
  rewrite forallb_forall in D. specialize (D w Hw). apply negb_true_iff in D. assert (X : existsb (fun w' => text_eqb (lit w) (lit w')) words' = true); [|congruence].
  apply existsb_exists. exists w'. split; auto. destruct (text_eqb_spec (lit w) (lit w')); congruence.
Qed.

(** ** The loop *)
Definition sums (b : bool) (b0 : bool) (P : Prop) : Prop := b = true <-> b0 = true \/ P.
Lemma keywords_ok : forall fuel t old a b c, length t + 2 <= fuel ->
  exists x y z, keywords_loop fuel old a b c (opened t) = Ok (x, y, z) /\ sums x a (says convex_words t) /\ sums y b (says conical_words t) /\ sums z c (says inequality_words t).
Proof.
  induction fuel as [|fuel IH]; intros t old a b c Hf; [lia|]. cbn [keywords_loop].
  assert (Step : forall line rest0 s, ~ In newline line -> (forall x y z old', exists p q r, keywords_loop fuel old' x y z s = Ok (p, q, r) /\ sums p x (says convex_words rest0) /\ sums q y (says conical_words rest0) /\ sums r z (says inequality_words rest0)) ->
    exists x y z, (let line0 := m_trim line in
      if m_is_conical line0 || m_is_reduced_conical line0 then keywords_loop fuel line0 a true c s
      else if m_is_convex line0 || m_is_reduced_convex line0 then keywords_loop fuel line0 true b c s
      else if m_is_inequalities line0 || m_is_reduced_inequalities line0 then keywords_loop fuel line0 a b true s
      else keywords_loop fuel line0 a b c s) = Ok (x, y, z) /\
      sums x a (keyword_line convex_words line \/ says convex_words rest0) /\ sums y b (keyword_line conical_words line \/ says conical_words rest0) /\ sums z c (keyword_line inequality_words line \/ says inequality_words rest0)).
  { intros line rest0 s N K. assert (T1 := tested_conical line). assert (T2 := tested_convex line). assert (T3 := tested_inequalities line). cbv beta in T1, T2, T3. cbv zeta.
    destruct (m_is_conical (m_trim line) || m_is_reduced_conical (m_trim line)).
    { assert (KL : keyword_line conical_words line) by (apply T1; auto). assert (N1 := disjoint conical_words convex_words line eq_refl eq_refl eq_refl KL). assert (N2 := disjoint conical_words inequality_words line eq_refl eq_refl eq_refl KL).
      destruct (K a true c (m_trim line)) as (p & q & r & E & S1 & S2 & S3). exists p, q, r. split; auto. unfold sums in *. intuition. }
    destruct (m_is_convex (m_trim line) || m_is_reduced_convex (m_trim line)).
    { assert (KL : keyword_line convex_words line) by (apply T2; auto). assert (N1 := disjoint convex_words conical_words line eq_refl eq_refl eq_refl KL). assert (N2 := disjoint convex_words inequality_words line eq_refl eq_refl eq_refl KL).
      destruct (K true b c (m_trim line)) as (p & q & r & E & S1 & S2 & S3). exists p, q, r. split; auto. unfold sums in *. intuition. }
    assert (N1 : ~ keyword_line conical_words line) by (intros KL; apply T1 in KL; discriminate). assert (N2 : ~ keyword_line convex_words line) by (intros KL; apply T2 in KL; discriminate).
    destruct (m_is_inequalities (m_trim line) || m_is_reduced_inequalities (m_trim line)).
    { assert (KL : keyword_line inequality_words line) by (apply T3; auto). destruct (K a b true (m_trim line)) as (p & q & r & E & S1 & S2 & S3). exists p, q, r. split; auto. unfold sums in *. intuition. }
    assert (N3 : ~ keyword_line inequality_words line) by (intros KL; apply T3 in KL; discriminate).
    destruct (K a b c (m_trim line)) as (p & q & r & E & S1 & S2 & S3). exists p, q, r. split; auto. unfold sums in *. intuition. }
  assert (No : forall words, forallb trimmed_word words = true -> ~ says words []).
  { intros words HT H. apply (says_end words [] ltac:(intros [])) in H. destruct (keyword_line_trim words [] HT H) as (w & Hw & E & _). rewrite forallb_forall in HT. specialize (HT w Hw). unfold trimmed_word in HT. cbn in E. rewrite <- E in HT. discriminate. }
  assert (Over : forall old' x y z s, negb (ok (snd (getline old' s))) = true -> exists p q r, keywords_loop fuel old' x y z s = Ok (p, q, r) /\ sums p x (says convex_words []) /\ sums q y (says conical_words []) /\ sums r z (says inequality_words [])).
  { intros old' x y z s E. destruct fuel as [|fuel']; [lia|]. cbn [keywords_loop]. destruct (getline old' s) as [l s']. cbn [snd] in E. rewrite E. exists x, y, z. split; auto. unfold sums.
    assert (N1 := No convex_words eq_refl). assert (N2 := No conical_words eq_refl). assert (N3 := No inequality_words eq_refl). intuition. }
  destruct (line_split t) as [N|(line & r & -> & N)].
  - destruct t as [|ch t].
    + cbn [getline opened good eofbit failbit negb andb rest split_line]. change (ok (Stream [] true true)) with false. cbn [negb]. exists a, b, c. split; auto. unfold sums.
      assert (N1 := No convex_words eq_refl). assert (N2 := No conical_words eq_refl). assert (N3 := No inequality_words eq_refl). intuition.
    + rewrite getline_end by (auto; discriminate). change (ok (Stream [] true false)) with true. cbn [negb]. cbv iota.
      destruct (Step (ch :: t) [] (Stream [] true false) N) as (x & y & z & E & S1 & S2 & S3); [intros; apply Over; reflexivity|].
      exists x, y, z. split; [exact E|]. assert (N1 := No convex_words eq_refl). assert (N2 := No conical_words eq_refl). assert (N3 := No inequality_words eq_refl). unfold sums in *.
      rewrite (says_end convex_words), (says_end conical_words), (says_end inequality_words) by auto. tauto.
  - rewrite getline_newline by auto. change (ok (opened r)) with true. cbn [negb]. cbv iota. rewrite app_length in Hf. cbn [length] in Hf.
    destruct (Step line r (opened r) N) as (x & y & z & E & S1 & S2 & S3); [intros; apply IH; lia|].
    exists x, y, z. split; [exact E|]. unfold sums in *. rewrite !says_more by auto. tauto.
Qed.
