(** * Checked: the option -c; the program with and without it. *)
From Coq Require Import List ZArith QArith Arith Bool Ascii String Lia Permutation.
From Verif Require Import Base Spec ListUtil ArithModel SafeIntModel IntTypes ClassesModel StreamModel SortModel ValidityModel CliModel PropertiesCli InputModel ConstraintModel OutputModel FileModel TypedModel ListModel AdModel VertexAdModel MainModel.
Import ListNotations.
Open Scope nat_scope.
Open Scope list_scope.

(** ** Specification *)
(** The flag that asks for the checks. *)
Definition check_flag (a : text) : Prop := a = lit "-c" \/ a = lit "--check".
(** The last of the arguments does not wait for a parameter: it is a long option, one of the flags -c and -f, or does not start with "-". *)
Definition complete (args : list text) : Prop :=
  args = [] \/ exists args' a, args = args' ++ [a] /\ (starts_with (lit "--") a \/ a = lit "-c" \/ a = lit "-f" \/ ~ starts_with (lit "-") a).

(** ** The command line *)
Lemma complete_cons a pre : complete (a :: pre) -> complete pre /\ (pre = [] -> starts_with (lit "--") a \/ a = lit "-c" \/ a = lit "-f" \/ ~ starts_with (lit "-") a).
Proof.
  intros [E|(args' & b & E & H)]; [discriminate|]. destruct args' as [|c args']; cbn [app] in E; injection E as -> ->.
  - split; [left; auto|intros _; auto].
  - split; [right; exists args', b; auto|intros K; destruct args'; discriminate].
Qed.
Lemma option_flag {A} (x : ascii) name (interpret : text -> res A) default flag pre post : x <> "c"%char -> x <> "f"%char -> x <> "-"%char ->
  check_flag flag -> starts_with ("-"%char :: "-"%char :: [x]) name -> complete pre ->
  m_option ["-"%char; x] ["-"%char; x; "="%char] name ["-"%char; "-"%char; x] interpret default (pre ++ flag :: post) = m_option ["-"%char; x] ["-"%char; x; "="%char] name ["-"%char; "-"%char; x] interpret default (pre ++ post).
Proof.
  intros N1 N2 N3 HF HN. induction pre as [|a pre IH]; intros HC.
  - cbn [app m_option].
    assert (H1 : strcmp0 flag ["-"%char; x] = false) by (destruct (strcmp0_spec flag ["-"%char; x]) as [E|]; auto; destruct HF; subst; [injection E as E; congruence|discriminate]).
    assert (H2 : strncmp0 flag ["-"%char; x; "="%char] (length ["-"%char; x; "="%char]) = false).
    { destruct (strncmp0_spec flag ["-"%char; x; "="%char]) as [(q & E)|]; auto; destruct HF; subst; cbn in E; [discriminate|injection E; intros; congruence]. }
    assert (H3 : strncmp0 flag name (length name) = false).
    { destruct (strncmp0_spec flag name) as [(q & E)|]; auto; destruct HN as (r & ->); destruct HF; subst; cbn in E; [discriminate|injection E; intros; congruence]. }
    assert (H4 : strncmp0 flag ["-"%char; x] (length ["-"%char; x]) = false).
    { destruct (strncmp0_spec flag ["-"%char; x]) as [(q & E)|]; auto; destruct HF; subst; cbn in E; injection E; intros; congruence. }
    assert (H5 : strncmp0 flag ["-"%char; "-"%char; x] (length ["-"%char; "-"%char; x]) = false).
    { destruct (strncmp0_spec flag ["-"%char; "-"%char; x]) as [(q & E)|]; auto; destruct HF; subst; cbn in E; [discriminate|injection E; intros; congruence]. }
    rewrite H1, H2, H3, H4, H5. reflexivity.
  - destruct (complete_cons a pre HC) as (HC' & HL). cbn [app m_option]. rewrite (IH HC').
    destruct (strcmp0_spec a ["-"%char; x]) as [->|_]; [|reflexivity]. destruct pre as [|b pre]; [|reflexivity].
    exfalso. destruct (HL eq_refl) as [(q & E)|[E|[E|E]]]; [cbn in E; injection E; congruence|injection E; congruence|injection E; congruence|apply E; exists [x]; reflexivity].
Qed.
Lemma known_flag accepted refused flag pre post : check_flag flag -> (exists r, accepted = lit "--known-" ++ r) -> (exists r, refused = lit "--known-" ++ r) -> complete pre ->
  m_known_data accepted refused (pre ++ flag :: post) = m_known_data accepted refused (pre ++ post).
Proof.
  intros HF (r1 & ->) (r2 & ->). induction pre as [|a pre IH]; intros HC.
  - cbn [app m_known_data]. 
    assert (H : strncmp0 flag (lit "--known-" ++ r1) (length (lit "--known-" ++ r1)) = false /\ strncmp0 flag (lit "--known-" ++ r2) (length (lit "--known-" ++ r2)) = false).
    { split; match goal with |- strncmp0 _ ?w _ = _ => destruct (strncmp0_spec flag w) as [(q & E)|]; auto end; destruct HF; subst; discriminate E. }
    destruct H as (H1 & H2). rewrite H1, H2. destruct HF; subst; reflexivity.
  - destruct (complete_cons a pre HC) as (HC' & HL). cbn [app m_known_data]. rewrite (IH HC').
    destruct (strcmp0_spec a (lit "-k")) as [->|_]; [|reflexivity]. destruct pre as [|b pre]; [|reflexivity].
    exfalso. destruct (HL eq_refl) as [(q & E)|[E|[E|E]]]; try discriminate. apply E. exists (lit "k"). reflexivity.
Qed.
Lemma filename_flag flag pre post : check_flag flag -> complete pre -> forall name, m_filename_loop (pre ++ flag :: post) name = m_filename_loop (pre ++ post) name.
Proof.
  intros HF. induction pre as [pre IH] using (well_founded_induction (Wf_nat.well_founded_ltof _ (@length text))). unfold Wf_nat.ltof in IH. intros HC name.
  destruct pre as [|a pre]; [destruct HF; subst; reflexivity|]. destruct (complete_cons a pre HC) as (HC' & HL). cbn [app m_filename_loop length] in *.
  assert (S1 := strncmp0_spec a (lit "--")). assert (S2 := strncmp0_spec a (lit "-")). change (length (lit "--")) with 2 in S1. change (length (lit "-")) with 1 in S2.
  destruct S1 as [H1|H1]; [apply IH; auto|]. destruct S2 as [H2|H2]; [|destruct (negb (at_end name)); [reflexivity|apply IH; auto]].
  destruct (m_requires_parameter a) eqn:ER; [|apply IH; auto]. destruct pre as [|b pre].
  - exfalso. destruct (HL eq_refl) as [E|[->|[->|E]]]; try discriminate; tauto.
  - cbn [app]. apply IH; [cbn [length]; lia|]. apply (complete_cons b pre HC').
Qed.
Lemma mode_option_flag flag pre post : check_flag flag -> complete pre -> m_mode_option_loop (pre ++ flag :: post) = m_mode_option_loop (pre ++ post).
Proof.
  intros HF. induction pre as [|a pre IH]; intros HC; [destruct HF; subst; reflexivity|]. destruct (complete_cons a pre HC) as (HC' & HL). cbn [app m_mode_option_loop]. rewrite (IH HC').
  destruct (strcmp0_spec a (lit "-h")) as [->|_]; [|reflexivity]. destruct pre as [|b pre]; [|reflexivity].
  exfalso. destruct (HL eq_refl) as [(q & E)|[E|[E|E]]]; try discriminate. apply E. exists (lit "h"). reflexivity.
Qed.
Lemma help_flag flag pre post : check_flag flag -> complete pre -> m_help_argument (pre ++ flag :: post) = m_help_argument (pre ++ post).
Proof.
  intros HF. induction pre as [|a pre IH]; intros HC; [destruct HF; subst; reflexivity|]. destruct (complete_cons a pre HC) as (HC' & HL). cbn [app m_help_argument]. rewrite (IH HC').
  destruct (strcmp0_spec a (lit "-h")) as [->|_]; [|reflexivity]. destruct pre as [|b pre]; [|reflexivity].
  exfalso. destruct (HL eq_refl) as [(q & E)|[E|[E|E]]]; try discriminate. apply E. exists (lit "h"). reflexivity.
Qed.

(** ** Reading *)
(** The second computation is the first one, or refuses, or is undefined. *)
Definition stricter {X} (x y : res X) : Prop := y = x \/ y = Throw \/ y = UB.
Lemma stricter_refl {X} (x : res X) : stricter x x.
Proof. left. reflexivity. Qed.
Lemma stricter_bind {X Y} (x y : res X) (f g : X -> res Y) : stricter x y -> (forall v, stricter (f v) (g v)) -> stricter (bind x f) (bind y g).
Proof. intros [->|[->| ->]] H; [|right; left; reflexivity|right; right; reflexivity]. destruct x; cbn [bind]; auto; apply stricter_refl. Qed.
Lemma stricter_bindo {X Y} (x y : res (option X)) (f g : X -> res (option Y)) : stricter x y -> (forall v, stricter (f v) (g v)) -> stricter (bindo x f) (bindo y g).
Proof. intros [->|[->| ->]] H; [|right; left; reflexivity|right; right; reflexivity]. destruct x as [[v|]| |]; cbn [bindo bind]; auto; apply stricter_refl. Qed.
Lemma stricter_check (c : bool) (x : res unit) : stricter (Ok tt) (if c then x else Ok tt).
Proof. destruct c; [|apply stricter_refl]. destruct x as [[]| |]; [left|right; left|right; right]; reflexivity. Qed.
Lemma read_vertices_checked conical fuel c maps s : stricter (m_read_vertices conical fuel false maps s) (m_read_vertices conical fuel c maps s).
Proof. unfold m_read_vertices. apply stricter_bindo; [apply stricter_refl|]. intros [rows s']. apply stricter_bind; [apply stricter_check|]. intros. apply stricter_refl. Qed.
Lemma read_inequalities_checked c names maps s : stricter (m_read_inequalities false names maps s) (m_read_inequalities c names maps s).
Proof. unfold m_read_inequalities. apply stricter_bind; [apply stricter_refl|]. intros [rows s']. apply stricter_bind; [apply stricter_check|]. intros. apply stricter_refl. Qed.
Ltac strict := repeat first [apply stricter_refl|apply stricter_bindo; [apply stricter_refl|]|apply stricter_bindo; [apply read_vertices_checked|]|apply stricter_bind; [apply stricter_refl|]|apply stricter_bind; [apply read_inequalities_checked|]|intros ?].
Lemma inner_checked fuel c : forall token d s, stricter (inner_loop fuel false token d s) (inner_loop fuel c token d s).
Proof.
  induction fuel as [|fuel IH]; intros token d s; [apply stricter_refl|]. cbn [inner_loop]. destruct (negb (ok s)); [apply stricter_refl|]. apply stricter_bind; [apply stricter_refl|]. intros [w s1].
  repeat match goal with |- stricter (if ?b then _ else _) _ => destruct b end; strict; auto. destruct (getline w s1). apply IH.
Qed.
Lemma outer_checked fuel c : forall token d s, stricter (outer_loop fuel false token d s) (outer_loop fuel c token d s).
Proof.
  induction fuel as [|fuel IH]; intros token d s; [apply stricter_refl|]. cbn [outer_loop]. destruct (negb (ok s)); [apply stricter_refl|]. apply stricter_bind; [apply stricter_refl|]. intros [w s1].
  repeat match goal with |- stricter (if ?b then _ else _) _ => destruct b end; strict; auto. destruct (getline w s1). apply IH.
Qed.
Lemma known_vertices_checked fuel c : forall token conv cone s, stricter (known_vertices_loop fuel false token conv cone s) (known_vertices_loop fuel c token conv cone s).
Proof.
  induction fuel as [|fuel IH]; intros token conv cone s; [apply stricter_refl|]. cbn [known_vertices_loop]. apply stricter_bind; [apply stricter_refl|]. intros [w s1].
  repeat match goal with |- stricter (if ?b then _ else _) _ => destruct b end; strict; auto. destruct (getline w s1). apply IH.
Qed.

(** The same command line with and without the flag. *)
Section With_flag.
Variables (flag : text) (pre post : list text).
Hypothesis HF : check_flag flag.
Hypothesis HC : complete pre.
Notation args := (pre ++ flag :: post).
Notation args0 := (pre ++ post).
Lemma with_flag : m_check_validity args = true.
Proof. unfold m_check_validity. apply existsb_exists. exists flag. split; [apply in_app_iff; right; left; auto|]. destruct HF as [-> | ->]; reflexivity. Qed.
Lemma filename_with : m_filename args = m_filename args0.
Proof. apply filename_flag; auto. Qed.
Lemma order_with : m_input_order args = m_input_order args0.
Proof. apply (option_flag "s" (lit "--sorting=")); auto; try discriminate. exists (lit "orting="). reflexivity. Qed.
Lemma method_with : m_method args = m_method args0.
Proof. apply (option_flag "m" (lit "--method=")); auto; try discriminate. exists (lit "ethod="). reflexivity. Qed.
Lemma type_with : m_integer_type args = m_integer_type args0.
Proof. apply (option_flag "i" (lit "--integer-type=")); auto; try discriminate. exists (lit "nteger-type="). reflexivity. Qed.
Lemma threads_with hardware : m_number_of_threads hardware args = m_number_of_threads hardware args0.
Proof. apply (option_flag "t" (lit "--threads=")); auto; try discriminate. exists (lit "hreads="). reflexivity. Qed.
Lemma known_facets_with : m_known_facets_filename args = m_known_facets_filename args0.
Proof. apply known_flag; auto; [exists (lit "facets=")|exists (lit "vertices=")]; reflexivity. Qed.
Lemma known_vertices_with : m_known_vertices_filename args = m_known_vertices_filename args0.
Proof. apply known_flag; auto; [exists (lit "vertices=")|exists (lit "facets=")]; reflexivity. Qed.
Lemma input_vertices_checked fs fuel : m_check_validity args0 = false -> stricter (m_input_vertices fs fuel args0) (m_input_vertices fs fuel args).
Proof.
  intros H0. unfold m_input_vertices, m_known_facets. rewrite filename_with, known_facets_with, order_with, H0. strict. destruct (m_contains_keywords v0) as [b s]. destruct (negb b); [apply stricter_refl|].
  apply stricter_bindo; [apply inner_checked|]. intros d. strict. apply stricter_bind.
  - strict. destruct (at_end v3); strict. destruct v5 as [w s1]. destruct (m_is_inequalities w); strict.
  - intros k. apply stricter_bind; [apply stricter_check|]. intros. apply stricter_refl.
Qed.
Lemma input_inequalities_checked fs fuel : m_check_validity args0 = false -> stricter (m_input_inequalities fs fuel args0) (m_input_inequalities fs fuel args).
Proof.
  intros H0. unfold m_input_inequalities, m_known_vertices. rewrite filename_with, known_vertices_with, order_with, H0. strict. destruct (m_contains_keywords v0) as [b s]. destruct (negb b); [apply stricter_refl|].
  apply stricter_bindo; [apply outer_checked|]. intros d. strict. apply stricter_bindo.
  - strict. destruct (at_end v6); strict. apply known_vertices_checked.
  - intros k. apply stricter_bind; [apply stricter_check|]. intros. apply stricter_refl.
Qed.
Lemma input_vertices_twice fs fuel : m_check_validity args0 = true -> m_input_vertices fs fuel args = m_input_vertices fs fuel args0.
Proof. intros H0. unfold m_input_vertices, m_known_facets. rewrite filename_with, known_facets_with, order_with, H0, with_flag. reflexivity. Qed.
Lemma input_inequalities_twice fs fuel : m_check_validity args0 = true -> m_input_inequalities fs fuel args = m_input_inequalities fs fuel args0.
Proof. intros H0. unfold m_input_inequalities, m_known_vertices. rewrite filename_with, known_vertices_with, order_with, H0, with_flag. reflexivity. Qed.
Lemma input_vertices_strict fs fuel : stricter (m_input_vertices fs fuel args0) (m_input_vertices fs fuel args).
Proof. destruct (m_check_validity args0) eqn:E; [left; apply input_vertices_twice; auto|apply input_vertices_checked; auto]. Qed.
Lemma input_inequalities_strict fs fuel : stricter (m_input_inequalities fs fuel args0) (m_input_inequalities fs fuel args).
Proof. destruct (m_check_validity args0) eqn:E; [left; apply input_inequalities_twice; auto|apply input_inequalities_checked; auto]. Qed.
Lemma detect_mode_with fs : args0 <> [] -> m_detect_mode fs args = m_detect_mode fs args0.
Proof.
  intros Hn. unfold m_detect_mode. rewrite filename_with.
  assert (E : m_mode_option args = m_mode_option args0).
  { unfold m_mode_option. rewrite mode_option_flag by auto. destruct (pre ++ flag :: post) eqn:E1; [destruct pre; discriminate|]. destruct (pre ++ post); [congruence|reflexivity]. }
  rewrite E. reflexivity.
Qed.
End With_flag.
