(** * C33: what is accepted as a term of a constraint with names. *)
From Coq Require Import List ZArith Arith Bool Ascii String Lia.
From Verif Require Import Base Spec ListUtil ArithModel SafeIntModel IntTypes StreamModel StreamProofs ClassesModel InputModel InputProofs ConstraintModel ConstraintInput IntLcm MapInput MapImages.
Import ListNotations.
Open Scope nat_scope.
Open Scope list_scope.

(** ** Specification *)
(** What is overlooked behind a factor: nothing, or, behind an integer, a sign and any signs and digits ("3-4x" is 3x). *)
Definition overlooked (f j : text) : Prop := j = [] \/ (exists z, integer_text f z) /\ Forall (fun c => is_factor c = true) j /\ next_sign j.
(** A term: a factor and the name of a variable, or a constant.  (A constant is stored negated, as the last entry of a row.) *)
Inductive written_term (names : list text) : text -> nat * Z -> Prop :=
| written_term_variable f j n z i : factor_text f z -> overlooked f j -> stops is_factor n -> n <> [] -> first_named names n i -> written_term names (f ++ j ++ n) (i, z)
| written_term_constant f j z : factor_text f z -> overlooked f j -> int_range (- z) -> written_term names (f ++ j) (length names, (- z)%Z).

(** ** Proofs *)
Lemma factor_not_space c : is_factor c = true -> is_space c = false.
Proof.
  unfold is_factor, is_sign. intros H. apply orb_true_iff in H as [H|H]; [|apply digit_space; exact H].
  destruct (is_char_spec c "+") as [E|_]; [rewrite E; reflexivity|]. destruct (is_char_spec c "-") as [E|_]; [rewrite E; reflexivity|discriminate].
Qed.
Lemma to_int_overlooked t z : Forall (fun c => is_factor c = true) t -> (m_to_int t = Ok z <-> exists f j, t = f ++ j /\ factor_text f z /\ overlooked f j).
Proof.
  intros HT. split.
  - unfold m_to_int. destruct (at_end t || text_eqb t (lit "+")) eqn:E1.
    { intros E. injection E as <-. exists t, []. rewrite app_nil_r. split; [reflexivity|]. split; [|left; reflexivity].
      apply orb_true_iff in E1 as [E1|E1]; [destruct t; [constructor|discriminate]|]. destruct (text_eqb_spec t (lit "+")) as [->|]; [constructor|discriminate]. }
    destruct (text_eqb_spec t (lit "-")) as [->|_]; [intros E; injection E as <-; exists (lit "-"), []; split; [reflexivity|split; [constructor|left; reflexivity]]|].
    destruct (read_int 0 (opened t)) as [n s] eqn:R. unfold ok. destruct (failbit s) eqn:Fs; [discriminate|]. cbn [negb]. intros E. injection E as ->.
    destruct (read_int_inv _ _ _ _ R Fs) as (ws & p & Et & Hw & Hp & Hs & Hr & _). destruct ws as [|c ws].
    + cbn [app] in Et. exists p, (rest s). split; [exact Et|]. split; [apply factor_integer; assumption|]. right. split; [exists z; exact Hp|].
      rewrite Et in HT. apply Forall_app in HT as [_ HT]. split; [exact HT|]. destruct (rest s) as [|c r]; [exact I|]. cbn in Hs |- *. apply Forall_inv in HT. unfold is_factor in HT. rewrite Hs, orb_false_r in HT. exact HT.
    + exfalso. rewrite Et in HT. apply Forall_inv in HT. apply factor_not_space in HT. apply Forall_inv in Hw. congruence.
  - intros (f & j & -> & Hf & [->|((z' & Hz) & Hj & Hs)]); [rewrite app_nil_r; apply to_int_factor; exact Hf|].
    assert (Hf' : integer_text f z /\ int_range z).
    { inversion Hf as [E|E|E|p x Hp Hx]; subst; [exfalso|exfalso|exfalso|split; assumption]; inversion Hz as [ds Hn Hd E|ds Hn Hd E|ds Hn Hd E]; subst; try congruence; apply Forall_inv in Hd; discriminate. }
    destruct Hf' as [Hi Hr]. destruct j as [|c j]; [rewrite app_nil_r; apply to_int_factor; exact Hf|].
    unfold m_to_int. assert (R := read_int_ok [] f z (c :: j) 0%Z (Forall_nil _) Hi (sign_digit c Hs) Hr). cbn [app] in R. rewrite R. unfold ok. cbn [failbit negb].
    destruct (integer_text_start f z Hi) as [Hne _]. destruct f as [|d f]; [congruence|]. cbn [app at_end orb].
    destruct (text_eqb_spec (d :: f ++ c :: j) (lit "+")) as [E|_]; [injection E as _ E; destruct f; discriminate|].
    destruct (text_eqb_spec (d :: f ++ c :: j) (lit "-")) as [E|_]; [injection E as _ E; destruct f; discriminate|reflexivity].
Qed.
Lemma factor_all f z j : factor_text f z -> overlooked f j -> Forall (fun c => is_factor c = true) (f ++ j).
Proof. intros Hf Hj. apply Forall_app. split; [apply (factor_chars f z Hf)|]. destruct Hj as [->|(_ & H & _)]; [constructor|exact H]. Qed.
Lemma term_iff names token x : m_term token names = Ok x <-> written_term names token x.
Proof.
  unfold m_term. split.
  - intros E. assert (TO := to_int_overlooked (take_while is_factor token)). destruct (m_to_int (take_while is_factor token)) as [z| |]; [|discriminate|discriminate]. cbn [bind] in E.
    destruct (proj1 (TO z (forall_take is_factor token)) eq_refl) as (f & j & ET & Hf & Hj). assert (SP := take_drop_while is_factor token). rewrite ET in SP. assert (ST := stops_drop is_factor token).
    destruct (drop_while is_factor token) as [|c n].
    + unfold i_neg, ck in E. destruct (fits 32 (- z)) eqn:F; [|discriminate]. cbn [bind] in E. injection E as <-. rewrite SP, app_nil_r. apply written_term_constant; [exact Hf|exact Hj|]. apply fits_int. exact F.
    + assert (FN := find_name_first names (c :: n)). destruct (find_name (c :: n) names) as [i|]; [|discriminate]. injection E as <-. rewrite SP, <- app_assoc. apply written_term_variable; auto. discriminate.
  - intros H. inversion H as [f j n z i Hf Hj Hn Hne Hi Et Ex|f j z Hf Hj Hz Et Ex]; subst.
    + assert (A := factor_all f z j Hf Hj). rewrite app_assoc, take_app, drop_app, take_stop, drop_stop, app_nil_r by assumption.
      rewrite (proj2 (to_int_overlooked (f ++ j) z A)) by (exists f, j; auto). cbn [bind]. destruct n as [|c n]; [congruence|].
      assert (FN := find_name_first names (c :: n)). destruct (find_name (c :: n) names) as [k|]; [|destruct (FN i (proj1 Hi))]. rewrite (first_named_unique _ _ _ _ FN Hi). reflexivity.
    + assert (A := factor_all f z j Hf Hj). assert (T := take_app is_factor (f ++ j) [] A). assert (D := drop_app is_factor (f ++ j) [] A). rewrite app_nil_r in T, D. cbn [take_while drop_while] in T, D. rewrite app_nil_r in T. rewrite T, D.
      rewrite (proj2 (to_int_overlooked (f ++ j) z A)) by (exists f, j; auto). cbn [bind]. unfold i_neg, ck. rewrite (proj2 (fits_int (- z)%Z) Hz). reflexivity.
Qed.

Lemma to_int_cases t : (exists z, m_to_int t = Ok z) \/ m_to_int t = Throw.
Proof.
  unfold m_to_int. destruct (at_end t || text_eqb t (lit "+")); [left; eexists; reflexivity|]. destruct (text_eqb t (lit "-")); [left; eexists; reflexivity|]. destruct (read_int 0 (opened t)) as [z s].
  destruct (negb (ok s)); [right; reflexivity|left; eexists; reflexivity].
Qed.

(** ** C33 *)
(** For every word and all names: the word is accepted as a term exactly if it is one, as the variable and the factor (or the constant) that it consists of; unknown names and numbers that do not fit an int are errors.
    What is wrong with it is that signs and digits behind an integer are overlooked. *)
Theorem C33_term : forall names token x, m_term token names = Ok x <-> written_term names token x.
Proof. exact term_iff. Qed.
Print Assumptions C33_term.
Example C33_term_example :
  written_term [lit "x"; lit "y"] (lit "-3y") (1, (-3)%Z) /\ m_term (lit "-3y") [lit "x"; lit "y"] = Ok (1, (-3)%Z) /\ m_term (lit "3-4x") [lit "x"; lit "y"] = Ok (0, 3%Z) /\
  m_term (lit "2z") [lit "x"; lit "y"] = Throw /\ m_term (lit "+-3x") [lit "x"; lit "y"] = Throw /\ m_term (lit "5") [lit "x"; lit "y"] = Ok (2, (-5)%Z).
Proof.
  assert (E : m_term (lit "-3y") [lit "x"; lit "y"] = Ok (1, (-3)%Z)) by (vm_compute; reflexivity). split; [|split; [exact E|repeat split; vm_compute; reflexivity]].
  apply (written_term_variable [lit "x"; lit "y"] (lit "-3") [] (lit "y") (-3) 1); [|left; reflexivity|reflexivity|discriminate|].
  - apply factor_integer; [apply (integer_minus (lit "3")); [discriminate|repeat constructor]|split; vm_compute; discriminate].
  - split; [reflexivity|]. intros [|j] Hj N; [discriminate|lia].
Qed.
(** The only constant that fits an int and is not accepted is the least one: its negation overflows, which is undefined. *)
Theorem C33_least_int_refuted : forall names token, m_term token names = UB <-> exists f j, token = f ++ j /\ factor_text f (- 2 ^ 31) /\ overlooked f j.
Proof.
  intros names token. assert (TO := to_int_overlooked (take_while is_factor token)). assert (FA := forall_take is_factor token). assert (SP := take_drop_while is_factor token). split.
  - unfold m_term. intros E. destruct (to_int_cases (take_while is_factor token)) as [(z & EZ)|EZ]; rewrite EZ in E; [|discriminate]. cbn [bind] in E. destruct (drop_while is_factor token) as [|c n].
    + destruct (proj1 (TO z FA) EZ) as (f & j & ET & Hf & Hj). exists f, j. rewrite app_nil_r in SP. split; [congruence|]. split; [|exact Hj]. unfold i_neg, ck in E. destruct (fits 32 (- z)) eqn:F; [discriminate|].
      assert (N : ~ int_range (- z)) by (intros K; apply fits_int in K; congruence). assert (R := factor_range f z Hf). unfold int_range, StreamModel.int_min, StreamModel.int_max in N, R.
      replace (- 2 ^ 31)%Z with z by lia. exact Hf.
    + destruct (find_name (c :: n) names); discriminate.
  - intros (f & j & -> & Hf & Hj). assert (A := factor_all f _ j Hf Hj). unfold m_term. assert (T := take_app is_factor (f ++ j) [] A). assert (D := drop_app is_factor (f ++ j) [] A). rewrite app_nil_r in T, D. cbn [take_while drop_while] in T, D. rewrite app_nil_r in T. rewrite T, D.
    rewrite (proj2 (to_int_overlooked (f ++ j) (- 2 ^ 31) A)) by (exists f, j; auto). reflexivity.
Qed.
Print Assumptions C33_least_int_refuted.
Example C33_least_int_example : m_constraint Inequality [lit "x"; lit "y"] (opened (lit "x <= -2147483648")) = UB.
Proof. vm_compute. reflexivity. Qed.
