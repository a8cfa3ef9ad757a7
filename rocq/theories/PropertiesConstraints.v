(** * PropertiesConstraints: equations and inequalities in an input file (C33). *)
From Coq Require Import List ZArith QArith Arith Bool Ascii String Lia Lqa.
From Verif Require Import Base Spec LinAlg ListUtil ArithModel SafeIntModel IntTypes RowLcm StreamModel StreamProofs IntLcm InputModel InputProofs InputTotal VertexInput ClassesModel
  ConstraintModel ConstraintInput ConstraintSection PropertiesVertices.
Import ListNotations.
Open Scope nat_scope.
Open Scope list_scope.

(** ** Specification: what a constraint and what a row say about a rational point. *)
Definition coordinate_of (x : list Q) (i : nat) : Q := nth i x 0%Q.
(** The sum of the terms z * x_i. *)
Definition linear_form (terms : list (nat * Z)) (x : list Q) : Q := fold_right (fun t sum => inject_Z (snd t) * coordinate_of x (fst t) + sum)%Q 0%Q terms.
Definition holds (op : relation_operator) (l r : Q) : Prop :=
  match op with LessEqual => (l <= r)%Q | GreaterEqual => (r <= l)%Q | Equal => (l == r)%Q | Undecided => False end.
(** A row (a_1, ..., a_n, c) stands for a_1 x_1 + ... + a_n x_n + c, which is at most 0 (an inequality) or 0 (an equation). *)
Fixpoint affine (row : vec) (x : list Q) : Q :=
  match row, x with
  | a :: row', q :: x' => (inject_Z a * q + affine row' x')%Q
  | c :: _, [] => inject_Z c
  | [], _ => 0%Q
  end.
Definition row_holds (type : constraint_type) (row : vec) (x : list Q) : Prop := match type with Equation => (affine row x == 0)%Q | Inequality => (affine row x <= 0)%Q end.
(** [row] represents the constraint: it has as many coefficients as there are variables, and the same solutions. *)
Definition same_solutions (type : constraint_type) (n : nat) (terms : list (nat * Z)) (op : relation_operator) (b : Z) (row : vec) : Prop :=
  length row = n + 1 /\ forall x : list Q, length x = n -> (row_holds type row x <-> holds op (linear_form terms x) (inject_Z b)).
(** Equations are written with =, inequalities with <= or >=. *)
Definition right_kind (type : constraint_type) (op : relation_operator) : Prop := match type with Equation => op = Equal | Inequality => op = LessEqual \/ op = GreaterEqual end.
(** All coefficients can be negated. *)
Definition negatable (terms : list (nat * Z)) : Prop := Forall (fun t => (- 2147483647 <= snd t <= 2147483647)%Z) terms.
Definition enumerate (zs : list Z) : list (nat * Z) := combine (seq 0 (length zs)) zs.

Lemma allowed_iff type op : m_relation_allowed type op = true -> m_decided op = true -> right_kind type op.
Proof. destruct type, op; cbn; auto; discriminate. Qed.
Lemma allowed_right type op : right_kind type op -> m_relation_allowed type op = true.
Proof. destruct type; cbn; [intros ->; reflexivity|intros [->| ->]; reflexivity]. Qed.
Lemma relation_decided w op : relation_text w op -> m_decided op = true.
Proof. intros H. inversion H; reflexivity. Qed.
Lemma affine_app row c x : length x = length row -> (affine (row ++ [c]) x == affine row x + inject_Z c)%Q.
Proof.
  revert x. induction row as [|a row IH]; intros [|q x] H; cbn in *; try discriminate; [ring|]. rewrite IH by lia. ring.
Qed.
Lemma affine_opp row x : length row = length x + 1 -> (affine (map Z.opp row) x == - affine row x)%Q.
Proof.
  revert x. induction row as [|a row IH]; intros [|q x] H; cbn in *; try lia; rewrite inject_Z_opp; [ring|]. rewrite IH by lia. ring.
Qed.
Lemma affine_zero n s x : (affine (map (fun j => total j []) (seq s n)) x == 0)%Q.
Proof. revert s x. induction n as [|n IH]; intros s [|q x]; cbn [seq map affine]; try reflexivity. rewrite IH. change (inject_Z (total s [])) with 0%Q. ring. Qed.
Lemma affine_term n s x i z terms : length x = n ->
  (affine (map (fun j => total j ((i, z) :: terms)) (seq s n)) x ==
   (if (s <=? i) && (i <? s + n) then inject_Z z * nth (i - s) x 0%Q else 0) + affine (map (fun j => total j terms) (seq s n)) x)%Q.
Proof.
  revert s x. induction n as [|n IH]; intros s [|q x] H; cbn [length] in H; try discriminate.
  - cbn [seq map affine]. destruct (Nat.leb_spec s i), (Nat.ltb_spec i (s + 0)); cbn [andb]; try lia; reflexivity.
  - injection H as H. cbn [seq map affine]. rewrite (IH (S s) x H). change (total s ((i, z) :: terms)) with ((if (i =? s)%nat then z else 0) + total s terms)%Z. rewrite inject_Z_plus.
    destruct (Nat.eqb_spec i s) as [->|Hne].
    + destruct (Nat.leb_spec s s), (Nat.leb_spec (S s) s), (Nat.ltb_spec s (s + S n)); cbn [andb]; try lia. rewrite Nat.sub_diag. cbn [nth]. ring.
    + change (inject_Z 0) with 0%Q. destruct (Nat.leb_spec s i), (Nat.leb_spec (S s) i), (Nat.ltb_spec i (s + S n)), (Nat.ltb_spec i (S s + n)); cbn [andb]; try lia; try ring.
      replace (i - s) with (S (i - S s)) by lia. cbn [nth]. ring.
Qed.
Lemma affine_coefficients n terms x : length x = n -> Forall (fun t => fst t < n) terms -> (affine (coefficients n terms) x == linear_form terms x)%Q.
Proof.
  intros Hx. unfold coefficients. induction 1 as [|[i z] terms Hi _ IH]; [apply affine_zero|]. rewrite affine_term by auto. rewrite IH. cbn [linear_form fold_right fst snd]. cbn in Hi.
  destruct (Nat.leb_spec 0 i); [|lia]. cbn [Nat.add]. destruct (Nat.ltb_spec i n); [|lia]. cbn [andb]. rewrite Nat.sub_0_r. reflexivity.
Qed.
Lemma oriented_solutions type n terms op b : right_kind type op -> Forall (fun t => fst t < n) terms -> same_solutions type n terms op b (oriented op (coefficient_row n terms b)).
Proof.
  intros HK HT. assert (L : length (coefficient_row n terms b) = n + 1) by (unfold coefficient_row; rewrite app_length, coefficients_length; reflexivity).
  split; [destruct op; cbn [oriented]; rewrite ?map_length; auto|]. intros x Hx.
  assert (E : (affine (coefficient_row n terms b) x == linear_form terms x - inject_Z b)%Q).
  { unfold coefficient_row. rewrite affine_app by (rewrite coefficients_length; auto). rewrite affine_coefficients by auto. rewrite inject_Z_opp. ring. }
  destruct type; cbn [right_kind] in HK.
  - subst op. cbn [oriented row_holds holds]. rewrite E. split; intros H; lra.
  - destruct HK as [->| ->]; cbn [oriented row_holds holds].
    + rewrite E. split; intros H; lra.
    + rewrite affine_opp by lia. rewrite E. split; intros H; lra.
Qed.
Lemma terms_indices names l xs : terms_text names l xs -> Forall (fun t => fst t < length names) xs.
Proof. induction 1 as [|t [i z] u l xs Ht Hu Hn Hl IH]; constructor; auto. cbn. eapply term_index; eauto. Qed.
Lemma named_indices names line xs op b : named_text names line xs op b -> Forall (fun t => fst t < length names) xs /\ m_decided op = true.
Proof. intros H. inversion H as [l xs' w op' p b' v Hl Hw]; subst. split; [eapply terms_indices; eauto|eapply relation_decided; eauto]. Qed.
Lemma total_absent i xs : ~ In i (map fst xs) -> total i xs = 0%Z.
Proof. induction xs as [|[j z] xs IH]; cbn; auto. intros H. destruct (Nat.eqb_spec j i); [tauto|]. rewrite IH by tauto. reflexivity. Qed.
Lemma small_zero : small 0.
Proof. unfold small, int_range, StreamModel.int_min, StreamModel.int_max. lia. Qed.
Lemma total_small xs i : NoDup (map fst xs) -> negatable xs -> small (total i xs).
Proof.
  induction xs as [|[j z] xs IH]; cbn [total map fst]; intros HD HN; [apply small_zero|]. inversion HD as [|? ? H1 H2]; subst. inversion HN as [|? ? H3 H4]; subst. cbn in H3.
  destruct (Nat.eqb_spec j i) as [->|]; [|cbn [Z.add]; auto]. rewrite (total_absent i xs) by auto. unfold small, int_range, StreamModel.int_min, StreamModel.int_max. lia.
Qed.
Lemma coefficients_small n xs : NoDup (map fst xs) -> negatable xs -> Forall small (coefficients n xs).
Proof. intros HD HN. unfold coefficients. apply Forall_map, Forall_forall. intros i _. apply total_small; auto. Qed.
Lemma repeats_distinct xs : forall seen, NoDup (map fst xs) -> (forall i, In i (map fst xs) -> total i seen = 0%Z) -> repeats seen xs = false.
Proof.
  induction xs as [|[i z] xs IH]; intros seen HD HS; cbn [repeats]; auto. cbn [map fst] in *. inversion HD as [|? ? H1 H2]; subst. rewrite (HS i) by (left; auto). cbn [Z.eqb negb orb].
  apply IH; auto. intros j Hj. rewrite total_app, HS by (right; auto). cbn [total]. destruct (Nat.eqb_spec i j); [subst; contradiction|reflexivity].
Qed.
Lemma repeats_absent xs : forall seen i, repeats seen xs = false -> total i seen <> 0%Z -> ~ In i (map fst xs).
Proof.
  induction xs as [|[j z] xs IH]; intros seen i HR HT; cbn; auto. cbn [repeats] in HR. apply orb_false_iff in HR as [HR1 HR2]. apply negb_false_iff, Z.eqb_eq in HR1.
  assert (Hne : j <> i) by (intros ->; congruence). intros [K|K]; [congruence|]. revert K. apply (IH (seen ++ [(j, z)])); auto. rewrite total_app. cbn [total].
  destruct (Nat.eqb_spec j i); [congruence|]. lia.
Qed.
Lemma repeats_twice a i z m z' e : z <> 0%Z -> forall seen, repeats seen (a ++ (i, z) :: m ++ (i, z') :: e) = true.
Proof.
  intros Hz. induction a as [|[j y] a IH]; intros seen; cbn [app repeats].
  - destruct (Z.eqb_spec (total i seen) 0) as [E|E]; cbn [negb orb]; [|reflexivity]. destruct (repeats (seen ++ [(i, z)]) (m ++ (i, z') :: e)) eqn:R; auto. exfalso.
    refine (repeats_absent _ _ i R _ _).
    + rewrite total_app, E. cbn [total]. rewrite Nat.eqb_refl. lia.
    + rewrite map_app, in_app_iff. right. left. reflexivity.
  - rewrite IH. apply orb_true_r.
Qed.

(** ** C33: single constraints *)
(** A constraint with names whose variables are distinct is read as a row with the same solutions. *)
Theorem C33_named : forall type names lab line terms op b r,
  NoDup names -> label lab -> named_text names line terms op b -> line_end r -> right_kind type op -> NoDup (map fst terms) -> negatable terms ->
  exists row, m_named_constraint type names (opened (lab ++ line ++ r)) = Ok (row, opened r) /\ same_solutions type (length names) terms op b row.
Proof.
  intros type names lab line terms op b r Hd Hlab Hl Hr HK HD HN. destruct (named_indices _ _ _ _ _ Hl) as [HI _].
  exists (oriented op (coefficient_row (length names) terms b)). split; [|apply oriented_solutions; auto].
  rewrite (named_constraint_ok names type lab line terms op b r Hd Hlab Hl Hr) by (apply coefficients_small; auto). rewrite repeats_distinct by auto. rewrite allowed_right by auto. reflexivity.
Qed.
Print Assumptions C33_named.
(** A variable that occurs again after a term with a coefficient is rejected (the coefficients are not added). *)
Theorem C33_repeated_rejected : forall type names lab line terms op b r a i z m z' e,
  NoDup names -> label lab -> named_text names line terms op b -> line_end r -> Forall small (coefficients (length names) terms) ->
  terms = a ++ (i, z) :: m ++ (i, z') :: e -> z <> 0%Z ->
  m_named_constraint type names (opened (lab ++ line ++ r)) = Throw.
Proof.
  intros type names lab line terms op b r a i z m z' e Hd Hlab Hl Hr HS -> Hz. rewrite (named_constraint_ok names type lab line _ op b r Hd Hlab Hl Hr HS). rewrite repeats_twice; auto.
Qed.
Print Assumptions C33_repeated_rejected.
(** An equation in a section of inequalities, or an inequality in a section of equations, is rejected. *)
Theorem C33_wrong_kind_rejected : forall type names lab line terms op b r,
  NoDup names -> label lab -> named_text names line terms op b -> line_end r -> Forall small (coefficients (length names) terms) -> ~ right_kind type op ->
  m_named_constraint type names (opened (lab ++ line ++ r)) = Throw.
Proof.
  intros type names lab line terms op b r Hd Hlab Hl Hr HS HK. rewrite (named_constraint_ok names type lab line terms op b r Hd Hlab Hl Hr HS).
  destruct (m_relation_allowed type op) eqn:E; [|rewrite orb_true_r; reflexivity]. exfalso. apply HK, allowed_iff; auto. eapply named_indices; eauto.
Qed.
Print Assumptions C33_wrong_kind_rejected.

Lemma enumerate_total zs : forall s i, total i (combine (seq s (length zs)) zs) = if (s <=? i) && (i <? s + length zs) then nth (i - s) zs 0%Z else 0%Z.
Proof.
  induction zs as [|z zs IH]; intros s i; cbn [length seq combine total].
  - destruct (Nat.leb_spec s i), (Nat.ltb_spec i (s + 0)); cbn; auto; lia.
  - rewrite IH. destruct (Nat.eqb_spec s i) as [->|Hne].
    + destruct (Nat.leb_spec i i), (Nat.leb_spec (S i) i), (Nat.ltb_spec i (i + S (length zs))); cbn [andb]; try lia. rewrite Nat.sub_diag. cbn. lia.
    + destruct (Nat.leb_spec s i), (Nat.leb_spec (S s) i), (Nat.ltb_spec i (s + S (length zs))), (Nat.ltb_spec i (S s + length zs)); cbn [andb]; try lia; auto.
      replace (i - s) with (S (i - S s)) by lia. cbn. lia.
Qed.
Lemma enumerate_coefficients zs : coefficients (length zs) (enumerate zs) = zs.
Proof.
  apply (nth_ext _ _ 0%Z 0%Z); [apply coefficients_length|]. intros i Hi. rewrite coefficients_length in Hi. rewrite coefficients_nth by auto. unfold enumerate. rewrite enumerate_total.
  destruct (Nat.leb_spec 0 i); [|lia]. cbn [Nat.add]. destruct (Nat.ltb_spec i (length zs)); [|lia]. cbn [andb]. rewrite Nat.sub_0_r. reflexivity.
Qed.
Lemma enumerate_indices zs : Forall (fun t => fst t < length zs) (enumerate zs).
Proof. apply Forall_forall. intros [i z] H. apply in_combine_l, in_seq in H. cbn. lia. Qed.
Lemma enumerate_small zs : negatable (enumerate zs) -> Forall small zs.
Proof.
  unfold enumerate. generalize 0 at 1. induction zs as [|z zs IH]; intros s H; cbn in *; constructor; inversion H as [|? ? H1 H2]; subst; [|eapply IH; eauto].
  cbn in H1. unfold small, int_range, StreamModel.int_min, StreamModel.int_max. lia.
Qed.
(** Without names: a row of coefficients, a relation and a right hand side. *)
Theorem C33_unnamed : forall type lab line zs op b r,
  label lab -> unnamed_text line zs op b -> line_end r -> right_kind type op -> negatable (enumerate zs) ->
  exists row, m_unnamed_constraint type (opened (lab ++ line ++ r)) = Ok (row, opened r) /\ same_solutions type (length zs) (enumerate zs) op b row.
Proof.
  intros type lab line zs op b r Hlab Hl Hr HK HN. exists (oriented op (zs ++ [(- b)%Z])). split.
  - rewrite (unnamed_constraint_ok type lab line zs op b r Hlab Hl Hr (enumerate_small zs HN)). rewrite allowed_right by auto. reflexivity.
  - rewrite <- (enumerate_coefficients zs) at 3. apply oriented_solutions; auto using enumerate_indices.
Qed.
Print Assumptions C33_unnamed.
Theorem C33_unnamed_wrong_kind_rejected : forall type lab line zs op b r,
  label lab -> unnamed_text line zs op b -> line_end r -> ~ right_kind type op -> negatable (enumerate zs) ->
  m_unnamed_constraint type (opened (lab ++ line ++ r)) = Throw.
Proof.
  intros type lab line zs op b r Hlab Hl Hr HK HN. rewrite (unnamed_constraint_ok type lab line zs op b r Hlab Hl Hr (enumerate_small zs HN)).
  destruct (m_relation_allowed type op) eqn:E; [|reflexivity]. exfalso. apply HK, allowed_iff; auto. inversion Hl; subst. eapply relation_decided; eauto.
Qed.
Print Assumptions C33_unnamed_wrong_kind_rejected.
(** Raw format: the row itself, with the constant on the left hand side: a x + b <= 0 or a x + b = 0. *)
Definition default_operator (type : constraint_type) : relation_operator := match type with Equation => Equal | Inequality => LessEqual end.
Theorem C33_raw : forall type lab line zs b r,
  label lab -> raw_text line zs b -> line_end r ->
  exists row, m_unnamed_constraint type (opened (lab ++ line ++ r)) = Ok (row, opened r) /\ same_solutions type (length zs) (enumerate zs) (default_operator type) (- b) row.
Proof.
  intros type lab line zs b r Hlab Hl Hr. exists (zs ++ [b]). split; [apply raw_constraint_ok; auto|].
  assert (S := oriented_solutions type (length zs) (enumerate zs) (default_operator type) (- b) ltac:(destruct type; cbn; auto) (enumerate_indices zs)).
  unfold coefficient_row in S. rewrite enumerate_coefficients, Z.opp_involutive in S. destruct type; exact S.
Qed.
Print Assumptions C33_raw.

(** ** Sections *)
(** A constraint as the user means it. *)
Record constraint := { terms : list (nat * Z); operator : relation_operator; constant : Z }.
(** Lines that the reader of the section accepts: with names ... *)
Inductive written_named (names : list text) (type : constraint_type) : text -> constraint -> Prop :=
| written_named_line lab line xs op b : spaced_label lab -> named_text names line xs op b -> xs <> [] -> NoDup (map fst xs) -> negatable xs -> right_kind type op ->
    early_term names lab line -> stops is_eol (lab ++ line) -> written_named names type (lab ++ line) {| terms := xs; operator := op; constant := b |}.
(** ... without names ... *)
Inductive written_unnamed (n : nat) (type : constraint_type) : text -> constraint -> Prop :=
| written_unnamed_line lab line zs op b : label lab -> unnamed_text line zs op b -> length zs = n -> negatable (enumerate zs) -> right_kind type op ->
    stops is_eol (lab ++ line) -> written_unnamed n type (lab ++ line) {| terms := enumerate zs; operator := op; constant := b |}
| written_raw_line lab line zs b : label lab -> raw_text line zs b -> length zs = n ->
    stops is_eol (lab ++ line) -> written_unnamed n type (lab ++ line) {| terms := enumerate zs; operator := default_operator type; constant := - b |}.
(** ... and sequences of them, with empty lines. *)
Inductive written {C : Type} (line_of : text -> C -> Prop) : text -> list C -> Prop :=
| written_none : written line_of [] []
| written_blank u t P : blanks u -> written line_of t P -> written line_of (u ++ newline :: t) P
| written_line line c t P : line_of line c -> written line_of t P -> written line_of (line ++ newline :: t) (c :: P).
(** What follows: the end of the file, another section, or END (see C31). *)
Inductive follows {C : Type} (line_of : text -> C -> Prop) : text -> list C -> option text -> Prop :=
| follows_end u : blanks u -> stops is_eol u -> follows line_of u [] None
| follows_last line c : line_of line c -> follows line_of line [c] None
| follows_keyword line r : keyword_line (convex_words ++ conical_words ++ other_words) line -> stops is_eol line -> follows line_of (line ++ newline :: r) [] (Some (line ++ newline :: r))
| follows_END line r : keyword_line end_words line -> stops is_eol line -> follows line_of (line ++ newline :: r) [] (Some r)
| follows_END_last line : keyword_line end_words line -> stops is_eol line -> follows line_of line [] (Some []).
Definition title_words (type : constraint_type) : list string := match type with Equation => equation_words | Inequality => inequality_words end.

Lemma integer_last p z : integer_text p z -> exists l c, p = l ++ [c] /\ is_digit c = true.
Proof.
  assert (D : forall ds, ds <> [] -> digits ds -> exists l c, ds = l ++ [c] /\ is_digit c = true).
  { intros ds Hn Hd. destruct (exists_last Hn) as (l & c & ->). exists l, c. split; auto. apply Forall_app in Hd as [_ Hd]. apply Forall_cons_iff in Hd. tauto. }
  intros H. inversion H as [ds Hn Hd|ds Hn Hd|ds Hn Hd]; subst; destruct (D _ Hn Hd) as (l & c & E & Hc).
  - eauto.
  - exists ("+"%char :: l), c. rewrite E. auto.
  - exists ("-"%char :: l), c. rewrite E. auto.
Qed.
Lemma no_space_no_newline t : Forall (fun c => is_space c = false) t -> ~ In newline t.
Proof. intros H K. rewrite Forall_forall in H. apply H in K. discriminate K. Qed.
Lemma integer_no_newline p z : integer_text p z -> ~ In newline p.
Proof. intros H. apply no_space_no_newline. eapply integer_chars; eauto. Qed.
Lemma relation_no_newline w op : relation_text w op -> ~ In newline w.
Proof.
  intros H. inversion H as [v Hv|v Hv|v Hv Hn|v Hv]; subst; cbn [lit list_ascii_of_string app In]; intros K; repeat (destruct K as [K|K]; [discriminate K|]); exact (blanks_no_newline v Hv K).
Qed.
Lemma term_no_newline names t x : term_text names t x -> ~ In newline t.
Proof.
  intros H. inversion H as [f n z i Hf Hn|u f n z i Hu Hne Hf Hz Hn|u f n z i Hu Hne Hf Hz Hn]; subst; destruct (factor_name_spaces names f n z i Hf Hn) as [S _]; apply no_space_no_newline in S; auto;
    cbn [In]; rewrite in_app_iff; intros [K|[K|K]]; try discriminate K; auto; exact (blanks_no_newline u Hu K).
Qed.
Lemma terms_no_newline names l xs : terms_text names l xs -> ~ In newline l.
Proof.
  induction 1 as [|t x u l xs Ht Hu Hn Hl IH]; [auto|]. rewrite !in_app_iff. intros [K|[K|K]]; [exact (term_no_newline _ _ _ Ht K)|exact (blanks_no_newline u Hu K)|auto].
Qed.
Lemma integers_no_newline l zs : integers_text l zs -> ~ In newline l.
Proof.
  induction 1 as [|p z u l zs Hp Hz Hu Hn Hl IH]; [auto|]. rewrite !in_app_iff. intros [K|[K|K]]; [exact (integer_no_newline _ _ Hp K)|exact (blanks_no_newline u Hu K)|auto].
Qed.
(** Lines of at most 2000 characters. *)
Lemma written_short_line names type lab line xs op b : spaced_label lab -> named_text names line xs op b -> xs <> [] -> NoDup (map fst xs) -> negatable xs -> right_kind type op ->
  length (lab ++ line) <= 2000 -> stops is_eol (lab ++ line) -> written_named names type (lab ++ line) {| terms := xs; operator := op; constant := b |}.
Proof. intros. apply written_named_line; auto. eapply short_early; eauto. Qed.
(** The row that is read for a constraint in [n] variables. *)
Definition row_for_constraint (n : nat) (c : constraint) : vec := oriented (operator c) (coefficient_row n (terms c) (constant c)).
Lemma written_named_row names type line c : NoDup names -> Forall name_text names -> prefix_ordered names -> written_named names type line c ->
  reads type names line (row_for_constraint (length names) c) /\ same_solutions type (length names) (terms c) (operator c) (constant c) (row_for_constraint (length names) c).
Proof.
  intros Hd Hn Ho H. inversion H as [lab l xs op b Hlab Hl Hx HD HN HK Hlen Hs]; subst. destruct (named_indices _ _ _ _ _ Hl) as [HI _].
  unfold row_for_constraint. cbn [terms operator constant]. split; [|apply oriented_solutions; auto]. split; [|split; [|split; [|split]]].
  - intros r Hr. rewrite <- app_assoc. rewrite (named_chosen names type lab l r) by auto.
    rewrite (named_constraint_ok names type lab l xs op b r Hd (spaced_is_label lab Hlab) Hl Hr) by (apply coefficients_small; auto). rewrite repeats_distinct by auto. rewrite allowed_right by auto. reflexivity.
  - unfold coefficient_row. destruct op; cbn [oriented]; destruct (coefficients (length names) xs); discriminate.
  - inversion Hl as [l' xs' w op' p b' v Ht Hw Hp Hb Hb' Hv]; subst. rewrite !in_app_iff. intros [K|[K|[K|[K|K]]]].
    + exact (label_no_newline lab (spaced_is_label lab Hlab) K).
    + exact (terms_no_newline _ _ _ Ht K).
    + exact (relation_no_newline _ _ Hw K).
    + exact (integer_no_newline _ _ Hp K).
    + exact (blanks_no_newline v Hv K).
  - exact Hs.
  - inversion Hl as [l' xs' w op' p b' v Ht Hw Hp Hb Hb' Hv]; subst. destruct (integer_last p b Hp) as (l & c & -> & Hc). exists (lab ++ l' ++ w ++ l), c, v.
    split; [rewrite <- !app_assoc; reflexivity|auto].
Qed.
Lemma written_named_reads names type line c : NoDup names -> Forall name_text names -> prefix_ordered names -> written_named names type line c ->
  exists row, reads type names line row /\ same_solutions type (length names) (terms c) (operator c) (constant c) row.
Proof. intros Hd Hn Ho H. exists (row_for_constraint (length names) c). apply written_named_row; auto. Qed.
Lemma written_unnamed_row n type line c : written_unnamed n type line c ->
  reads type [] line (row_for_constraint n c) /\ same_solutions type n (terms c) (operator c) (constant c) (row_for_constraint n c).
Proof.
  intros H. inversion H as [lab l zs op b Hlab Hl Hn HN HK Hs|lab l zs b Hlab Hl Hn Hs]; subst; unfold row_for_constraint, coefficient_row; cbn [terms operator constant]; rewrite enumerate_coefficients.
  - split.
    + split; [|split; [|split; [|split]]].
      * intros r Hr. unfold m_constraint. cbn [bind]. rewrite <- app_assoc. rewrite (unnamed_constraint_ok type lab l zs op b r Hlab Hl Hr (enumerate_small zs HN)). rewrite allowed_right by auto. reflexivity.
      * destruct op; cbn [oriented]; destruct zs; discriminate.
      * inversion Hl as [l' xs' w op' p b' v Ht Hw Hp Hb Hb' Hv]; subst. rewrite !in_app_iff. intros [K|[K|[K|[K|K]]]].
        -- exact (label_no_newline lab Hlab K).
        -- exact (integers_no_newline _ _ Ht K).
        -- exact (relation_no_newline _ _ Hw K).
        -- exact (integer_no_newline _ _ Hp K).
        -- exact (blanks_no_newline v Hv K).
      * exact Hs.
      * inversion Hl as [l' xs' w op' p b' v Ht Hw Hp Hb Hb' Hv]; subst. destruct (integer_last p b Hp) as (l & c & -> & Hc). exists (lab ++ l' ++ w ++ l), c, v.
        split; [rewrite <- !app_assoc; reflexivity|auto].
    + rewrite <- (enumerate_coefficients zs) at 3. apply oriented_solutions; auto using enumerate_indices.
  - rewrite Z.opp_involutive. replace (oriented (default_operator type) (zs ++ [b])) with (zs ++ [b]) by (destruct type; reflexivity). split.
    + split; [|split; [|split; [|split]]].
      * intros r Hr. unfold m_constraint. cbn [bind]. rewrite <- app_assoc. apply raw_constraint_ok; auto.
      * destruct zs; discriminate.
      * inversion Hl as [l' xs' p b' v Ht Hp Hb Hv]; subst. rewrite !in_app_iff. intros [K|[K|[K|K]]].
        -- exact (label_no_newline lab Hlab K).
        -- exact (integers_no_newline _ _ Ht K).
        -- exact (integer_no_newline _ _ Hp K).
        -- exact (blanks_no_newline v Hv K).
      * exact Hs.
      * inversion Hl as [l' xs' p b' v Ht Hp Hb Hv]; subst. destruct (integer_last p b Hp) as (l & c & -> & Hc). exists (lab ++ l' ++ l), c, v.
        split; [rewrite <- !app_assoc; reflexivity|auto].
    + assert (S := oriented_solutions type (length zs) (enumerate zs) (default_operator type) (- b) ltac:(destruct type; cbn; auto) (enumerate_indices zs)).
      unfold coefficient_row in S. rewrite enumerate_coefficients, Z.opp_involutive in S. destruct type; exact S.
Qed.

Lemma written_unnamed_reads n type line c : written_unnamed n type line c ->
  exists row, reads type [] line row /\ same_solutions type n (terms c) (operator c) (constant c) row.
Proof. intros H. exists (row_for_constraint n c). apply written_unnamed_row; auto. Qed.

Definition represents_all (type : constraint_type) (n : nat) : list constraint -> list vec -> Prop :=
  Forall2 (fun c row => same_solutions type n (terms c) (operator c) (constant c) row).
Lemma section_read_gen {C : Type} (R : C -> vec -> Prop) type names (line_of : text -> C -> Prop) title lines P tail Q o :
  (forall line c, line_of line c -> exists row, reads type names line row /\ R c row) ->
  keyword_line (title_words type) title -> written line_of lines P -> follows line_of tail Q o ->
  exists rows s, m_constraints type names (opened (title ++ newline :: lines ++ tail)) = Ok (rows, s) /\ Forall2 R (P ++ Q) rows /\ left_over s o.
Proof.
  intros HL HK HW HF.
  assert (W : exists rows, constraint_lines type names lines rows /\ Forall2 R P rows).
  { clear - HL HW. induction HW as [|u t P Hu HW IH|line c t P Hc HW IH].
    - exists []. split; constructor.
    - destruct IH as (rows & I1 & I2). exists rows. split; [constructor; auto|auto].
    - destruct IH as (rows & I1 & I2). destruct (HL line c Hc) as (row & R1 & R2). exists (row :: rows). split; [apply constraint_row; auto|constructor; auto]. }
  destruct W as (rows & W1 & W2).
  assert (ST : stops is_eol tail).
  { inversion HF as [u Hu Hs|line c Hc|line r Hk Hs|line r Hk Hs|line Hk Hs]; subst; auto.
    - destruct (HL _ _ Hc) as (row & (_ & _ & _ & Hs & _) & _). exact Hs.
    - destruct line; [|exact Hs]. destruct Hk as (u & w & v & E & Hw & _). destruct u; [|discriminate]. cbn [app] in E. assert (KC := word_check (fun w => negb (at_end (lit w))) _ w Hw eq_refl). clear Hw. rename KC into Hw. cbv beta in Hw. destruct (lit w); [discriminate Hw|discriminate E].
    - destruct line; [|exact Hs]. destruct Hk as (u & w & v & E & Hw & _). destruct u; [|discriminate]. cbn [app] in E. cbn [end_words In] in Hw. repeat (destruct Hw as [<-|Hw]; [discriminate E|]). destruct Hw. }
  assert (HT : forallb trimmed_word (title_words type) = true) by (destruct type; reflexivity).
  destruct (keyword_line_trim (title_words type) title HT HK) as (w & Hw & Et & Nn).
  assert (T : m_keyword_condition type (opened (title ++ newline :: lines ++ tail)) = Ok (opened (lines ++ tail))).
  { unfold m_keyword_condition. rewrite getline_newline by auto. change (ok (opened (lines ++ tail))) with true. cbn [negb]. rewrite Et.
    destruct type; [rewrite (word_check (fun w => m_is_equations (lit w)) _ w Hw eq_refl)|rewrite (word_check (fun w => m_is_inequalities (lit w) || m_is_reduced_inequalities (lit w)) _ w Hw eq_refl)]; reflexivity. }
  unfold m_constraints. rewrite T. cbn [bind opened rest]. fold (opened (lines ++ tail)).
  replace (length (lines ++ tail) + 4) with (length lines + (length tail + 4)) by (rewrite app_length; lia).
  destruct (constraint_lines_ok type names (length lines) lines rows (Nat.le_refl _) W1 [] tail (length tail + 4) ST) as (k' & Hk' & E). rewrite E. cbn [app]. clear E.
  inversion HF as [u Hu Hs|line c Hc|line r Hk Hs|line r Hk Hs|line Hk Hs]; subst.
  - destruct (constraint_tail_ok type names tail [] ltac:(constructor; auto) rows k' ltac:(lia)) as (s & Hs' & E). rewrite E. cbn [bind]. rewrite !app_nil_r. exists rows, (m_skip_end s). split; [reflexivity|]. split; [auto|].
    unfold m_skip_end. rewrite Hs'. exact Hs'.
  - destruct (HL _ _ Hc) as (row & R1 & R2). destruct (constraint_tail_ok type names tail [row] ltac:(apply constraint_tail_row; auto) rows k' ltac:(lia)) as (s & Hs' & E). rewrite E. cbn [bind].
    exists (rows ++ [row]), (m_skip_end s). split; [reflexivity|]. split; [apply Forall2_app; auto|]. unfold m_skip_end. rewrite Hs'. exact Hs'.
  - destruct (keyword_line_trim (convex_words ++ conical_words ++ other_words) line eq_refl Hk) as (w' & Hw' & Et' & Nn'). destruct k' as [|k']; [lia|].
    assert (KW : m_is_keyword (lit w') = true /\ m_is_end (m_first_word (lit w')) = false /\ m_trim (lit w') = lit w').
    { assert (KC := word_check (fun w => m_is_keyword (lit w) && negb (m_is_end (m_first_word (lit w))) && text_eqb (m_trim (lit w)) (lit w)) _ w' Hw' eq_refl). clear Hw'. rename KC into Hw'. cbv beta in Hw'.
      apply andb_true_iff in Hw' as [Hw' H3]. apply andb_true_iff in Hw' as [H1 H2]. apply negb_true_iff in H2. destruct (text_eqb_spec (m_trim (lit w')) (lit w')); [auto|discriminate]. }
    destruct KW as (K1 & K2 & K3). rewrite constraints_keyword by (rewrite first_line_newline, Et'; auto). cbn [bind]. exists rows, (opened (line ++ newline :: r)). rewrite app_nil_r.
    assert (FW : m_first_word line = m_first_word (lit w')) by (unfold m_first_word; rewrite Et', K3; reflexivity).
    unfold m_skip_end. change (ok (opened (line ++ newline :: r))) with true. cbv iota. rewrite peek_line_opened, first_line_newline by auto. rewrite FW, K2. split; [reflexivity|]. split; [auto|]. left; reflexivity.
  - destruct (keyword_line_trim end_words line eq_refl Hk) as (w' & Hw' & Et' & Nn'). destruct k' as [|k']; [lia|].
    assert (KW : m_is_keyword (lit w') = true /\ m_is_end (m_first_word line) = true).
    { unfold m_first_word. rewrite Et'. clear - Hw'. cbn [end_words In] in Hw'. repeat (destruct Hw' as [<-|Hw']; [split; reflexivity|]). destruct Hw'. }
    destruct KW as (K1 & K2). rewrite constraints_keyword by (rewrite first_line_newline, Et'; auto). cbn [bind]. exists rows, (opened r). rewrite app_nil_r.
    unfold m_skip_end. change (ok (opened (line ++ newline :: r))) with true. cbv iota. rewrite peek_line_opened, first_line_newline by auto. rewrite K2, getline_newline by auto. split; [reflexivity|]. split; [auto|]. left; reflexivity.
  - destruct (keyword_line_trim end_words tail eq_refl Hk) as (w' & Hw' & Et' & Nn'). destruct k' as [|k']; [lia|].
    assert (KW : m_is_keyword (lit w') = true /\ m_is_end (m_first_word tail) = true /\ lit w' <> []).
    { unfold m_first_word. rewrite Et'. clear - Hw'. cbn [end_words In] in Hw'. repeat (destruct Hw' as [<-|Hw']; [split; [reflexivity|split; [reflexivity|discriminate]]|]). destruct Hw'. }
    destruct KW as (K1 & K2 & K3). assert (Hne : tail <> []) by (intros E; rewrite E in Et'; cbn in Et'; congruence).
    rewrite constraints_keyword by (rewrite first_line_end, Et'; auto). cbn [bind]. exists rows, (Stream [] true false). rewrite app_nil_r.
    unfold m_skip_end. change (ok (opened tail)) with true. cbv iota. rewrite peek_line_opened, first_line_end by auto. rewrite K2, getline_end by auto. split; [reflexivity|]. split; [auto|]. right; split; reflexivity.
Qed.
Lemma section_read type names n (line_of : text -> constraint -> Prop) title lines P tail Q o :
  (forall line c, line_of line c -> exists row, reads type names line row /\ same_solutions type n (terms c) (operator c) (constant c) row) ->
  keyword_line (title_words type) title -> written line_of lines P -> follows line_of tail Q o ->
  exists rows s, m_constraints type names (opened (title ++ newline :: lines ++ tail)) = Ok (rows, s) /\ represents_all type n (P ++ Q) rows /\ left_over s o.
Proof. exact (section_read_gen (fun c row => same_solutions type n (terms c) (operator c) (constant c) row) type names line_of title lines P tail Q o). Qed.
(** A section with named variables: every constraint becomes a row with the same solutions, in order, and the rest of the file is left for the following sections. *)
Theorem C33_named_section : forall type names title lines P tail Q o,
  NoDup names -> Forall name_text names -> prefix_ordered names ->
  keyword_line (title_words type) title -> written (written_named names type) lines P -> follows (written_named names type) tail Q o ->
  exists rows s, m_constraints type names (opened (title ++ newline :: lines ++ tail)) = Ok (rows, s) /\ represents_all type (length names) (P ++ Q) rows /\ left_over s o.
Proof. intros type names title lines P tail Q o Hd Hn Ho. apply section_read. intros line c. apply written_named_reads; auto. Qed.
Print Assumptions C33_named_section.
(** A section when no names are given. *)
Theorem C33_unnamed_section : forall type n title lines P tail Q o,
  keyword_line (title_words type) title -> written (written_unnamed n type) lines P -> follows (written_unnamed n type) tail Q o ->
  exists rows s, m_constraints type [] (opened (title ++ newline :: lines ++ tail)) = Ok (rows, s) /\ represents_all type n (P ++ Q) rows /\ left_over s o.
Proof. intros type n title lines P tail Q o. apply section_read. intros line c. apply written_unnamed_reads. Qed.
Print Assumptions C33_unnamed_section.

(** ** What is not read as it is meant *)
(** Variables on the right hand side, before the constant, are accepted but counted on the left hand side: the line "l REL m b" is read as "l + m REL b". *)
Inductive two_sided_text (names : list text) : text -> list (nat * Z) -> relation_operator -> list (nat * Z) -> Z -> Prop :=
| two_sided_line l xs w op m ys p b v : terms_text names l xs -> relation_text w op -> terms_text names m ys -> integer_text p b -> int_range b -> int_range (- b) -> blanks v ->
    stops (fun c => is_char (Some c) "=") (m ++ p) -> two_sided_text names (l ++ w ++ m ++ p ++ v) xs op ys b.
Lemma two_sided_first names line xs op ys b : two_sided_text names line xs op ys b -> exists c t, line = c :: t /\ is_space c = false /\ c <> "("%char.
Proof.
  intros H. inversion H as [l xs' w op' m ys' p b' v Hl Hw Hm Hp Hb Hb' Hv Hs]; subst. inversion Hl as [|t x u l' xs' Ht]; subst.
  - destruct (relation_first _ _ Hw) as (c & w' & -> & H1 & H2 & _). cbn [app]. eauto.
  - destruct (term_first _ _ _ Ht) as (c & t' & -> & P1 & _ & P2). cbn [app]. eauto.
Qed.
Theorem C33_right_variables_refuted : forall type names lab line xs op ys b r,
  NoDup names -> label lab -> two_sided_text names line xs op ys b -> line_end r -> right_kind type op -> NoDup (map fst (xs ++ ys)) -> negatable (xs ++ ys) ->
  exists row, m_named_constraint type names (opened (lab ++ line ++ r)) = Ok (row, opened r) /\ same_solutions type (length names) (xs ++ ys) op b row.
Proof.
  intros type names lab line xs op ys b r Hd Hlab Hline Hr HK HD HN. destruct (two_sided_first _ _ _ _ _ _ Hline) as (c & t & Ec & Hc & Hp').
  exists (oriented op (coefficient_row (length names) (xs ++ ys) b)).
  assert (HI : Forall (fun t => fst t < length names) (xs ++ ys)).
  { inversion Hline; subst. apply Forall_app. split; eapply terms_indices; eauto. }
  split; [|apply oriented_solutions; auto]. unfold m_named_constraint. rewrite optional_identifier_ok; auto.
  2:{ rewrite Ec. cbn. apply space_blank; auto. } 2:{ rewrite Ec. cbn [app stops]. destruct (is_char_spec c "("); [congruence|reflexivity]. }
  cbn [bind]. rewrite peek_line_opened. replace (at_end (first_line (line ++ r))) with false.
  2:{ rewrite Ec. cbn [app]. symmetry. apply first_line_nonempty. intros ->. discriminate Hc. }
  clear c t Ec Hc Hp'. inversion Hline as [l xs' w op' m ys' p b' v Hl Hw Hm Hp Hb Hb' Hv Hs]; subst.
  destruct (integer_first p b Hp) as (c & p' & Ep & (Hc & _ & _) & He). destruct (relation_first w op Hw) as (d & w' & Ew & Hdsp & _).
  assert (S1 : stops is_blank (p ++ v ++ r)) by (rewrite Ep; cbn; apply space_blank; auto).
  assert (S2 : stops is_blank (m ++ p ++ v ++ r)) by (eapply terms_first; eauto).
  assert (S3 : stops (fun c => is_char (Some c) "=") (m ++ p ++ v ++ r)) by (rewrite Ep in Hs |- *; destruct m; exact Hs).
  assert (L1 := terms_length _ _ _ Hl). assert (L2 := terms_length _ _ _ Hm).
  rewrite repeat_coefficients.
  set (j := length l - length xs + (length m - length ys) + length w + length p + length v + length r + 2 - 3).
  replace (length (rest (opened ((l ++ w ++ m ++ p ++ v) ++ r))) + 2) with (length xs + S (length ys + S (S j))).
  2:{ unfold j. cbn [opened rest]. rewrite !app_length. rewrite Ep, Ew. cbn [length]. lia. }
  replace ((l ++ w ++ m ++ p ++ v) ++ r) with (l ++ w ++ m ++ p ++ v ++ r) by (rewrite <- !app_assoc; reflexivity).
  rewrite (named_terms names type Undecided l xs Hd Hl); [|rewrite Ew; cbn; apply space_blank; auto].
  rewrite map_app in HD.
  assert (HD1 : NoDup (map fst xs)) by (clear - HD; induction (map fst xs) as [|a A IH]; [constructor|inversion HD as [|? ? H1 H2]; subst; constructor; [rewrite in_app_iff in H1; tauto|auto]]).
  assert (HD2 : NoDup (map fst ys) /\ forall i, In i (map fst ys) -> ~ In i (map fst xs)).
  { clear - HD. induction (map fst xs) as [|a A IH]; cbn in *; [split; auto|]. inversion HD as [|? ? H1 H2]; subst. destruct (IH H2) as [I1 I2]. split; auto. intros i Hi [->|K]; [|exact (I2 i Hi K)].
    rewrite in_app_iff in H1. tauto. }
  rewrite (repeats_distinct xs []) by auto. rewrite (named_relation_step names type _ _ false w op) by auto. rewrite allowed_right by auto. cbn [app].
  rewrite (named_terms names type op m ys Hd Hm) by auto. rewrite (repeats_distinct ys xs); [|tauto|intros i Hi; apply total_absent; apply HD2; auto].
  rewrite (named_rhs_step names type j (xs ++ ys) op p b v r) by (auto; eapply relation_decided; eauto). cbn [bind negb].
  change (m_normalize_relation (coefficient_row (length names) (xs ++ ys) b) op) with (m_normalize_relation (coefficient_row (length names) (xs ++ ys) b) op).
  fold (coefficient_row (length names) (xs ++ ys) b). rewrite normalize_ok; [reflexivity|]. apply Forall_app. split; [apply coefficients_small; auto; rewrite map_app; auto|]. constructor; [|constructor].
  unfold small, int_range, StreamModel.int_min, StreamModel.int_max in *. lia.
Qed.
Print Assumptions C33_right_variables_refuted.
Definition xy : list text := [lit "x"; lit "y"].
Definition fst_of (r : res (vec * stream)) : option vec := match r with Ok (row, _) => Some row | _ => None end.
(** "x <= y +3" (which the point (3, 1) satisfies) becomes x + y - 3 <= 0 (which it does not). *)
Theorem C33_both_sides_refuted :
  two_sided_text xy (lit "x <= y +3") [(0, 1%Z)] LessEqual [(1, 1%Z)] 3 /\
  m_constraint Inequality xy (opened (lit "x <= y +3")) = Ok ([1; 1; -3]%Z, opened []) /\
  holds LessEqual (linear_form [(0, 1%Z)] [3; 1]%Q) (linear_form [(1, 1%Z)] [3; 1]%Q + 3) /\ ~ row_holds Inequality [1; 1; -3]%Z [3; 1]%Q.
Proof.
  split; [|split; [vm_compute; reflexivity|split; [vm_compute; discriminate|vm_compute; intros H; apply H; reflexivity]]].
  change (lit "x <= y +3") with (lit "x " ++ lit "<= " ++ lit "y " ++ lit "+3" ++ []).
  assert (V : forall i n, nth_error xy i = Some n -> variable xy n i).
  { intros [|[|[|i]]] n E; cbn in E; try discriminate; injection E as <-; (split; [reflexivity|split; [repeat constructor|split; [reflexivity|split; [discriminate|reflexivity]]]]). }
  assert (T : forall i n, nth_error xy i = Some n -> terms_text xy (n ++ lit " ") [(i, 1%Z)]).
  { intros i n E. change (n ++ lit " ") with (n ++ lit " "). rewrite <- (app_nil_r (lit " ")). constructor; [exact (term_joined xy [] n 1 i factor_none (V i n E))|repeat constructor|discriminate|constructor]. }
  constructor.
  - apply (T 0 (lit "x")). reflexivity.
  - apply (relation_le (lit " ")). repeat constructor.
  - apply (T 1 (lit "y")). reflexivity.
  - exact (integer_plus (lit "3") ltac:(discriminate) ltac:(repeat constructor)).
  - unfold int_range, StreamModel.int_min, StreamModel.int_max; lia.
  - unfold int_range, StreamModel.int_min, StreamModel.int_max; lia.
  - constructor.
  - reflexivity.
Qed.
Print Assumptions C33_both_sides_refuted.
(** A sum that is not separated by blanks is cut off: "3-4x <= 5" becomes 3 x <= 5, and "x <= 2+3" becomes x <= 2. *)
Theorem C33_glued_refuted :
  m_constraint Inequality xy (opened (lit "3-4x <= 5")) = Ok ([3; 0; -5]%Z, opened []) /\
  m_constraint Inequality xy (opened (lit "x <= 2+3")) = Ok ([1; 0; -2]%Z, opened []).
Proof. split; vm_compute; reflexivity. Qed.
Print Assumptions C33_glued_refuted.
(** The order of the names matters: if a name is a beginning of a name listed before it, constraints that use only the shorter name are rejected. *)
Theorem C33_name_order_refuted :
  m_constraint Inequality [lit "ab"; lit "a"] (opened (lit "a <= 1")) = Throw /\
  m_constraint Inequality [lit "a"; lit "ab"] (opened (lit "a <= 1")) = Ok ([1; 0; -1]%Z, opened []).
Proof. split; vm_compute; reflexivity. Qed.
Print Assumptions C33_name_order_refuted.
(** A constraint without names is rejected if one with names follows it. *)
Theorem C33_mixed_refuted :
  m_constraint Inequality xy (opened (lit "1 2 <= 3")) = Ok ([1; 2; -3]%Z, opened []) /\
  m_constraint Inequality xy (opened (lit "1 2 <= 3" ++ newline :: lit "x <= 1")) = Throw.
Proof. split; vm_compute; reflexivity. Qed.
Print Assumptions C33_mixed_refuted.
(** A right hand side that is only a sign at the end of the file is read as a 1: "x <= -". *)
Theorem C33_sign_refuted : fst_of (m_constraint Inequality xy (opened (lit "x <= -"))) = Some [1; 0; -1]%Z.
Proof. vm_compute; reflexivity. Qed.
Print Assumptions C33_sign_refuted.

(** ** Concrete cases *)
Ltac ranges := unfold int_range, StreamModel.int_min, StreamModel.int_max; lia.
Lemma xy_variable i n : nth_error xy i = Some n -> variable xy n i.
Proof. destruct i as [|[|[|i]]]; intros E; cbn in E; try discriminate; injection E as <-; (split; [reflexivity|split; [repeat constructor|split; [reflexivity|split; [discriminate|reflexivity]]]]). Qed.
Example named_line_1 : named_text xy (lit "2x - 3y <= 3 ") [(0, 2%Z); (1, (-3)%Z)] LessEqual 3.
Proof.
  change (lit "2x - 3y <= 3 ") with ((lit "2x" ++ lit " " ++ lit "- 3y" ++ lit " " ++ []) ++ lit "<= " ++ lit "3" ++ lit " "). constructor.
  - constructor; [|repeat constructor|discriminate|constructor; [|repeat constructor|discriminate|constructor]].
    + exact (term_joined xy (lit "2") (lit "x") 2 0 (factor_integer (lit "2") 2 (integer_plain (lit "2") ltac:(discriminate) ltac:(repeat constructor)) ltac:(ranges)) (xy_variable 0 _ eq_refl)).
    + exact (term_minus xy (lit " ") (lit "3") (lit "y") 3 1 ltac:(repeat constructor) ltac:(discriminate)
        (factor_integer (lit "3") 3 (integer_plain (lit "3") ltac:(discriminate) ltac:(repeat constructor)) ltac:(ranges)) ltac:(lia) (xy_variable 1 _ eq_refl)).
  - apply (relation_le (lit " ")). repeat constructor.
  - exact (integer_plain (lit "3") ltac:(discriminate) ltac:(repeat constructor)).
  - ranges.
  - ranges.
  - repeat constructor.
Qed.
Example named_line_2 : named_text xy (lit "-y >= -5") [(1, (-1)%Z)] GreaterEqual (-5).
Proof.
  change (lit "-y >= -5") with ((lit "-y" ++ lit " " ++ []) ++ lit ">= " ++ lit "-5" ++ []). constructor.
  - constructor; [|repeat constructor|discriminate|constructor]. exact (term_joined xy (lit "-") (lit "y") (-1) 1 factor_minus (xy_variable 1 _ eq_refl)).
  - apply (relation_ge (lit " ")). repeat constructor.
  - exact (integer_minus (lit "5") ltac:(discriminate) ltac:(repeat constructor)).
  - ranges.
  - ranges.
  - constructor.
Qed.
Example xy_names : NoDup xy /\ Forall name_text xy /\ prefix_ordered xy.
Proof.
  split; [|split].
  - constructor; [intros [K|[]]; discriminate K|]. constructor; [intros []|constructor].
  - repeat constructor; try reflexivity; discriminate.
  - intros [|[|[|i]]] [|[|[|j]]] m n v Hij Hm Hn; cbn in Hm, Hn; try discriminate; try lia. injection Hm as <-. injection Hn as <-. left. discriminate.
Qed.
Definition sample_section : text := lit "Inequalities:" ++ newline :: lit "(1) " ++ lit "2x - 3y <= 3 " ++ newline :: newline :: lit "-y >= -5" ++ newline :: lit "END" ++ newline :: lit "more".
Example named_section_applies : exists lines,
  sample_section = lit "Inequalities:" ++ newline :: lines ++ lit "END" ++ newline :: lit "more" /\
  written (written_named xy Inequality) lines [{| terms := [(0, 2%Z); (1, (-3)%Z)]; operator := LessEqual; constant := 3 |}; {| terms := [(1, (-1)%Z)]; operator := GreaterEqual; constant := -5 |}] /\
  follows (written_named xy Inequality) (lit "END" ++ newline :: lit "more") [] (Some (lit "more")) /\
  keyword_line (title_words Inequality) (lit "Inequalities:") /\
  m_constraints Inequality xy (opened sample_section) = Ok ([[2; -3; -3]; [0; 1; -5]]%Z, opened (lit "more")).
Proof.
  exists ((lit "(1) " ++ lit "2x - 3y <= 3 ") ++ newline :: [] ++ newline :: ([] ++ lit "-y >= -5") ++ newline :: []). split; [reflexivity|]. split; [|split; [|split]].
  - apply written_line; [|apply written_blank; [constructor|apply written_line; [|constructor]]].
    + apply written_short_line; [|exact named_line_1|discriminate| |repeat constructor; cbn; lia|left; reflexivity|apply Nat.leb_le; vm_compute; reflexivity|reflexivity].
      * exact (spaced_identifier [] (lit "1") (lit " ") ltac:(constructor) ltac:(repeat constructor; discriminate) ltac:(repeat constructor) ltac:(discriminate)).
      * constructor; [intros [K|[]]; discriminate K|]. constructor; [intros []|constructor].
    + apply written_short_line; [constructor; constructor|exact named_line_2|discriminate|constructor; [intros []|constructor]|repeat constructor; cbn; lia|right; reflexivity|
        apply Nat.leb_le; vm_compute; reflexivity|reflexivity].
  - apply follows_END; [|reflexivity]. exists [], "END"%string, []. split; [reflexivity|]. split; [left; reflexivity|split; constructor].
  - exists [], "Inequalities:"%string, []. split; [reflexivity|]. split; [right; left; reflexivity|split; constructor].
  - vm_compute. reflexivity.
Qed.
Example unnamed_section_applies :
  written (written_unnamed 2 Equation) (lit "1 -2 = 3" ++ newline :: lit " 1 1 -4" ++ newline :: [])
    [{| terms := [(0, 1%Z); (1, (-2)%Z)]; operator := Equal; constant := 3 |}; {| terms := [(0, 1%Z); (1, 1%Z)]; operator := Equal; constant := - -4 |}] /\
  m_constraints Equation [] (opened (lit "Equations" ++ newline :: lit "1 -2 = 3" ++ newline :: lit " 1 1 -4" ++ newline :: [])) = Ok ([[1; -2; -3]; [1; 1; -4]]%Z, Stream [] true true).
Proof.
  split; [|vm_compute; reflexivity].
  assert (I1 : integer_text (lit "1") 1) by exact (integer_plain (lit "1") ltac:(discriminate) ltac:(repeat constructor)).
  assert (I2 : integer_text (lit "-2") (-2)) by exact (integer_minus (lit "2") ltac:(discriminate) ltac:(repeat constructor)).
  assert (I3 : integer_text (lit "3") 3) by exact (integer_plain (lit "3") ltac:(discriminate) ltac:(repeat constructor)).
  assert (I4 : integer_text (lit "-4") (-4)) by exact (integer_minus (lit "4") ltac:(discriminate) ltac:(repeat constructor)).
  change (lit "1 -2 = 3" ++ newline :: lit " 1 1 -4" ++ newline :: []) with (([] ++ (lit "1" ++ lit " " ++ lit "-2" ++ lit " " ++ []) ++ lit "= " ++ lit "3" ++ []) ++ newline ::
    (lit " " ++ (lit "1" ++ lit " " ++ lit "1" ++ lit " " ++ []) ++ lit "-4" ++ []) ++ newline :: []).
  apply written_line; [|apply written_line; [|constructor]].
  - apply (written_unnamed_line 2 Equation [] _ [1; -2]%Z Equal 3); [constructor; constructor| |reflexivity|repeat constructor; cbn; lia|reflexivity|reflexivity].
    constructor; [|apply (relation_eq (lit " ")); [repeat constructor|discriminate]|exact I3|ranges|ranges|constructor].
    constructor; [exact I1|ranges|repeat constructor|discriminate|]. constructor; [exact I2|ranges|repeat constructor|discriminate|constructor].
  - apply (written_raw_line 2 Equation (lit " ") _ [1; 1]%Z (-4)); [constructor; repeat constructor| |reflexivity|reflexivity].
    constructor; [|exact I4|ranges|constructor]. constructor; [exact I1|ranges|repeat constructor|discriminate|]. constructor; [exact I1|ranges|repeat constructor|discriminate|constructor].
Qed.
