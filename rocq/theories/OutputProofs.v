(** * OutputProofs: what is printed follows the grammar of the input. *)
From Coq Require Import List ZArith Arith Bool Ascii String Lia Znumtheory.
From Verif Require Import Base Spec LinAlg ListUtil FmeCore ArithModel Refine SafeIntModel IntTypes RowLcm StreamModel StreamProofs IntLcm InputModel InputProofs VertexInput
  ConstraintModel ConstraintInput ConstraintSection OutputModel.
Import ListNotations.
Open Scope Z_scope.

(** ** Integers *)
Lemma digit_char_spec d : 0 <= d < 10 -> is_digit (digit_char d) = true /\ digit_value (digit_char d) = d.
Proof.
  intros H. unfold is_digit, digit_value, digit_char. rewrite nat_ascii_embedding by lia. split; [|lia].
  rewrite andb_true_iff, !Nat.leb_le. lia.
Qed.
Lemma digits_onto_spec fuel n acc : 0 <= n -> n < 2 ^ Z.of_nat fuel -> digits acc -> (0 < fuel)%nat ->
  exists ds, digits_onto fuel n acc = ds ++ acc /\ ds <> [] /\ digits ds /\ decimal (ds ++ acc) = n * 10 ^ Z.of_nat (length acc) + decimal acc.
Proof.
  revert n acc. induction fuel as [|fuel IH]; intros n acc Hn Hb Ha Hf; [lia|]. cbn [digits_onto]. destruct (Z.ltb_spec n 10).
  - destruct (digit_char_spec n ltac:(lia)) as [D1 D2]. exists [digit_char n]. split; [reflexivity|]. split; [discriminate|]. split; [constructor; auto; constructor|].
    cbn [app decimal]. rewrite D2. reflexivity.
  - assert (Hd : 0 <= n mod 10 < 10) by (apply Z.mod_pos_bound; lia). destruct (digit_char_spec _ Hd) as [D1 D2].
    assert (E : n = 10 * (n / 10) + n mod 10) by (apply Z.div_mod; lia).
    destruct fuel as [|fuel']; [cbn in Hb; lia|]. set (f := S fuel') in *.
    destruct (IH (n / 10) (digit_char (n mod 10) :: acc)) as (ds & E1 & E2 & E3 & E4).
    + apply Z.div_pos; lia.
    + rewrite Nat2Z.inj_succ, Z.pow_succ_r in Hb by lia. apply Z.div_lt_upper_bound; lia.
    + constructor; auto.
    + unfold f. lia.
    + exists (ds ++ [digit_char (n mod 10)]). rewrite <- app_assoc. cbn [app]. split; [exact E1|]. split; [destruct ds; discriminate|]. split; [apply Forall_app; split; auto; constructor; auto; constructor|].
      rewrite E4. cbn [decimal length]. rewrite D2, Nat2Z.inj_succ, Z.pow_succ_r by lia. rewrite E at 3. ring.
Qed.
Lemma digits_text_spec n : 0 <= n -> digits_text n <> [] /\ digits (digits_text n) /\ decimal (digits_text n) = n.
Proof.
  intros Hn. unfold digits_text.
  assert (Hb : n < 2 ^ Z.of_nat (S (Z.to_nat (Z.log2 n)))).
  { rewrite Nat2Z.inj_succ, Z2Nat.id by apply Z.log2_nonneg. destruct (Z.eq_dec n 0) as [->|]; [reflexivity|]. apply Z.log2_spec. lia. }
  destruct (digits_onto_spec (S (Z.to_nat (Z.log2 n))) n [] Hn Hb (Forall_nil _) ltac:(lia)) as (ds & E1 & E2 & E3 & E4).
  rewrite E1, app_nil_r in *. rewrite E4. cbn. split; [|split]; auto. lia.
Qed.
Lemma int_text_spec z : integer_text (int_text z) z.
Proof.
  unfold int_text. destruct (Z.ltb_spec z 0).
  - destruct (digits_text_spec (- z) ltac:(lia)) as (H1 & H2 & H3). replace z with (- decimal (digits_text (- z))) at 2 by lia. constructor; auto.
  - destruct (digits_text_spec z ltac:(lia)) as (H1 & H2 & H3). rewrite <- H3 at 2. constructor; auto.
Qed.

Lemma digits_onto_length fuel n acc : (length (digits_onto fuel n acc) <= fuel + length acc)%nat.
Proof. revert n acc. induction fuel as [|fuel IH]; intros n acc; cbn [digits_onto]; [lia|]. destruct (n <? 10); cbn [length]; [lia|]. specialize (IH (n / 10) (digit_char (n mod 10) :: acc)). cbn [length] in IH. lia. Qed.
Lemma int_text_length z : int_range z -> (length (int_text z) <= 33)%nat.
Proof.
  intros [H1 H2]. unfold StreamModel.int_min, StreamModel.int_max in *.
  assert (K : forall n, 0 <= n <= 2 ^ 31 -> (length (digits_text n) <= 32)%nat).
  { intros n Hn. unfold digits_text. assert (L := digits_onto_length (S (Z.to_nat (Z.log2 n))) n []). cbn [length] in L.
    assert (Z.log2 n <= 31) by (change 31 with (Z.log2 (2 ^ 31)); apply Z.log2_le_mono; lia). assert (0 <= Z.log2 n) by apply Z.log2_nonneg. lia. }
  unfold int_text. destruct (z <? 0) eqn:E; cbn [length]; [specialize (K (- z))|specialize (K z)]; lia.
Qed.

(** ** Rows without names *)
Lemma print_entry_split e : exists u, blanks u /\ u <> [] /\ m_print_entry e = u ++ int_text e.
Proof.
  unfold m_print_entry. destruct (e >=? 0).
  - exists (lit "  "). split; [repeat constructor|]. split; [discriminate|]. reflexivity.
  - exists (lit " "). split; [repeat constructor|]. split; [discriminate|]. reflexivity.
Qed.
Lemma print_row_raw zs b : Forall int_range zs -> int_range b ->
  exists u l, m_print_row (zs ++ [b]) = u ++ l /\ blanks u /\ u <> [] /\ raw_text l zs b.
Proof.
  intros Hz Hb. induction Hz as [|z zs Hz _ IH]; cbn [app m_print_row flat_map].
  - destruct (print_entry_split b) as (u & H1 & H2 & ->). exists u, (int_text b). rewrite app_nil_r. split; [reflexivity|]. split; auto. split; auto.
    assert (K := raw_line [] [] (int_text b) b [] integers_none (int_text_spec b) Hb (Forall_nil _)). rewrite app_nil_r in K. exact K.
  - destruct IH as (u & l & E & H1 & H2 & H3). fold (m_print_row (zs ++ [b])). rewrite E. destruct (print_entry_split z) as (v & V1 & V2 & ->).
    exists v, (int_text z ++ u ++ l). split; [rewrite <- app_assoc; reflexivity|]. split; auto. split; auto.
    inversion H3 as [l' zs' p b' v' Hl Hp Hb' Hv E1 E2 E3]; subst.
    replace (int_text z ++ u ++ l' ++ p ++ v') with ((int_text z ++ u ++ l') ++ p ++ v') by (rewrite <- !app_assoc; reflexivity).
    constructor; auto. constructor; auto. apply int_text_spec.
Qed.

(** ** Rows with names *)
(** The terms with non-zero coefficients, numbered from [i] on. *)
Fixpoint nonzero_terms (i : nat) (zs : list Z) : list (nat * Z) :=
  match zs with
  | [] => []
  | z :: zs' => if z =? 0 then nonzero_terms (S i) zs' else (i, z) :: nonzero_terms (S i) zs'
  end.
Lemma nonzero_total i zs j : total j (nonzero_terms i zs) = if (i <=? j)%nat && (j <? i + length zs)%nat then nth (j - i) zs 0 else 0.
Proof.
  revert i. induction zs as [|z zs IH]; intros i; cbn [nonzero_terms length].
  - cbn [total]. destruct (Nat.leb_spec i j), (Nat.ltb_spec j (i + 0)); cbn; auto; lia.
  - assert (K : total j (if z =? 0 then nonzero_terms (S i) zs else (i, z) :: nonzero_terms (S i) zs) = (if (i =? j)%nat then z else 0) + total j (nonzero_terms (S i) zs)).
    { destruct (Z.eqb_spec z 0) as [->|]; cbn [total fst snd]; [destruct (i =? j)%nat; lia|reflexivity]. }
    rewrite K, IH. clear K IH. destruct (Nat.eqb_spec i j) as [E|Hne].
    + subst j. destruct (Nat.leb_spec (S i) i), (Nat.leb_spec i i), (Nat.ltb_spec i (i + S (length zs))); cbn [andb]; try lia. rewrite Nat.sub_diag. cbn. lia.
    + destruct (Nat.leb_spec i j), (Nat.leb_spec (S i) j), (Nat.ltb_spec j (i + S (length zs))), (Nat.ltb_spec j (S i + length zs)); cbn [andb]; try lia.
      replace (j - i)%nat with (S (j - S i)) by lia. reflexivity.
Qed.
Lemma nonzero_coefficients zs : coefficients (length zs) (nonzero_terms 0 zs) = zs.
Proof.
  apply (nth_ext _ _ 0 0); [apply coefficients_length|]. intros i Hi. rewrite coefficients_length in Hi. rewrite coefficients_nth by auto. rewrite nonzero_total.
  destruct (Nat.leb_spec 0 i); [|lia]. cbn [Nat.add]. destruct (Nat.ltb_spec i (length zs)); [|lia]. cbn [andb]. rewrite Nat.sub_0_r. reflexivity.
Qed.
Lemma nonzero_bound i zs : Forall (fun t => (i <= fst t < i + length zs)%nat /\ In (snd t) zs /\ snd t <> 0) (nonzero_terms i zs).
Proof.
  revert i. induction zs as [|z zs IH]; intros i; cbn [nonzero_terms]; [constructor|].
  assert (K : Forall (fun t => (i <= fst t < i + length (z :: zs))%nat /\ In (snd t) (z :: zs) /\ snd t <> 0) (nonzero_terms (S i) zs)).
  { eapply Forall_impl; [|apply IH]. cbn [length In]. intros t (H1 & H2 & H3). split; [lia|]. auto. }
  destruct (Z.eqb_spec z 0); auto. constructor; auto. cbn [fst snd length In]. split; [lia|]. auto.
Qed.
Lemma nonzero_distinct i zs : NoDup (map fst (nonzero_terms i zs)).
Proof.
  revert i. induction zs as [|z zs IH]; intros i; cbn [nonzero_terms]; [constructor|]. destruct (Z.eqb_spec z 0); auto. cbn [map fst]. constructor; auto.
  intros H. apply in_map_iff in H as (t & E & Ht). assert (B := nonzero_bound (S i) zs). rewrite Forall_forall in B. destruct (B t Ht) as [B1 _]. lia.
Qed.
Lemma factor_of_int z : z <> 0 -> int_range z ->
  factor_text (if z =? 1 then lit "+" else if z =? -1 then lit "-" else (if (z >? 1) then lit "+" else []) ++ int_text z) z /\
  factor_text (if z =? 1 then [] else if z =? -1 then lit "-" else int_text z) z.
Proof.
  intros Hz Hr. destruct (Z.eqb_spec z 1) as [->|H1]; [split; constructor|]. destruct (Z.eqb_spec z (-1)) as [->|H2]; [split; constructor|]. split; [|constructor; auto using int_text_spec].
  destruct (Z.gtb_spec z 1).
  - cbn [lit list_ascii_of_string app]. constructor; auto. unfold int_text. destruct (Z.ltb_spec z 0); [lia|]. destruct (digits_text_spec z ltac:(lia)) as (K1 & K2 & K3). rewrite <- K3 at 2. constructor; auto.
  - cbn [app]. constructor; auto using int_text_spec.
Qed.
(** After a term: every further term is preceded by a blank. *)
Inductive more_terms (names : list text) : text -> list (nat * Z) -> Prop :=
| more_none : more_terms names [] []
| more_cons t x l xs : term_text names t x -> more_terms names l xs -> more_terms names (lit " " ++ t ++ l) (x :: xs).
Lemma more_terms_text names l xs : more_terms names l xs -> forall t x, term_text names t x -> terms_text names (t ++ l ++ lit " ") (x :: xs).
Proof.
  induction 1 as [|t' x' l xs Ht Hl IH]; intros t x Hx.
  - cbn [app]. assert (K := terms_cons names t x (lit " ") [] [] Hx ltac:(repeat constructor) ltac:(discriminate) (terms_none names)). rewrite app_nil_r in K. exact K.
  - replace (t ++ (lit " " ++ t' ++ l) ++ lit " ") with (t ++ lit " " ++ (t' ++ l ++ lit " ")) by (rewrite <- !app_assoc; reflexivity).
    constructor; auto; [repeat constructor|discriminate].
Qed.
Lemma pretty_terms_after names i zs b : Forall name_text names -> (i + length zs <= length names)%nat -> Forall int_range zs ->
  exists l, m_pretty_terms names i true (zs ++ [b]) = Ok l /\ more_terms names l (nonzero_terms i zs).
Proof.
  intros Hn. revert i. induction zs as [|z zs IH]; intros i Hi Hr.
  - exists []. split; [reflexivity|constructor].
  - cbn [length] in Hi. apply Forall_cons_iff in Hr as [Hz Hr]. destruct (IH (S i) ltac:(lia) Hr) as (l & E & H). cbn [app].
    assert (K : forall x row', row' <> [] -> m_pretty_terms names i true (x :: row') =
      if negb (x =? 0) then
        do name <- get names i; do r <- m_pretty_terms names (S i) true row';
        Ok (lit " " ++ (if x =? 1 then lit "+" else if x =? -1 then lit "-" else (if (x >? 1) && true then lit "+" else []) ++ int_text x) ++ name ++ r)
      else m_pretty_terms names (S i) true row') by (intros x [|y row'] Hne; [congruence|reflexivity]).
    rewrite K by (destruct zs; discriminate). clear K. cbn [nonzero_terms]. destruct (Z.eqb_spec z 0) as [->|Hnz]; cbn [negb]; [exists l; auto|].
    destruct (nth_error names i) as [n|] eqn:En; [|apply nth_error_None in En; lia]. unfold get. rewrite En. cbn [bind]. rewrite E. cbn [bind]. eexists. split; [reflexivity|].
    rewrite andb_true_r. assert (V : variable names n i) by (split; auto; rewrite Forall_forall in Hn; apply Hn; eapply nth_error_In; eauto).
    rewrite (app_assoc _ n). constructor; auto. constructor; auto. apply factor_of_int; auto.
Qed.
Lemma pretty_terms_first names i zs b : Forall name_text names -> (i + length zs <= length names)%nat -> Forall int_range zs ->
  exists l, m_pretty_terms names i false (zs ++ [b]) = Ok l /\ terms_text names (match nonzero_terms i zs with [] => [] | _ => l ++ lit " " end) (nonzero_terms i zs) /\
    (nonzero_terms i zs <> [] -> exists t x n l', l = t ++ l' /\ term_text names t x /\ In n names /\ (length t <= length n + 33)%nat).
Proof.
  intros Hn. revert i. induction zs as [|z zs IH]; intros i Hi Hr.
  - exists []. split; [reflexivity|]. split; [constructor|]. intros K. destruct (K eq_refl).
  - cbn [length] in Hi. apply Forall_cons_iff in Hr as [Hz Hr]. cbn [app].
    assert (K : forall x row', row' <> [] -> m_pretty_terms names i false (x :: row') =
      if negb (x =? 0) then
        do name <- get names i; do r <- m_pretty_terms names (S i) true row';
        Ok ((if x =? 1 then [] else if x =? -1 then lit "-" else (if (x >? 1) && false then lit "+" else []) ++ int_text x) ++ name ++ r)
      else m_pretty_terms names (S i) false row') by (intros x [|y row'] Hne; [congruence|reflexivity]).
    rewrite K by (destruct zs; discriminate). clear K. cbn [nonzero_terms]. destruct (Z.eqb_spec z 0) as [->|Hnz]; cbn [negb]; [apply IH; auto; lia|].
    destruct (pretty_terms_after names (S i) zs b Hn ltac:(lia) Hr) as (l & E & H).
    destruct (nth_error names i) as [n|] eqn:En; [|apply nth_error_None in En; lia]. unfold get. rewrite En. cbn [bind]. rewrite E. cbn [bind]. eexists. split; [reflexivity|].
    rewrite andb_false_r. cbn [app]. assert (V : variable names n i) by (split; auto; rewrite Forall_forall in Hn; apply Hn; eapply nth_error_In; eauto).
    destruct (factor_of_int z Hnz Hz) as [_ HF]. assert (HT := term_joined names _ n z i HF V). split.
    + rewrite (app_assoc _ n), <- app_assoc. apply more_terms_text; auto.
    + intros _. eexists. exists (i, z), n, l. split; [apply app_assoc|]. split; [exact HT|]. split; [eapply nth_error_In; eauto|]. rewrite app_length.
      assert (HL := int_text_length z Hz). destruct (z =? 1); [cbn [length]; lia|]. destruct (z =? -1); [cbn [lit list_ascii_of_string length]; lia|]. lia.
Qed.
Definition relation_sign (type : constraint_type) : string := match type with Equation => "=" | Inequality => "<=" end.
Definition relation_of (type : constraint_type) : relation_operator := match type with Equation => Equal | Inequality => LessEqual end.
Lemma back_last {X} (l : list X) x : back (l ++ [x]) = Ok x.
Proof. unfold back. destruct l as [|y l]; cbn [app]; [reflexivity|]. rewrite app_comm_cons, last_last. reflexivity. Qed.
Lemma rhs_ok zs b : int_range (- b) -> m_rhs (zs ++ [b]) = Ok (- b).
Proof. intros H. unfold m_rhs. rewrite back_last. cbn [bind]. unfold i_neg. rewrite ck_int; auto. Qed.
Lemma pretty_named type names zs b : names <> [] -> Forall name_text names -> length zs = length names -> Forall int_range zs -> int_range b -> int_range (- b) -> nonzero_terms 0 zs <> [] ->
  exists line, m_pretty (zs ++ [b]) names (relation_sign type) = Ok line /\ named_text names line (nonzero_terms 0 zs) (relation_of type) (- b) /\
    exists t x n l', line = t ++ l' /\ term_text names t x /\ In n names /\ (length t <= length n + 33)%nat.
Proof.
  intros Hne Hn Hl Hr Hb Hb' Hx. unfold m_pretty. destruct names as [|n0 names']; [congruence|]. set (names := n0 :: names') in *.
  destruct (pretty_terms_first names 0 zs b Hn ltac:(lia) Hr) as (l & E & H & HT). rewrite E. cbn [bind]. rewrite rhs_ok by auto. cbn [bind]. eexists. split; [reflexivity|]. split.
  - destruct (nonzero_terms 0 zs) as [|x xs]; [congruence|].
    replace (l ++ lit " " ++ lit (relation_sign type) ++ lit " " ++ int_text (- b)) with ((l ++ lit " ") ++ (lit (relation_sign type) ++ lit " ") ++ int_text (- b) ++ []) by (rewrite app_nil_r, <- !app_assoc; reflexivity).
    constructor; auto; [|apply int_text_spec|rewrite Z.opp_involutive; auto|constructor].
    destruct type; constructor; repeat constructor; discriminate.
  - destruct (HT Hx) as (t & x & n & l' & -> & H1 & H2 & H3). exists t, x, n. eexists. split; [rewrite <- app_assoc; reflexivity|auto].
Qed.

(** ** Fractions *)
(** x / b in lowest terms. *)
Definition lowest (b x : Z) : Z * Z := let g := Z.gcd x b in (if b <? 0 then - (x / g) else x / g, Z.abs b / g).
Lemma lowest_spec b x : b <> 0 -> let '(p, q) := lowest b x in 0 < q /\ Z.gcd p q = 1 /\ p * b = x * q.
Proof.
  intros Hb. unfold lowest. set (g := Z.gcd x b). assert (Hg : 0 < g). { assert (0 <= g) by apply Z.gcd_nonneg. destruct (Z.eq_dec g 0) as [E|]; [apply Z.gcd_eq_0 in E; lia|lia]. }
  destruct (Z.gcd_divide_l x b) as (x' & Ex). destruct (Z.gcd_divide_r x b) as (b' & Eb). fold g in Ex, Eb.
  assert (G : Z.gcd x' b' = 1). { assert (K : Z.gcd (x' * g) (b' * g) = g) by (rewrite <- Ex, <- Eb; reflexivity). rewrite Z.gcd_mul_mono_r, Z.abs_eq in K by lia. nia. }
  assert (Exg : x / g = x') by (rewrite Ex, Z.div_mul by lia; reflexivity).
  assert (Ebg : Z.abs b / g = Z.abs b') by (rewrite Eb, Z.abs_mul, (Z.abs_eq g), Z.div_mul by lia; reflexivity).
  rewrite Exg, Ebg. clearbody g.
  assert (b' <> 0) by nia. split; [lia|]. split.
  - destruct (b <? 0); rewrite ?Z.gcd_opp_l, Z.gcd_abs_r; auto.
  - destruct (Z.ltb_spec b 0); rewrite Eb, Ex; assert (K : Z.abs b' = - b' \/ Z.abs b' = b') by lia; nia.
Qed.
Definition fraction_text (f : Z * Z) : text := int_text (fst f) ++ (if snd f =? 1 then [] else lit "/" ++ int_text (snd f)).
Lemma small_range x : small x -> int_range x /\ int_range (- x).
Proof. unfold small, int_range, StreamModel.int_min, StreamModel.int_max. lia. Qed.
Lemma lowest_small b x : b <> 0 -> small b -> small x -> small (fst (lowest b x)) /\ small (snd (lowest b x)).
Proof.
  intros Hb Sb Sx. unfold lowest. set (g := Z.gcd x b). assert (Hg : 0 < g). { assert (0 <= g) by apply Z.gcd_nonneg. destruct (Z.eq_dec g 0) as [E|]; [apply Z.gcd_eq_0 in E; lia|lia]. }
  destruct (Z.gcd_divide_l x b) as (x' & Ex). destruct (Z.gcd_divide_r x b) as (b' & Eb). fold g in Ex, Eb. cbn [fst snd].
  assert (Exg : x / g = x') by (rewrite Ex, Z.div_mul by lia; reflexivity).
  assert (Ebg : Z.abs b / g = Z.abs b') by (rewrite Eb, Z.abs_mul, (Z.abs_eq g), Z.div_mul by lia; reflexivity).
  rewrite Exg, Ebg. clearbody g.
  unfold small, int_range, StreamModel.int_min, StreamModel.int_max in *. destruct (b <? 0); nia.
Qed.
Lemma fraction_ok b x : b <> 0 -> small b -> small x ->
  m_fraction (if b <? 0 then -1 else 1) (Z.abs b) x = Ok (fraction_text (lowest b x) ++ lit " ").
Proof.
  intros Hb Sb Sx. unfold m_fraction. rewrite gcd_int by (unfold small in *; rewrite ?Z.abs_involutive; auto). cbn [bind]. rewrite Z.gcd_abs_r.
  unfold fraction_text, lowest. set (g := Z.gcd x b). assert (Hg : 0 < g). { assert (0 <= g) by apply Z.gcd_nonneg. destruct (Z.eq_dec g 0) as [E|]; [apply Z.gcd_eq_0 in E; lia|lia]. }
  destruct (Z.gcd_divide_l x b) as (x' & Ex). destruct (Z.gcd_divide_r x b) as (b' & Eb). fold g in Ex, Eb. cbn [fst snd].
  unfold i_mul. rewrite ck_int. 2:{ destruct (small_range x Sx). destruct (b <? 0); [replace (-1 * x) with (- x) by lia|rewrite Z.mul_1_l]; auto. } cbn [bind].
  set (y := (if b <? 0 then -1 else 1) * x).
  assert (Ey : y = (if b <? 0 then - x' else x') * g) by (unfold y; destruct (b <? 0); lia).
  assert (Ea : Z.abs b = Z.abs b' * g) by (rewrite Eb, Z.abs_mul, (Z.abs_eq g) by lia; reflexivity).
  assert (Exg : x / g = x') by (rewrite Ex, Z.div_mul by lia; reflexivity).
  assert (Ebg : Z.abs b / g = Z.abs b') by (rewrite Ea, Z.div_mul by lia; reflexivity).
  rewrite Exg, Ebg. unfold i_div. destruct (Z.eqb_spec g 0); [lia|].
  rewrite Ey, Z.quot_mul, Ea, Z.quot_mul by lia. unfold small, int_range, StreamModel.int_min, StreamModel.int_max in *.
  rewrite ck_int by (unfold int_range, StreamModel.int_min, StreamModel.int_max; destruct (b <? 0); nia). cbn [bind].
  rewrite ck_int by (unfold int_range, StreamModel.int_min, StreamModel.int_max; nia). cbn [bind]. rewrite <- app_assoc. destruct (Z.abs b' =? 1); reflexivity.
Qed.
Lemma fractional_ok xs b : b <> 0 -> small b -> Forall small xs ->
  m_fractional (xs ++ [b]) = Ok (flat_map (fun x => fraction_text (lowest b x) ++ lit " ") xs).
Proof.
  intros Hb Sb Sx. unfold m_fractional. rewrite back_last. cbn [bind].
  assert (E : i_mul 32 (if b <? 0 then -1 else 1) b = Ok (Z.abs b)).
  { unfold i_mul. replace ((if b <? 0 then -1 else 1) * b) with (Z.abs b) by (destruct (Z.ltb_spec b 0); lia). apply ck_int; auto. }
  rewrite E. cbn [bind]. rewrite removelast_last. clear E.
  assert (K : mapM (m_fraction (if b <? 0 then -1 else 1) (Z.abs b)) xs = Ok (map (fun x => fraction_text (lowest b x) ++ lit " ") xs)).
  { induction Sx as [|x xs Hx _ IH]; [reflexivity|]. cbn [mapM map]. rewrite fraction_ok by auto. cbn [bind]. rewrite IH. reflexivity. }
  rewrite K. cbn [bind]. rewrite flat_map_concat_map. reflexivity.
Qed.
Lemma fraction_coordinate b x : b <> 0 -> small b -> small x -> coordinate (fraction_text (lowest b x)) (fst (lowest b x)) (snd (lowest b x)).
Proof.
  intros Hb Sb Sx. assert (L := lowest_spec b x Hb). destruct (lowest_small b x Hb Sb Sx) as [L1 L2]. apply small_range in L1, L2. destruct (lowest b x) as [p q]. cbn [fst snd] in *.
  unfold fraction_text. cbn [fst snd]. destruct (Z.eqb_spec q 1) as [->|]; [rewrite app_nil_r; constructor; [apply int_text_spec|tauto]|].
  change (coordinate (int_text p ++ [] ++ "/"%char :: [] ++ int_text q) p q). constructor; try apply int_text_spec; try tauto; try constructor. lia.
Qed.
Lemma fractions_coordinates b xs : b <> 0 -> small b -> Forall small xs -> xs <> [] -> coordinates (flat_map (fun x => fraction_text (lowest b x) ++ lit " ") xs) (map (lowest b) xs).
Proof.
  intros Hb Sb Sx. induction Sx as [|x xs Hx Sx IH]; [congruence|]. intros _. cbn [flat_map map]. rewrite <- app_assoc. rewrite (surjective_pairing (lowest b x)) at 2.
  destruct xs as [|y xs].
  - cbn [flat_map map]. rewrite app_nil_r. constructor; [apply fraction_coordinate; auto|repeat constructor].
  - constructor; [apply fraction_coordinate; auto|repeat constructor|discriminate|]. apply IH. discriminate.
Qed.
