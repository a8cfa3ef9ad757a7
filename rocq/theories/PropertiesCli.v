(** * PropertiesCli: the command line (C37). *)
From Coq Require Import List ZArith Arith Bool Ascii String Lia.
From Verif Require Import Base SafeIntModel StreamModel StreamProofs SortModel CliModel.
Import ListNotations.
Open Scope nat_scope.
Open Scope list_scope.

(** ** Specification. *)
Definition starts_with (prefix a : text) : Prop := exists p, a = prefix ++ p.
(** An argument concerns the option with letter [x] if it starts with -x or --x. *)
Definition concerns (x : ascii) (a : text) : Prop := starts_with ["-"%char; x] a \/ starts_with ["-"%char; "-"%char; x] a.
(** The parameter that the command line gives to the option: the first argument that concerns the option is "-x" followed by the argument [p], or
    "-x=p", or "--name=p". *)
Inductive parameter (x : ascii) (name : text) : list text -> text -> Prop :=
| parameter_next pre p post : Forall (fun a => ~ concerns x a) pre -> parameter x name (pre ++ ["-"%char; x] :: p :: post) p
| parameter_short pre p post : Forall (fun a => ~ concerns x a) pre -> parameter x name (pre ++ (["-"%char; x; "="%char] ++ p) :: post) p
| parameter_long pre p post : Forall (fun a => ~ concerns x a) pre -> parameter x name (pre ++ (lit "--" ++ name ++ lit "=" ++ p) :: post) p.
Definition unset (x : ascii) (args : list text) : Prop := Forall (fun a => ~ concerns x a) args.

(** A positive decimal number, possibly surrounded by white space and with a sign. *)
Definition numeral (p : text) (n : Z) : Prop := exists before number after, p = before ++ number ++ after /\ spaces before /\ integer_text number n /\ spaces after.

Inductive method_word : text -> method -> Prop :=
| word_dd : method_word (lit "dd") DoubleDescription
| word_double_description : method_word (lit "double-description") DoubleDescription
| word_double_description' : method_word (lit "double_description") DoubleDescription
| word_ad : method_word (lit "ad") AdjacencyDecomposition
| word_adjacency_decomposition : method_word (lit "adjacency-decomposition") AdjacencyDecomposition
| word_adjacency_decomposition' : method_word (lit "adjacency_decomposition") AdjacencyDecomposition.
Inductive integer_word : text -> integer_choice -> Prop :=
| word_16 : integer_word (lit "16") Type_fixed16
| word_32 : integer_word (lit "32") Type_fixed32
| word_64 : integer_word (lit "64") Type_fixed64
| word_safe : integer_word (lit "safe") Type_safe
| word_inf : integer_word (lit "inf") Type_variable.
(** The words documented in usage.md. *)
Inductive order_word : text -> input_order -> Prop :=
| word_lex_asc : order_word (lit "lex_asc") LexicographicAscending
| word_lexicographic_ascending : order_word (lit "lexicographic_ascending") LexicographicAscending
| word_lex_desc : order_word (lit "lex_desc") LexicographicDescending
| word_lexicographic_descending : order_word (lit "lexicographic_descending") LexicographicDescending
| word_nz_asc : order_word (lit "nz_asc") NonZeroEntriesAscending
| word_nonzero_ascending : order_word (lit "nonzero_ascending") NonZeroEntriesAscending
| word_nz_desc : order_word (lit "nz_desc") NonZeroEntriesDescending
| word_nonzero_descending : order_word (lit "nonzero_descending") NonZeroEntriesDescending
| word_lex_up : order_word (lit "lex_up") LexicographicAscending
| word_lex_down : order_word (lit "lex_down") LexicographicDescending
| word_nz_up : order_word (lit "nz_up") NonZeroEntriesAscending
| word_nz_down : order_word (lit "nz_down") NonZeroEntriesDescending
| word_rev : order_word (lit "rev") Reverse
| word_reverse : order_word (lit "reverse") Reverse.

(** ** The scanner. *)
Lemma strcmp0_spec a b : reflect (a = b) (strcmp0 a b).
Proof. apply text_eqb_spec. Qed.
Lemma firstn_prefix {A} (b a : list A) : firstn (length b) a = b <-> exists p, a = b ++ p.
Proof.
  split.
  - intros E. exists (skipn (length b) a). rewrite <- E at 1. symmetry. apply firstn_skipn.
  - intros (p & ->). rewrite firstn_app, firstn_all, Nat.sub_diag. cbn. apply app_nil_r.
Qed.
Lemma strncmp0_spec a b : reflect (starts_with b a) (strncmp0 a b (length b)).
Proof.
  unfold strncmp0. rewrite firstn_all. destruct (text_eqb_spec (firstn (length b) a) b) as [E|E]; constructor; unfold starts_with; rewrite <- firstn_prefix; auto.
Qed.
Lemma advance_app b p : advance (b ++ p) (length b) = Ok p.
Proof.
  unfold advance. rewrite app_length. destruct (Nat.leb_spec (length b) (length b + length p)); [|lia].
  rewrite skipn_app, skipn_all, Nat.sub_diag. reflexivity.
Qed.
Section Option.
Context {A : Type} (x : ascii) (name : text) (interpret : text -> res A) (default : res A).
(** The name begins with the letter; the letter is not '=' or '-'. *)
Hypothesis Hname : exists n', name = x :: n'.
Hypothesis Hx : x <> "="%char /\ x <> "-"%char.
Let short := ["-"%char; x].
Let short_eq := ["-"%char; x; "="%char].
Let long := lit "--" ++ name ++ lit "=".
Let almost := ["-"%char; "-"%char; x].
Let run := m_option short short_eq long almost interpret default.

Lemma long_almost : exists u, long = almost ++ u.
Proof. destruct Hname as (n' & ->). exists (n' ++ lit "="). reflexivity. Qed.
Lemma concerns_tests a : concerns x a <-> strcmp0 a short = true \/ strncmp0 a short_eq 3 = true \/ strncmp0 a long (length long) = true \/ strncmp0 a short 2 || strncmp0 a almost 3 = true.
Proof.
  assert (S1 := strcmp0_spec a short). assert (S2 := strncmp0_spec a short_eq). assert (S3 := strncmp0_spec a long).
  assert (S4 := strncmp0_spec a short). assert (S5 := strncmp0_spec a almost). 
  change (length short_eq) with 3 in S2. change (length short) with 2 in S4. change (length almost) with 3 in S5.
  unfold concerns. fold short almost. rewrite orb_true_iff. split.
  - intros [H|H]; do 3 right; [left|right]; [destruct S4|destruct S5]; auto.
  - intros [H|[H|[H|[H|H]]]].
    + destruct S1 as [->|]; [|discriminate]. left. exists []. reflexivity.
    + destruct S2 as [(p & ->)|]; [|discriminate]. left. exists ("="%char :: p). reflexivity.
    + destruct S3 as [(p & ->)|]; [|discriminate]. right. destruct long_almost as (u & ->). exists (u ++ p). rewrite app_assoc. reflexivity.
    + destruct S4; [auto|discriminate].
    + destruct S5; [auto|discriminate].
Qed.
Lemma run_skip a args : ~ concerns x a -> run (a :: args) = run args.
Proof.
  intros H. unfold run. cbn [m_option]. rewrite concerns_tests in H. fold short short_eq in H.
  change (length short_eq) with 3. change (length short) with 2. change (length almost) with 3.
  destruct (strcmp0 a short); [tauto|]. destruct (strncmp0 a short_eq 3); [tauto|]. destruct (strncmp0 a long (length long)); [tauto|].
  destruct (strncmp0 a short 2 || strncmp0 a almost 3); [tauto|]. reflexivity.
Qed.
Lemma run_skips pre args : unset x pre -> run (pre ++ args) = run args.
Proof. induction 1 as [|a pre Ha _ IH]; auto. cbn [app]. rewrite run_skip; auto. Qed.
Lemma run_unset args : unset x args -> run args = default.
Proof. intros H. rewrite <- (app_nil_r args), run_skips by auto. reflexivity. Qed.
Lemma run_parameter args p : parameter x name args p -> run args = interpret p.
Proof.
  intros H. inversion H as [pre q post Hp|pre q post Hp|pre q post Hp]; subst; rewrite run_skips by auto; unfold run; cbn [m_option]; fold short.
  - destruct (strcmp0_spec short short); [|congruence]. reflexivity.
  - assert (S2 := strncmp0_spec (short_eq ++ p) short_eq). fold short_eq. destruct (strcmp0_spec (short_eq ++ p) short) as [E|_]; [discriminate E|].
    destruct S2 as [_|N]; [|exfalso; apply N; exists p; auto]. rewrite advance_app. reflexivity.
  - replace (lit "--" ++ name ++ lit "=" ++ p) with (long ++ p) by (unfold long; rewrite <- !app_assoc; reflexivity).
    destruct long_almost as (u & Hu). assert (S2 := strncmp0_spec (long ++ p) short_eq). assert (S3 := strncmp0_spec (long ++ p) long).
    destruct (strcmp0_spec (long ++ p) short) as [E|_]; [rewrite Hu in E; discriminate E|].
    destruct S2 as [(q & E)|_]. { exfalso. rewrite Hu in E. unfold almost, short_eq in E. cbn in E. injection E as Hc _. apply Hx. auto. }
    destruct S3 as [_|N]; [|exfalso; apply N; exists p; auto]. rewrite advance_app. reflexivity.
Qed.
(** Every argument vector: the option is unset, or it has a parameter, or the run is rejected. *)
Lemma run_cases args : unset x args \/ (exists p, parameter x name args p) \/ run args = Throw /\ ~ unset x args.
Proof.
  induction args as [|a args IH]; [left; constructor|].
  assert (D : concerns x a \/ ~ concerns x a).
  { rewrite concerns_tests. destruct (strcmp0 a short), (strncmp0 a short_eq 3), (strncmp0 a long (length long)), (strncmp0 a short 2 || strncmp0 a almost 3); intuition discriminate. }
  destruct D as [D|D].
  - right. assert (NU : ~ unset x (a :: args)) by (intros K; apply Forall_cons_iff in K; tauto).
    unfold run. cbn [m_option]. fold short. assert (S2 := strncmp0_spec a short_eq). assert (S3 := strncmp0_spec a long).
    destruct (strcmp0_spec a short) as [->|N1].
    { destruct args as [|p post]; auto. left. exists p. apply (parameter_next x name [] p post). constructor. }
    destruct S2 as [(p & ->)|N2]. { left. exists p. apply (parameter_short x name [] p args). constructor. }
    destruct S3 as [(p & ->)|N3].
    { left. exists p. unfold long. rewrite <- !app_assoc. apply (parameter_long x name [] p args). constructor. }
    destruct (strncmp0 a short (length short) || strncmp0 a almost (length almost)) eqn:E; auto.
    exfalso. apply orb_false_iff in E as [E1 E2]. destruct D as [D|D]; [destruct (strncmp0_spec a short)|destruct (strncmp0_spec a almost)]; auto; discriminate.
  - destruct IH as [IH|[(p & IH)|[IH NU]]].
    + left. constructor; auto.
    + right. left. exists p. inversion IH as [pre q post Hp|pre q post Hp|pre q post Hp]; subst.
      * apply (parameter_next x name (a :: pre)). constructor; auto.
      * apply (parameter_short x name (a :: pre)). constructor; auto.
      * apply (parameter_long x name (a :: pre)). constructor; auto.
    + right. right. rewrite run_skip by auto. split; auto. intros K. apply Forall_cons_iff in K. tauto.
Qed.
Lemma parameter_set args p : parameter x name args p -> ~ unset x args.
Proof.
  intros H K. inversion H as [pre q post Hp|pre q post Hp|pre q post Hp]; subst; unfold unset in K; rewrite Forall_app in K; destruct K as [_ K];
    apply Forall_cons_iff in K as [K _]; apply K.
  - left. exists []. reflexivity.
  - left. exists ("="%char :: p). reflexivity.
  - right. destruct Hname as (n' & ->). exists (n' ++ lit "=" ++ p). reflexivity.
Qed.
Lemma run_ok args v : run args = Ok v -> unset x args /\ default = Ok v \/ exists p, parameter x name args p /\ interpret p = Ok v.
Proof.
  intros H. destruct (run_cases args) as [U|[(p & P)|[T _]]].
  - left. rewrite run_unset in H; auto.
  - right. exists p. rewrite (run_parameter args p P) in H. auto.
  - congruence.
Qed.
Lemma run_no_ub args : default <> UB -> (forall p, interpret p <> UB) -> run args <> UB.
Proof.
  intros Hd Hi. destruct (run_cases args) as [U|[(p & P)|[T _]]]; [rewrite run_unset|rewrite (run_parameter args p P)|rewrite T]; auto; discriminate.
Qed.
End Option.

(** ** Number of threads. *)
Lemma spaces_stop t : spaces t -> stops is_digit t.
Proof.
  destruct t as [|c t]; cbn; auto. intros H. apply Forall_cons_iff in H as [H _]. destruct (is_digit c) eqn:E; auto. apply digit_space in E. congruence.
Qed.
Lemma interpret_threads_ok p n : m_interpret_threads p = Ok n <-> numeral p n /\ (0 < n <= int_max)%Z.
Proof.
  unfold m_interpret_threads. split.
  - destruct (read_int 0 (opened p)) as [n' s] eqn:E. unfold ok. destruct (failbit s) eqn:F; cbn [negb]; [discriminate|].
    destruct (read_int_inv 0 p n' s E F) as (ws & q & Hp & Hw & Hq & Hr & Hn & He).
    destruct (read_word [] s) as [word s2] eqn:W. destruct word as [|c word]; cbn [at_end negb]; [|discriminate].
    destruct (Z.leb_spec n' 0); [discriminate|]. intros E'. injection E' as ->. split; [|destruct Hn; lia].
    exists ws, q, (rest s). repeat split; auto.
    destruct s as [r e f]; cbn [rest eofbit failbit] in *. subst f e. destruct r as [|c r]; [constructor|]. cbn [at_end] in W.
    unfold read_word, formatted in W. cbn [good eofbit failbit negb andb rest] in W.
    assert (D := drop_suffix is_space (c :: r)). destruct D as (a & Ha & Hs). destruct (drop_while is_space (c :: r)) as [|d u] eqn:Du.
    + rewrite app_nil_r in Ha. rewrite Ha. exact Hs.
    + assert (Q := drop_stops is_space (c :: r)). rewrite Du in Q. cbn [stops] in Q. cbn [take_while] in W. rewrite Q in W. cbn [negb] in W. discriminate W.
  - intros ((ws & q & ws' & -> & Hw & Hq & Hw') & Hn).
    rewrite (read_int_ok ws q n ws' 0 Hw Hq (spaces_stop ws' Hw')) by (unfold int_range, int_min in *; lia). unfold ok. cbn [failbit negb].
    assert (R : fst (read_word [] (Stream ws' (at_end ws') false)) = []).
    { destruct ws' as [|c ws']; [reflexivity|]. cbn [at_end]. change (Stream (c :: ws') false false) with (opened (c :: ws')). rewrite read_word_none; auto. }
    destruct (read_word [] _) as [w s2]. cbn [fst] in R. subst w. cbn [at_end negb]. destruct (Z.leb_spec n 0); [lia|]. reflexivity.
Qed.
Lemma interpret_threads_ub p : m_interpret_threads p <> UB.
Proof.
  unfold m_interpret_threads. destruct (read_int 0 (opened p)) as [n s]. destruct (negb (ok s)); [discriminate|]. destruct (read_word [] s) as [w s2].
  destruct (negb (at_end w)); [discriminate|]. destruct (n <=? 0)%Z; discriminate.
Qed.
Lemma t_name : exists n', lit "threads" = "t"%char :: n'. Proof. eexists. reflexivity. Qed.
Lemma m_name : exists n', lit "method" = "m"%char :: n'. Proof. eexists. reflexivity. Qed.
Lemma i_name : exists n', lit "integer-type" = "i"%char :: n'. Proof. eexists. reflexivity. Qed.
Lemma s_name : exists n', lit "sorting" = "s"%char :: n'. Proof. eexists. reflexivity. Qed.
Lemma t_char : "t"%char <> "="%char /\ "t"%char <> "-"%char. Proof. split; discriminate. Qed.
Lemma m_char : "m"%char <> "="%char /\ "m"%char <> "-"%char. Proof. split; discriminate. Qed.
Lemma i_char : "i"%char <> "="%char /\ "i"%char <> "-"%char. Proof. split; discriminate. Qed.
Lemma s_char : "s"%char <> "="%char /\ "s"%char <> "-"%char. Proof. split; discriminate. Qed.

(** The number of threads is exactly the positive number given by the user, or the default if the option is not used; anything else is rejected, without
    undefined behaviour. *)
Theorem C37_threads : forall hardware args n,
  m_number_of_threads hardware args = Ok n <->
  unset "t" args /\ n = (if (0 <? hardware)%Z then hardware else 1%Z) \/
  exists p, parameter "t" (lit "threads") args p /\ numeral p n /\ (0 < n <= int_max)%Z.
Proof.
  intros hardware args n. unfold m_number_of_threads. split.
  - intros H. apply (run_ok "t" (lit "threads") _ _ t_name t_char) in H. destruct H as [[U E]|(p & P & E)].
    + left. split; auto. congruence.
    + right. exists p. split; auto. apply interpret_threads_ok; auto.
  - intros [[U ->]|(p & P & N)].
    + apply (run_unset "t" (lit "threads") _ _ t_name t_char); auto.
    + rewrite (run_parameter "t" (lit "threads") _ _ t_name t_char args p P). apply interpret_threads_ok; auto.
Qed.
Print Assumptions C37_threads.
Theorem C37_threads_positive : forall hardware args, m_number_of_threads hardware args <> UB /\ forall n, m_number_of_threads hardware args = Ok n -> (0 < n)%Z.
Proof.
  intros hardware args. split.
  - apply (run_no_ub "t" (lit "threads") _ _ t_name t_char); [discriminate|apply interpret_threads_ub].
  - intros n H. apply C37_threads in H. destruct H as [[_ ->]|(p & _ & _ & H)]; [|lia]. destruct (Z.ltb_spec 0 hardware); lia.
Qed.
Print Assumptions C37_threads_positive.
(** The number is determined by the text. *)
Theorem C37_numeral_unique : forall p n n', numeral p n -> numeral p n' -> n = n'.
Proof.
  intros p n n' (a & q & b & -> & Ha & Hq & Hb) (a' & q' & b' & E & Ha' & Hq' & Hb').
  destruct (integer_text_start q n Hq) as [Hn Hs]. destruct (integer_text_start q' n' Hq') as [Hn' Hs'].
  apply (f_equal (drop_while is_space)) in E. rewrite (drop_app _ a), (drop_app _ a'), !drop_stop in E by (auto; apply stops_app; auto).
  destruct (integer_text_unique q q' n n' Hq Hq' b b' (spaces_stop b Hb) (spaces_stop b' Hb') E) as (_ & H & _). exact H.
Qed.
Print Assumptions C37_numeral_unique.

(** ** Method, integer type. *)
Ltac word_cases := repeat match goal with |- context [strcmp0 ?a ?b] => is_var a; destruct (strcmp0_spec a b) as [->|] end; cbn [orb].
Lemma detect_method_ok p c : m_detect_method p = Ok c <-> method_word p c.
Proof.
  unfold m_detect_method. split.
  - word_cases; intros H; try discriminate; vm_compute in H; injection H as <-; constructor.
  - intros H. inversion H; subst; reflexivity.
Qed.
Lemma integer_from_string_ok p c : m_integer_type_from_string p = Ok c <-> integer_word p c.
Proof.
  unfold m_integer_type_from_string. split.
  - word_cases; intros H; try discriminate; vm_compute in H; injection H as <-; constructor.
  - intros H. inversion H; subst; reflexivity.
Qed.
Theorem C37_method : forall args c,
  m_method args = Ok c <-> unset "m" args /\ c = AdjacencyDecomposition \/ exists p, parameter "m" (lit "method") args p /\ method_word p c.
Proof.
  intros args c. unfold m_method. split.
  - intros H. apply (run_ok "m" (lit "method") _ _ m_name m_char) in H. destruct H as [[U E]|(p & P & E)].
    + left. split; auto. congruence.
    + right. exists p. split; auto. apply detect_method_ok; auto.
  - intros [[U ->]|(p & P & N)].
    + apply (run_unset "m" (lit "method") _ _ m_name m_char); auto.
    + rewrite (run_parameter "m" (lit "method") _ _ m_name m_char args p P). apply detect_method_ok; auto.
Qed.
Print Assumptions C37_method.
Theorem C37_integer_type : forall args c,
  m_integer_type args = Ok c <-> unset "i" args /\ c = Type_default \/ exists p, parameter "i" (lit "integer-type") args p /\ integer_word p c.
Proof.
  intros args c. unfold m_integer_type. split.
  - intros H. apply (run_ok "i" (lit "integer-type") _ _ i_name i_char) in H. destruct H as [[U E]|(p & P & E)].
    + left. split; auto. congruence.
    + right. exists p. split; auto. apply integer_from_string_ok; auto.
  - intros [[U ->]|(p & P & N)].
    + apply (run_unset "i" (lit "integer-type") _ _ i_name i_char); auto.
    + rewrite (run_parameter "i" (lit "integer-type") _ _ i_name i_char args p P). apply integer_from_string_ok; auto.
Qed.
Print Assumptions C37_integer_type.
Theorem C37_defined : forall args, m_method args <> UB /\ m_integer_type args <> UB.
Proof.
  intros args. split.
  - apply (run_no_ub "m" (lit "method") _ _ m_name m_char); [discriminate|]. intros p. unfold m_detect_method. word_cases; discriminate.
  - apply (run_no_ub "i" (lit "integer-type") _ _ i_name i_char); [discriminate|]. intros p. unfold m_integer_type_from_string. word_cases; discriminate.
Qed.
Print Assumptions C37_defined.

(** ** Order of the rows. *)
(** The documented words select the documented order; without the option the rows keep their order. *)
Theorem C37_sorting_partial : forall args,
  (unset "s" args -> m_input_order args = Ok NoSorting) /\
  (forall p c, parameter "s" (lit "sorting") args p -> order_word p c -> m_input_order args = Ok c).
Proof.
  intros args. split.
  - intros U. apply (run_unset "s" (lit "sorting") _ _ s_name s_char); auto.
  - intros p c P W. unfold m_input_order. rewrite (run_parameter "s" (lit "sorting") _ _ s_name s_char args p P). inversion W; subst; reflexivity.
Qed.
Print Assumptions C37_sorting_partial.
(** But other words are not all rejected: those that start with "lex" or "n" and are too short make the program read past the end of the argument. *)
Theorem C37_sorting_reads_past_the_end :
  m_input_order [lit "-s"; lit "lexasc"; lit "file"] = UB /\ m_input_order [lit "--sorting=none"; lit "file"] = UB /\ m_input_order [lit "-s=nzdesc"; lit "file"] = UB.
Proof. repeat split. Qed.
Print Assumptions C37_sorting_reads_past_the_end.
(** Exactly these words do. *)
Definition too_short (p : text) : Prop :=
  starts_with (lit "lex") p /\ length p < 14 /\ p <> lit "lex" /\ p <> lit "lexicographic" /\ ~ starts_with (lit "lex_") p \/
  starts_with (lit "n") p /\ length p < 8 /\ p <> lit "nz" /\ p <> lit "nonzero" /\ ~ starts_with (lit "nz_") p.
Theorem C37_sorting_undefined_iff : forall args,
  m_input_order args = UB <-> exists p, parameter "s" (lit "sorting") args p /\ too_short p.
Proof.
  assert (K : forall p, m_order_from_string p = UB <-> too_short p).
  { intros p. unfold m_order_from_string, too_short. assert (S1 := strncmp0_spec p (lit "lex")). assert (S2 := strncmp0_spec p (lit "n")).
    assert (S3 := strncmp0_spec p (lit "lex_")). assert (S4 := strncmp0_spec p (lit "nz_")).
    change (length (lit "lex")) with 3 in S1. change (length (lit "n")) with 1 in S2. change (length (lit "lex_")) with 4 in S3. change (length (lit "nz_")) with 3 in S4.
    assert (L3 : starts_with (lit "lex_") p -> 4 <= length p) by (intros (u & ->); rewrite app_length; cbn; lia).
    assert (L4 : starts_with (lit "nz_") p -> 3 <= length p) by (intros (u & ->); rewrite app_length; cbn; lia).
    destruct S1 as [S1|S1].
    - unfold m_order_lexicographic. destruct (strcmp0_spec p (lit "lex")) as [->|N1]; [cbn; split; [discriminate|]; intros [(_ & _ & H & _)|((u & H) & _)]; [congruence|discriminate H]|].
      destruct (strcmp0_spec p (lit "lexicographic")) as [->|N2]; [cbn; split; [discriminate|]; intros [(_ & _ & _ & H & _)|((u & H) & _)]; [congruence|discriminate H]|].
      cbn [orb]. unfold advance.
      assert (Hn : ~ starts_with (lit "n") p) by (destruct S1 as (u & ->); intros (v & H); discriminate H).
      destruct S3 as [S3|S3].
      + destruct (Nat.leb_spec 4 (length p)); [|specialize (L3 S3); lia]. cbn [bind]. split; [discriminate|]. intros [H'|H']; tauto.
      + destruct (Nat.leb_spec 14 (length p)); cbn [bind]; split; intros H'; try discriminate; auto.
        * destruct H' as [H'|H']; [lia|tauto].
        * left. repeat split; auto.
    - destruct S2 as [S2|S2].
      + unfold m_order_nonzero. destruct (strcmp0_spec p (lit "nz")) as [->|N1]; [cbn; split; [discriminate|]; intros [(H & _)|(_ & _ & H & _)]; [tauto|congruence]|].
        destruct (strcmp0_spec p (lit "nonzero")) as [->|N2]; [cbn; split; [discriminate|]; intros [(H & _)|(_ & _ & _ & H & _)]; [tauto|congruence]|].
        cbn [orb]. unfold advance. destruct S4 as [S4|S4].
        * destruct (Nat.leb_spec 3 (length p)); [|specialize (L4 S4); lia]. cbn [bind]. split; [discriminate|]. intros [H'|H']; tauto.
        * destruct (Nat.leb_spec 8 (length p)); cbn [bind]; split; intros H'; try discriminate; auto.
          -- destruct H' as [H'|H']; [tauto|lia].
          -- right. repeat split; auto.
      + destruct (strcmp0 p (lit "rev") || strcmp0 p (lit "reverse")); split; try discriminate; tauto. }
  intros args. unfold m_input_order. split.
  - intros H. destruct (run_cases "s" (lit "sorting") m_order_from_string (Ok NoSorting) s_name s_char args) as [U|[(p & P)|[T _]]].
    + rewrite (run_unset "s" (lit "sorting") _ _ s_name s_char) in H by auto. discriminate.
    + exists p. split; auto. rewrite (run_parameter "s" (lit "sorting") _ _ s_name s_char args p P) in H. apply K; auto.
    + match type of T with ?a = _ => match type of H with ?b = _ => change a with b in T end end. rewrite H in T. discriminate.
  - intros (p & P & S). rewrite (run_parameter "s" (lit "sorting") _ _ s_name s_char args p P). apply K; auto.
Qed.
Print Assumptions C37_sorting_undefined_iff.
(** And other words are silently accepted. *)
Theorem C37_sorting_misspelt_accepted :
  m_input_order [lit "-s"; lit "lex_dsc"; lit "file"] = Ok LexicographicAscending /\ m_input_order [lit "-s"; lit "no_sorting"; lit "file"] = Ok NonZeroEntriesAscending.
Proof. split; reflexivity. Qed.
Print Assumptions C37_sorting_misspelt_accepted.
(** What every parameter means, documented or not: after "lex_", "lexicographic_", "nz_" or "nonzero_" a word beginning with "desc", "down" or "dec" asks for descending order, every other word for ascending order; without a word the order is ascending; and a parameter that begins with neither "lex" nor "n" and is not "rev" or "reverse" is an error. *)
Definition descending_word (w : text) : Prop := starts_with (lit "desc") w \/ starts_with (lit "down") w \/ starts_with (lit "dec") w.
Inductive kind_word : text -> input_order -> input_order -> Prop :=
| kind_lex : kind_word (lit "lex") LexicographicAscending LexicographicDescending
| kind_lexicographic : kind_word (lit "lexicographic") LexicographicAscending LexicographicDescending
| kind_nz : kind_word (lit "nz") NonZeroEntriesAscending NonZeroEntriesDescending
| kind_nonzero : kind_word (lit "nonzero") NonZeroEntriesAscending NonZeroEntriesDescending.
Theorem C37_sorting_directions_partial : forall args p, parameter "s" (lit "sorting") args p ->
  (forall kind up down, kind_word kind up down ->
    (p = kind -> m_input_order args = Ok up) /\
    (forall w, p = kind ++ lit "_" ++ w -> descending_word w -> m_input_order args = Ok down) /\
    (forall w, p = kind ++ lit "_" ++ w -> ~ descending_word w -> m_input_order args = Ok up)) /\
  (~ starts_with (lit "lex") p -> ~ starts_with (lit "n") p -> p <> lit "rev" -> p <> lit "reverse" -> m_input_order args = Throw).
Proof.
  intros args p P. assert (R : m_input_order args = m_order_from_string p) by (unfold m_input_order; now rewrite (run_parameter "s" (lit "sorting") _ _ s_name s_char args p P)).
  assert (D : forall w, reflect (descending_word w) (negb (m_ascending w))).
  { intros w. unfold m_ascending, descending_word. assert (S1 := strncmp0_spec w (lit "desc")). assert (S2 := strncmp0_spec w (lit "down")). assert (S3 := strncmp0_spec w (lit "dec")).
    change (length (lit "desc")) with 4 in S1. change (length (lit "down")) with 4 in S2. change (length (lit "dec")) with 3 in S3.
    destruct S1; cbn [negb andb]; [constructor; tauto|]. destruct S2; cbn [negb andb]; [constructor; tauto|]. destruct S3; cbn [negb andb]; constructor; tauto. }
  rewrite R. split.
  - intros kind up down K. split; [|split].
    + intros ->. destruct K; reflexivity.
    + intros w -> W. assert (E := D w). destruct K; cbn; inversion E as [E1 E2|E1 E2]; try tauto; destruct (m_ascending w); try discriminate E2; reflexivity.
    + intros w -> W. assert (E := D w). destruct K; cbn; inversion E as [E1 E2|E1 E2]; try tauto; destruct (m_ascending w); try discriminate E2; reflexivity.
  - intros N1 N2 N3 N4. unfold m_order_from_string. assert (S1 := strncmp0_spec p (lit "lex")). assert (S2 := strncmp0_spec p (lit "n")).
    change (length (lit "lex")) with 3 in S1. change (length (lit "n")) with 1 in S2. destruct S1; [tauto|]. destruct S2; [tauto|].
    destruct (strcmp0_spec p (lit "rev")); [tauto|]. destruct (strcmp0_spec p (lit "reverse")); [tauto|]. reflexivity.
Qed.
Print Assumptions C37_sorting_directions_partial.
Example sorting_decreasing : parameter "s" (lit "sorting") [lit "-s"; lit "nz_decreasing"; lit "file"] (lit "nz_decreasing") /\ m_input_order [lit "-s"; lit "nz_decreasing"; lit "file"] = Ok NonZeroEntriesDescending.
Proof.
  assert (P : parameter "s" (lit "sorting") [lit "-s"; lit "nz_decreasing"; lit "file"] (lit "nz_decreasing")) by (exact (parameter_next "s"%char (lit "sorting") [] (lit "nz_decreasing") [lit "file"] (Forall_nil _))).
  split; [exact P|]. apply (proj1 (proj2 (proj1 (C37_sorting_directions_partial _ _ P) _ _ _ kind_nz)) (lit "decreasing")); [reflexivity|]. right; right. now exists (lit "reasing").
Qed.

(** ** File name. *)
(** Command lines as documented: long options, the flags -c and -f, options followed by their parameter, and free arguments. *)
Definition free (a : text) : Prop := a <> [] /\ ~ starts_with (lit "-") a.
Inductive command_line : list text -> list text -> Prop :=
| line_end : command_line [] []
| line_long a args names : command_line args names -> command_line ((lit "--" ++ a) :: args) names
| line_check args names : command_line args names -> command_line (lit "-c" :: args) names
| line_filter args names : command_line args names -> command_line (lit "-f" :: args) names
| line_parameter c p args names : c <> "c"%char -> c <> "f"%char -> c <> "-"%char -> command_line args names ->
    command_line (["-"%char; c] :: p :: args) names
| line_free a args names : free a -> command_line args names -> command_line (a :: args) (a :: names).
Definition the_name (name : text) (names : list text) : res text :=
  match name, names with
  | _, [] => Ok name
  | [], [a] => Ok a
  | _, _ => Throw
  end.
Lemma filename_loop args names name : command_line args names -> m_filename_loop args name = the_name name names.
Proof.
  intros H. revert name. induction H as [|a args names H IH|args names H IH|args names H IH|c p args names Hc Hf Hm H IH|a args names Ha H IH]; intros name.
  - destruct name; reflexivity.
  - cbn [m_filename_loop]. destruct (strncmp0_spec (lit "--" ++ a) (lit "--")) as [_|N]; [|exfalso; apply N; exists a; auto].
    change (length (lit "--")) with 2. destruct (strncmp0 (lit "--" ++ a) (lit "--") 2) eqn:E; [apply IH|].
    exfalso. assert (S := strncmp0_spec (lit "--" ++ a) (lit "--")). change (length (lit "--")) with 2 in S. rewrite E in S. inversion S as [|N]. apply N. exists a. auto.
  - cbn [m_filename_loop]. apply IH.
  - cbn [m_filename_loop]. apply IH.
  - cbn [m_filename_loop].
    assert (S := strncmp0_spec ["-"%char; c] (lit "--")). change (length (lit "--")) with 2 in S. destruct S as [(u & E)|_]; [cbn in E; injection E as E; congruence|].
    change (strncmp0 ["-"%char; c] (lit "-") 1) with true. cbv iota.
    unfold m_requires_parameter. destruct (strcmp0_spec ["-"%char; c] (lit "-c")) as [E|_]; [injection E as E; congruence|].
    destruct (strcmp0_spec ["-"%char; c] (lit "-f")) as [E|_]; [injection E as E; congruence|]. cbn [negb andb]. apply IH.
  - cbn [m_filename_loop]. destruct Ha as [Hn Ha].
    assert (S := strncmp0_spec a (lit "--")). change (length (lit "--")) with 2 in S. destruct S as [(u & ->)|_]; [exfalso; apply Ha; exists ("-"%char :: u); reflexivity|].
    assert (S := strncmp0_spec a (lit "-")). change (length (lit "-")) with 1 in S. destruct S as [S|_]; [contradiction|].
    destruct name as [|c name]; cbn [at_end negb].
    + rewrite IH. destruct names, a; try congruence; try reflexivity.
    + reflexivity.
Qed.
(** The file name is the only free argument; it is empty if there is none, and several free arguments are rejected. *)
Theorem C37_filename_partial : forall args names, command_line args names ->
  m_filename args = match names with [] => Ok [] | [a] => Ok a | _ => Throw end.
Proof.
  intros args names H. unfold m_filename. rewrite (filename_loop args names [] H). destruct names as [|a [|b names]]; reflexivity.
Qed.
Print Assumptions C37_filename_partial.
(** The form "-x=p" is accepted for the option itself, but hides the argument that follows it. *)
Theorem C37_filename_refuted :
  m_input_order [lit "-s=lex_asc"; lit "file"] = Ok LexicographicAscending /\ m_filename [lit "-s=lex_asc"; lit "file"] = Ok [].
Proof. split; reflexivity. Qed.
Print Assumptions C37_filename_refuted.

(** ** Known facets and vertices. *)
Theorem C37_known_facets : forall pre p post, unset "k" pre ->
  m_known_facets_filename (pre ++ lit "-k" :: p :: post) = Ok p /\
  m_known_facets_filename (pre ++ (lit "-k=" ++ p) :: post) = Ok p /\
  m_known_facets_filename (pre ++ (lit "--known-data=" ++ p) :: post) = Ok p /\
  m_known_facets_filename (pre ++ (lit "--known-facets=" ++ p) :: post) = Ok p /\
  m_known_facets_filename (pre ++ (lit "--known-vertices=" ++ p) :: post) = Throw /\
  m_known_facets_filename pre = Ok [] /\
  m_known_vertices_filename (pre ++ lit "-k" :: p :: post) = Ok p /\
  m_known_vertices_filename (pre ++ (lit "-k=" ++ p) :: post) = Ok p /\
  m_known_vertices_filename (pre ++ (lit "--known-data=" ++ p) :: post) = Ok p /\
  m_known_vertices_filename (pre ++ (lit "--known-vertices=" ++ p) :: post) = Ok p /\
  m_known_vertices_filename (pre ++ (lit "--known-facets=" ++ p) :: post) = Throw /\
  m_known_vertices_filename pre = Ok [].
Proof.
  assert (K : forall acc ref pre args, (exists u, acc = lit "--k" ++ u) -> (exists u, ref = lit "--k" ++ u) -> unset "k" pre ->
    m_known_data acc ref (pre ++ args) = m_known_data acc ref args).
  { intros acc ref pre args (u & ->) (v & ->). induction 1 as [|a pre Ha _ IH]; auto. cbn [app m_known_data].
    assert (S1 := strcmp0_spec a (lit "-k")). assert (S2 := strncmp0_spec a (lit "-k=")). assert (S3 := strncmp0_spec a (lit "--known-data=")).
    assert (S4 := strncmp0_spec a (lit "--k" ++ u)). assert (S5 := strncmp0_spec a (lit "--k" ++ v)). assert (S6 := strncmp0_spec a (lit "-k")).
    assert (S7 := strncmp0_spec a (lit "--k")). change (length (lit "-k=")) with 3 in S2. change (length (lit "--known-data=")) with 13 in S3.
    change (length (lit "-k")) with 2 in S6. change (length (lit "--k")) with 3 in S7.
    assert (N1 : ~ starts_with (lit "-k") a) by (intros H; apply Ha; left; exact H). assert (N2 : ~ starts_with (lit "--k") a) by (intros H; apply Ha; right; exact H).
    destruct S1 as [->|_]; [exfalso; apply N1; exists []; auto|].
    destruct S2 as [(q & ->)|_]; [exfalso; apply N1; exists ("="%char :: q); auto|].
    destruct S3 as [(q & ->)|_]; [exfalso; apply N2; exists (lit "nown-data=" ++ q); auto|].
    destruct S4 as [(q & ->)|_]; [exfalso; apply N2; exists (u ++ q); rewrite app_assoc; auto|].
    destruct S5 as [(q & ->)|_]; [exfalso; apply N2; exists (v ++ q); rewrite app_assoc; auto|].
    destruct S6 as [|_]; [contradiction|]. destruct S7 as [|_]; [contradiction|]. exact IH. }
  assert (F : exists u, lit "--known-facets=" = lit "--k" ++ u) by (exists (lit "nown-facets="); reflexivity).
  assert (V : exists u, lit "--known-vertices=" = lit "--k" ++ u) by (exists (lit "nown-vertices="); reflexivity).
  intros pre p post U. unfold m_known_facets_filename, m_known_vertices_filename.
  assert (E0 : forall acc ref, (exists u, acc = lit "--k" ++ u) -> (exists u, ref = lit "--k" ++ u) -> m_known_data acc ref pre = Ok []).
  { intros acc ref Ha Hr. rewrite <- (app_nil_r pre). rewrite K; auto. }
  rewrite !K by auto. repeat split; auto.
Qed.
Print Assumptions C37_known_facets.

(** ** Help and version. *)
Definition version_word (a : text) : Prop := In a (map lit ["-v"; "--v"; "-version"; "--version"]%string).
Definition help_word (a : text) : Prop := In a (map lit ["?"; "--h"; "-help"; "--help"]%string).
Definition ordinary (a : text) : Prop :=
  ~ version_word a /\ ~ help_word a /\ a <> lit "-h" /\ ~ starts_with (lit "-h=") a /\ ~ starts_with (lit "--help=") a /\ ~ starts_with (lit "--help-command=") a.
Lemma mode_skip pre args : Forall ordinary pre -> m_mode_option_loop (pre ++ args) = m_mode_option_loop args.
Proof.
  induction 1 as [|a pre (V & H & N & H1 & H2 & H3) _ IH]; auto. cbn [app m_mode_option_loop].
  assert (S1 := strncmp0_spec a (lit "-h=")). assert (S2 := strncmp0_spec a (lit "--help=")). assert (S3 := strncmp0_spec a (lit "--help-command=")).
  change (length (lit "-h=")) with 3 in S1. change (length (lit "--help=")) with 7 in S2. change (length (lit "--help-command=")) with 15 in S3.
  destruct S1; [contradiction|]. destruct S2; [contradiction|]. destruct S3; [contradiction|].
  assert (V' : forall b, In b (map lit ["-v"; "--v"; "-version"; "--version"]%string) -> strcmp0 a b = false)
    by (intros b Hb; destruct (strcmp0_spec a b) as [->|]; [contradiction|auto]).
  assert (H' : forall b, In b (map lit ["?"; "--h"; "-help"; "--help"]%string) -> strcmp0 a b = false)
    by (intros b Hb; destruct (strcmp0_spec a b) as [->|]; [contradiction|auto]).
  rewrite (V' (lit "-v")), (V' (lit "--v")), (V' (lit "-version")), (V' (lit "--version")), (H' (lit "?")), (H' (lit "--h")), (H' (lit "-help")), (H' (lit "--help")) by (cbn; tauto).
  destruct (strcmp0_spec a (lit "-h")); [contradiction|]. exact IH.
Qed.
Theorem C37_mode : forall pre post, Forall ordinary pre ->
  m_mode_option [] = Help /\
  (pre <> [] -> m_mode_option pre = Undecided) /\
  (forall a, version_word a -> m_mode_option (pre ++ a :: post) = Version) /\
  (forall a, help_word a -> m_mode_option (pre ++ a :: post) = Help) /\
  m_mode_option (pre ++ [lit "-h"]) = Help /\
  (forall p, m_mode_option (pre ++ lit "-h" :: p :: post) = HelpCommand /\ m_mode_option (pre ++ (lit "-h=" ++ p) :: post) = HelpCommand /\
             m_mode_option (pre ++ (lit "--help=" ++ p) :: post) = HelpCommand /\ m_mode_option (pre ++ (lit "--help-command=" ++ p) :: post) = HelpCommand).
Proof.
  intros pre post H.
  assert (K : forall args, args <> [] -> m_mode_option (pre ++ args) = m_mode_option_loop args).
  { intros args Hn. rewrite <- (mode_skip pre args H). unfold m_mode_option. destruct pre, args; try congruence; reflexivity. }
  split; [reflexivity|]. split; [|split; [|split; [|split]]].
  - intros Hn. assert (E := mode_skip pre [] H). rewrite app_nil_r in E. destruct pre; [congruence|]. exact E.
  - intros a Ha. rewrite K by discriminate. destruct Ha as [<-|[<-|[<-|[<-|[]]]]]; reflexivity.
  - intros a Ha. rewrite K by discriminate. destruct Ha as [<-|[<-|[<-|[<-|[]]]]]; reflexivity.
  - rewrite K by discriminate. reflexivity.
  - intros p. rewrite !K by discriminate. repeat split.
Qed.
Print Assumptions C37_mode.

(** ** Checking and filtering. *)
Theorem C37_flags : forall args,
  (m_check_validity args = true <-> In (lit "-c") args \/ In (lit "--check") args) /\
  (m_filter_invalid args = true <-> In (lit "-f") args \/ In (lit "--filter") args).
Proof.
  assert (K : forall u v args, existsb (fun a => strcmp0 a u || strcmp0 a v) args = true <-> In u args \/ In v args).
  { intros u v args. rewrite existsb_exists. split.
    - intros (a & Ha & E). apply orb_true_iff in E as [E|E]; [destruct (strcmp0_spec a u)|destruct (strcmp0_spec a v)]; subst; auto; discriminate.
    - intros [H|H]; [exists u|exists v]; (split; [auto|]); apply orb_true_iff; [left; destruct (strcmp0_spec u u)|right; destruct (strcmp0_spec v v)]; congruence. }
  intros args. split; apply K.
Qed.
Print Assumptions C37_flags.

(** ** The hypotheses are met. *)
Example threads_16 : parameter "t" (lit "threads") [lit "-i"; lit "safe"; lit "--threads=16"; lit "file"] (lit "16") /\ numeral (lit "16") 16.
Proof.
  split.
  - apply (parameter_long "t" (lit "threads") [lit "-i"; lit "safe"] (lit "16") [lit "file"]).
    repeat constructor; intros [(u & E)|(u & E)]; discriminate E.
  - exists [], (lit "16"), []. split; [reflexivity|]. split; [constructor|]. split; [|constructor]. apply (integer_plain (lit "16")); [discriminate|repeat constructor].
Qed.
Example threads_16_run : m_number_of_threads 8 [lit "-i"; lit "safe"; lit "--threads=16"; lit "file"] = Ok 16%Z.
Proof. reflexivity. Qed.
Example threads_rejected : m_number_of_threads 8 [lit "-t"; lit "4x"] = Throw /\ m_number_of_threads 8 [lit "-t"; lit "0"] = Throw /\ m_number_of_threads 8 [lit "-t"] = Throw /\
  m_number_of_threads 8 [lit "--thread=4"] = Throw /\ m_number_of_threads 8 [lit "-t"; lit "99999999999"] = Throw.
Proof. repeat split. Qed.
Example line : command_line [lit "-i"; lit "safe"; lit "my.poi"; lit "--threads=20"; lit "-c"] [lit "my.poi"].
Proof.
  apply (line_parameter "i" (lit "safe")); [discriminate..|]. apply line_free; [split; [discriminate|intros (u & E); discriminate E]|].
  apply (line_long (lit "threads=20")). apply line_check. apply line_end.
Qed.
Example line_run : m_filename [lit "-i"; lit "safe"; lit "my.poi"; lit "--threads=20"; lit "-c"] = Ok (lit "my.poi").
Proof. reflexivity. Qed.
Example unset_s : unset "s" [lit "-i"; lit "safe"; lit "my.poi"].
Proof. repeat constructor; intros [(u & E)|(u & E)]; discriminate E. Qed.
Example ordinary_args : Forall ordinary [lit "-t"; lit "4"].
Proof.
  repeat constructor; try (intros [E|[E|[E|[E|[]]]]]; discriminate E); try discriminate; intros (u & E); discriminate E.
Qed.
