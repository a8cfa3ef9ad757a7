(** * InputTotal: the scanner functions on arbitrary text: they end, and they do not move backwards. *)
From Coq Require Import List ZArith Arith Bool Ascii String Lia.
From Verif Require Import Base Spec ListUtil ArithModel SafeIntModel IntTypes StreamModel StreamProofs InputModel InputProofs.
Import ListNotations.
Open Scope nat_scope.

Definition size (s : stream) : nat := length (rest s).
Lemma size_clear s : size (clear s) = size s. Proof. reflexivity. Qed.
Lemma drop_size p t : length (drop_while p t) <= length t.
Proof. induction t as [|c t IH]; cbn; auto. destruct (p c); cbn; lia. Qed.
Lemma peek_size s c s' : peek s = (c, s') -> rest s' = rest s /\ (ok s' = true -> ok s = true).
Proof.
  unfold peek. destruct (good s) eqn:G; [destruct (rest s) eqn:R|]; intros E; injection E as <- <-; cbn; rewrite ?R; auto. split; auto. discriminate.
Qed.
Lemma get_size s c s' : get_char s = (c, s') -> size s' <= size s /\ (ok s' = true -> size s' < size s /\ s' = opened (rest s')) /\ (good s = true -> rest s <> [] -> ok s' = true).
Proof.
  unfold get_char, size. destruct (good s) eqn:G; [destruct (rest s) eqn:R|]; intros E; injection E as <- <-; cbn; rewrite ?R; cbn.
  - split; [lia|]. split; [discriminate|congruence].
  - split; [lia|]. split; [intros _; split; [lia|reflexivity]|auto].
  - split; [lia|]. split; [discriminate|discriminate].
Qed.
Lemma scan_size t n ds r : scan_integer t = (n, ds, r) -> length r <= length t /\ (ds <> [] -> length r < length t).
Proof.
  assert (K : forall t, length (drop_while is_digit t) <= length t /\ (take_while is_digit t <> [] -> length (drop_while is_digit t) < length t)).
  { clear. intros t. split; [apply drop_size|]. destruct t as [|c t]; cbn; [congruence|]. destruct (is_digit c); [|congruence]. intros _. assert (H := drop_size is_digit t). lia. }
  unfold scan_integer. destruct t as [|c t]; [intros E; injection E as <- <- <-; cbn; split; [lia|congruence]|].
  destruct (ascii_dec c "-"); [|destruct (ascii_dec c "+")]; intros E; injection E as <- <- <-.
  - destruct (K t) as [K1 K2]. cbn [length]. split; [lia|]. intros H. specialize (K2 H). lia.
  - destruct (K t) as [K1 K2]. cbn [length]. split; [lia|]. intros H. specialize (K2 H). lia.
  - apply (K (c :: t)).
Qed.
Lemma read_int_size old s v s' : read_int old s = (v, s') -> size s' <= size s /\ (ok s' = true -> size s' < size s).
Proof.
  unfold read_int. destruct (formatted s) as [t|] eqn:F.
  - assert (T : length t <= size s). { unfold formatted in F. destruct (good s); [|discriminate]. assert (H := drop_size is_space (rest s)). unfold size. destruct (drop_while is_space (rest s)); [discriminate|]. injection F as <-. exact H. }
    destruct (scan_integer t) as [[n ds] r] eqn:S. destruct (scan_size _ _ _ _ S) as [S1 S2]. destruct ds as [|d ds].
    + intros E. injection E as <- <-. cbn. split; [lia|discriminate].
    + assert (H : d :: ds <> []) by discriminate. specialize (S2 H). destruct (_ <? int_min)%Z; [|destruct (int_max <? _)%Z]; intros E; injection E as <- <-; unfold size in *; cbn [rest]; split; try lia; discriminate.
  - intros E. injection E as <- <-. unfold formatted_failure, size. destruct (good s); cbn; split; try lia; discriminate.
Qed.
Lemma skip_whitespace_total s : exists s', m_skip_whitespace s = Ok s' /\ size s' <= size s /\ (ok s = true -> ok s' = true) /\ (ok s' = true -> ok s = true).
Proof.
  destruct s as [r [|] [|]].
  - exists (Stream r true true). rewrite skip_whitespace_failed. auto.
  - exists (opened r). split; [|auto]. unfold m_skip_whitespace. cbn [rest]. replace (length r + 2) with (S (length r + 1)) by lia. reflexivity.
  - exists (Stream r false true). rewrite skip_whitespace_failed. auto.
  - exists (opened (drop_while is_blank r)). rewrite skip_whitespace_ok by discriminate. split; auto. split; auto. apply drop_size.
Qed.
Lemma identifier_loop_total fuel string s : size s < fuel -> exists string' s', identifier_loop fuel string s = Ok (string', s') /\ size s' <= size s.
Proof.
  revert string s. induction fuel as [|fuel IH]; intros string s Hf; [lia|]. cbn [identifier_loop]. destruct (ok s) eqn:O; cbn [negb]; [|eauto].
  unfold m_is_end_of_line. rewrite O. destruct (peek s) as [c1 s1] eqn:P1. destruct (peek_size _ _ _ P1) as [R1 _].
  destruct (is_char c1 carriage_return || is_char c1 newline); [do 2 eexists; split; [reflexivity|unfold size; cbn; rewrite R1; lia]|].
  unfold m_is_end_of_file. change (ok (clear s1)) with true. cbv iota. rewrite clear_opened, peek_opened, R1.
  destruct (rest s) as [|c r] eqn:R; [do 2 eexists; split; [reflexivity|unfold size; cbn; lia]|]. cbn [at_end]. rewrite clear_opened. cbn [rest]. rewrite peek_opened. cbn [at_end].
  destruct (is_char (Some c) ")"); [do 2 eexists; split; [reflexivity|unfold size; cbn; rewrite R; cbn; lia]|].
  change (Stream (c :: r) false false) with (opened (c :: r)). rewrite get_opened. destruct (IH (string ++ [c]) (opened r)) as (x & y & E & H).
  - unfold size in *. rewrite R in Hf. cbn in *. lia.
  - exists x, y. split; [exact E|]. unfold size in *. rewrite R. cbn in *. lia.
Qed.
Lemma identifier_total s : match m_identifier s with Ok (_, s') => size s' <= size s | Throw => True | UB => False end.
Proof.
  unfold m_identifier. assert (Z0 : size (snd (m_is_identifier s)) = size s).
  { unfold m_is_identifier. destruct (ok s); [|reflexivity]. destruct (peek s) as [c s'] eqn:P. destruct (peek_size _ _ _ P) as [R _]. unfold size. cbn. rewrite R. reflexivity. }
  destruct (m_is_identifier s) as [b s1]. cbn [snd] in Z0. destruct b; cbn [negb]; [|exact I].
  destruct (get_char s1) as [c2 s2] eqn:G. destruct (get_size _ _ _ G) as [Z1 _]. destruct (skip_whitespace_total s2) as (s3 & -> & Z2 & _). cbn [bind].
  destruct (identifier_loop_total (length (rest s3) + 2) [] s3) as (x & s4 & -> & Z3); [unfold size; lia|]. cbn [bind].
  destruct (peek s4) as [c5 s5] eqn:P5. destruct (peek_size _ _ _ P5) as [R5 _]. destruct (is_char c5 ")"); cbn [negb]; [|exact I].
  destruct (get_char s5) as [c6 s6] eqn:G6. destruct (get_size _ _ _ G6) as [Z6 _]. unfold size in *. rewrite R5 in Z6. lia.
Qed.
Lemma optional_identifier_total s : match m_optional_identifier s with Ok s' => size s' <= size s | Throw => True | UB => False end.
Proof.
  unfold m_optional_identifier. destruct (skip_whitespace_total s) as (s1 & -> & Z1 & _). cbn [bind].
  assert (Z0 : size (snd (m_is_identifier s1)) = size s1).
  { unfold m_is_identifier. destruct (ok s1); [|reflexivity]. destruct (peek s1) as [c s'] eqn:P. destruct (peek_size _ _ _ P) as [R _]. unfold size. cbn. rewrite R. reflexivity. }
  destruct (m_is_identifier s1) as [b s2]. cbn [snd] in Z0. destruct b.
  - assert (T := identifier_total s2). destruct (m_identifier s2) as [[x s3]| |]; cbn [bind snd]; auto. destruct (skip_whitespace_total s3) as (s4 & -> & Z4 & _). lia.
  - cbn [bind]. destruct (skip_whitespace_total s2) as (s4 & -> & Z4 & _). lia.
Qed.
(** The loop over the coordinates: without a result the stream is in failed state, otherwise something has been read. *)
Lemma vertex_loop_total fuel tmp N D s : size s < fuel ->
  match vertex_loop fuel tmp N D s with
  | Ok (N', D', s') => size s' <= size s /\ exists M M', N' = N ++ M /\ D' = D ++ M' /\ length M = length M' /\ (M = [] -> ok s' = false) /\ (M <> [] -> size s' < size s)
  | Throw => True
  | UB => False
  end.
Proof.
  revert tmp N D s. induction fuel as [|fuel IH]; intros tmp N D s Hf; [lia|]. cbn [vertex_loop].
  destruct (read_int tmp s) as [v s1] eqn:R. destruct (read_int_size _ _ _ _ R) as [Z1 Z1']. destruct (ok s1) eqn:O1; cbn [negb].
  2:{ split; auto. exists [], []. rewrite !app_nil_r. repeat split; auto; congruence. }
  specialize (Z1' eq_refl). destruct (skip_whitespace_total s1) as (s2 & -> & Z2 & _). cbn [bind]. destruct (peek s2) as [c s3] eqn:P. destruct (peek_size _ _ _ P) as [R3 _].
  assert (Z3 : size s3 = size s2) by (unfold size; congruence).
  assert (T : forall tmp' D' s4, size s4 <= size s3 -> (exists b, D' = D ++ [b]) ->
    match (do s <- m_skip_whitespace s4; let '(c, s) := peek s in if is_char c newline then Ok (N ++ [v], D', s) else vertex_loop fuel tmp' (N ++ [v]) D' s)%res with
    | Ok (N', D', s') => size s' <= size s /\ exists M M', N' = N ++ M /\ D' = D ++ M' /\ length M = length M' /\ (M = [] -> ok s' = false) /\ (M <> [] -> size s' < size s)
    | Throw => True | UB => False end).
  { intros tmp' D' s4 Z4 (b & ->). destruct (skip_whitespace_total s4) as (s5 & -> & Z5 & _). cbn [bind]. destruct (peek s5) as [c6 s6] eqn:P6. destruct (peek_size _ _ _ P6) as [R6 _].
    assert (Z6 : size s6 = size s5) by (unfold size; congruence). destruct (is_char c6 newline).
    - split; [lia|]. exists [v], [b]. split; auto. split; auto. split; auto. split; [discriminate|]. intros _. lia.
    - assert (IH' := IH tmp' (N ++ [v]) (D ++ [b]) s6 ltac:(lia)). destruct (vertex_loop fuel tmp' (N ++ [v]) (D ++ [b]) s6) as [[[N' D''] s']| |]; auto.
      destruct IH' as (A & M & M' & E1 & E2 & EL & H1 & H2). split; [lia|]. exists (v :: M), (b :: M'). rewrite E1, E2, <- !app_assoc. split; auto. split; auto. split; [cbn; lia|].
      split; [discriminate|]. intros _. lia. }
  destruct (is_char c "/").
  - destruct (get_char s3) as [c4 s4] eqn:G. destruct (get_size _ _ _ G) as [Z4 _]. destruct (read_int v s4) as [w s5] eqn:R5. destruct (read_int_size _ _ _ _ R5) as [Z5 _].
    destruct (w =? 0)%Z; [exact I|]. cbn [bind]. apply T; [lia|eauto].
  - cbn [bind]. apply T; [lia|eauto].
Qed.
Lemma vertex_total s : match m_vertex s with
  | Ok ([], s') => ok s' = false /\ size s' <= size s
  | Ok (_, s') => size s' < size s
  | Throw => True
  | UB => exists N D, length N = length D /\ N <> [] /\ (m_row_lcm (arith INT32) D = UB \/ exists l, m_row_lcm (arith INT32) D = Ok l /\ (0 < l)%Z /\ scale_numerators l N D = UB)
  end.
Proof.
  unfold m_vertex. assert (T := optional_identifier_total s). destruct (m_optional_identifier s) as [s1| |]; cbn [bind]; [|exact I|destruct T].
  assert (V := vertex_loop_total (length (rest s1) + 2) 0%Z [] [] s1 ltac:(unfold size; lia)). destruct (vertex_loop _ 0%Z [] [] s1) as [[[N D] s2]| |]; cbn [bind]; [|exact I|destruct V].
  destruct V as (Z2 & M & M' & -> & -> & EL & H1 & H2). cbn [app]. destruct M as [|x M].
  - split; [auto|lia].
  - assert (Z3 : size s2 < size s) by (assert (x :: M <> []) by discriminate; specialize (H2 H); lia).
    destruct (m_row_lcm (arith INT32) M') as [l| |] eqn:L; cbn [bind]; [|exact I|exists (x :: M), M'; split; [auto|]; split; [discriminate|auto]].
    change (a_gti (arith INT32) l 0%Z) with (l >? 0)%Z. destruct (Z.gtb_spec l 0) as [G|G].
    + destruct (scale_numerators l (x :: M) M') as [[|y N']| |] eqn:SC; cbn [bind app]; auto.
      exists (x :: M), M'. split; [auto|]. split; [discriminate|]. right. exists l. auto.
    + cbn [bind app]. auto.
Qed.
Lemma getline_size old s l s' : getline old s = (l, s') -> size s' <= size s /\ (good s = true -> size s' < size s \/ (s' = Stream [] true true)).
Proof.
  unfold getline. destruct (good s) eqn:G; [|intros E; injection E as <- <-; split; [auto|discriminate]].
  assert (K : forall t, match split_line t with (l, Some r) => length r < length t | (l, None) => l = t end).
  { induction t as [|c t IH]; cbn; auto. destruct (ascii_dec c newline); cbn; [lia|]. destruct (split_line t) as [l0 [r|]]; [lia|congruence]. }
  specialize (K (rest s)). destruct (split_line (rest s)) as [l0 [r|]].
  - destruct l0; intros E; injection E as <- <-; unfold size; cbn; split; try lia; intros _; left; lia.
  - subst l0. unfold size. destruct (rest s); intros E; injection E as <- <-; cbn; split; try lia; intros _; first [left; lia|right; reflexivity].
Qed.
Lemma section_failed conical k rows s : ok s = false -> section_loop conical (S k) rows s = Ok (Some (rows, s)).
Proof. intros H. cbn [section_loop]. rewrite H. reflexivity. Qed.
Lemma section_convex_total n : forall rows s, size s <= n -> section_loop false (n + 3) rows s <> Ok None.
Proof.
  induction n as [n IH] using lt_wf_ind. intros rows s Hn.
  destruct (ok s) eqn:O; [|replace (n + 3) with (S (n + 2)) by lia; rewrite section_failed by auto; discriminate].
  destruct (good s) eqn:G.
  - assert (Es : s = opened (rest s)). { destruct s as [r [|] [|]]; try discriminate. reflexivity. }
    replace (n + 3) with (S (n + 2)) by lia. cbn [section_loop]. rewrite O. cbn [negb]. rewrite Es. rewrite !peek_line_opened. rewrite <- Es.
    destruct (m_is_keyword _); [discriminate|].
    destruct (at_end _).
    + destruct (getline [] s) as [l s1] eqn:GL. destruct (getline_size _ _ _ _ GL) as [_ Z1]. cbn [snd]. destruct (Z1 G) as [Z2|Z2].
      * destruct n as [|n]; [lia|]. replace (S n + 2) with (n + 3) by lia. apply IH; lia.
      * subst s1. replace (n + 2) with (S (n + 1)) by lia. rewrite section_failed by reflexivity. discriminate.
    + assert (V := vertex_total s). destruct (m_vertex s) as [[row s1]| |]; cbn [bind]; try discriminate. destruct row as [|x row].
      * destruct V as [V _]. replace (n + 2) with (S (n + 1)) by lia. rewrite section_failed by auto. discriminate.
      * destruct n as [|n]; [lia|]. replace (S n + 2) with (n + 3) by lia. apply IH; lia.
  - assert (Es : s = Stream (rest s) true false). { destruct s as [r [|] [|]]; try discriminate. reflexivity. }
    rewrite Es. replace (n + 3) with (S (S (n + 1))) by lia. generalize (rest s). intros r. cbn. discriminate.
Qed.
