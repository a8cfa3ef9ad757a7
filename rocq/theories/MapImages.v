(** * MapImages: what is accepted as the image of a variable. *)
From Coq Require Import List ZArith Arith Bool Ascii String Lia.
From Verif Require Import Base Spec ListUtil ArithModel SafeIntModel IntTypes StreamModel StreamProofs ClassesModel InputModel InputProofs ConstraintModel ConstraintInput FileModel MapInput InputRange.
Import ListNotations.
Open Scope nat_scope.
Open Scope list_scope.

(** ** Specification *)
(** The first variable of this name. *)
Definition first_named (names : list text) (n : text) (i : nat) : Prop := nth_error names i = Some n /\ forall j, j < i -> nth_error names j <> Some n.
(** The text of a name in an image: it does not start with a sign or a digit and has no sign. *)
Definition image_name (n : text) : Prop := unsigned n /\ match n with [] => False | c :: _ => is_digit c = false end.
(** An image: terms (an optional factor and the name of a variable) and constants (integers that fit an int; a lone sign is one, too: it stands for 1 or -1), each of which ends at a sign or at the end. *)
Inductive written_image (names : list text) : text -> image -> Prop :=
| written_none : written_image names [] []
| written_variable f z n i r im : factor_text f z -> image_name n -> first_named names n i -> next_sign r -> written_image names r im -> written_image names (f ++ n ++ r) ((i, z) :: im)
| written_constant f z r im : factor_text f z -> f <> [] -> next_sign r -> written_image names r im -> written_image names (f ++ r) ((length names, z) :: im).

(** ** Proofs *)
Definition factor_shape (f : text) : Prop := f = [] \/ f = lit "+" \/ f = lit "-" \/ exists z, integer_text f z.
Lemma to_int_shape f : factor_shape f -> (forall z, m_to_int f = Ok z <-> factor_text f z) /\ m_to_int f <> UB.
Proof.
  intros HS. assert (C : forall z, m_to_int f = Ok z -> factor_text f z).
  { intros z E. destruct HS as [->|[->|[->|(x & Hx)]]].
    - injection E as <-. constructor.
    - injection E as <-. constructor.
    - injection E as <-. constructor.
    - unfold m_to_int in E. assert (R := read_int_gen [] f x [] 0%Z (Forall_nil _) Hx I). cbn [app] in R. rewrite app_nil_r in R. rewrite R in E. clear R.
      destruct (at_end f || text_eqb f (lit "+")) eqn:E1.
      { apply orb_true_iff in E1 as [E1|E1]; [destruct f; [injection E as <-; constructor|discriminate]|]. destruct (text_eqb_spec f (lit "+")); [|discriminate]. subst f. injection E as <-. constructor. }
      destruct (text_eqb_spec f (lit "-")) as [->|_]; [injection E as <-; constructor|]. unfold ok in E. cbn [failbit negb] in E.
      destruct ((int_min <=? x)%Z && (x <=? int_max)%Z) eqn:B; cbn [negb] in E; [|discriminate]. apply andb_true_iff in B as [B1 B2]. apply Z.leb_le in B1, B2.
      injection E as E. assert (x = z) by (rewrite <- E; unfold clamp; destruct (Z.ltb_spec x int_min); [lia|]; destruct (Z.ltb_spec int_max x); lia). clear E; rewrite <- H.
      apply factor_integer; [exact Hx|split; assumption]. }
  split; [intros z; split; [apply C|apply to_int_factor]|].
  unfold m_to_int. destruct (at_end f || text_eqb f (lit "+")); [discriminate|]. destruct (text_eqb f (lit "-")); [discriminate|]. destruct (read_int 0 (opened f)) as [z s]. destruct (negb (ok s)); discriminate.
Qed.
Lemma digits_take t : digits (take_while is_digit t).
Proof. induction t as [|c t IH]; [constructor|]. cbn. destruct (is_digit c) eqn:E; [constructor; auto|constructor]. Qed.
Lemma stops_drop p t : stops p (drop_while p t).
Proof. induction t as [|c t IH]; [exact I|]. cbn. destruct (p c) eqn:E; [exact IH|cbn; exact E]. Qed.
Lemma take_drop_while p (t : text) : t = take_while p t ++ drop_while p t.
Proof. induction t as [|c t IH]; [reflexivity|]. cbn. destruct (p c); [cbn; congruence|reflexivity]. Qed.
Lemma forall_take p t : Forall (fun c => p c = true) (take_while p t).
Proof. induction t as [|c t IH]; [constructor|]. cbn. destruct (p c) eqn:E; [constructor; auto|constructor]. Qed.
Lemma extract_factor_shape token : exists f r, token = f ++ r /\ factor_shape f /\ stops is_digit r /\ (f = [] -> stops is_factor r) /\ m_extract_factor token = (do z <- m_to_int f; Ok (z, r)).
Proof.
  destruct token as [|c t]; [exists [], []; repeat split; left; reflexivity|]. unfold m_extract_factor. destruct (is_factor c) eqn:F.
  - destruct (is_sign c) eqn:S.
    + exists (c :: take_while is_digit t), (drop_while is_digit t). split; [cbn [app]; f_equal; apply take_drop_while|]. split; [|split; [apply stops_drop|split; [discriminate|reflexivity]]].
      assert (D := digits_take t). unfold is_sign in S. destruct (take_while is_digit t) as [|d ds] eqn:T.
      * destruct (is_char_spec c "+") as [E|_]; [rewrite E; right; left; reflexivity|]. destruct (is_char_spec c "-") as [E|_]; [rewrite E; right; right; left; reflexivity|discriminate].
      * right; right; right. destruct (is_char_spec c "+") as [E|_]; [eexists; rewrite E; apply integer_plus; [discriminate|exact D]|].
        destruct (is_char_spec c "-") as [E|_]; [eexists; rewrite E; apply integer_minus; [discriminate|exact D]|discriminate].
    + assert (Hd : is_digit c = true) by (unfold is_factor in F; rewrite S in F; exact F).
      exists (take_while is_digit (c :: t)), (drop_while is_digit (c :: t)). split; [apply take_drop_while|]. split; [|split; [apply stops_drop|split; [|reflexivity]]].
      * right; right; right. eexists. apply integer_plain; [cbn; rewrite Hd; discriminate|apply digits_take].
      * cbn. rewrite Hd. discriminate.
  - exists [], (c :: t). split; [reflexivity|]. split; [left; reflexivity|]. split; [cbn; unfold is_factor in F; apply orb_false_iff in F; tauto|]. split; [intros _; exact F|reflexivity].
Qed.
Lemma extract_name_shape r : stops is_digit r -> (next_sign r /\ m_extract_name r = ([], r)) \/ (exists n r', r = n ++ r' /\ image_name n /\ next_sign r' /\ m_extract_name r = (n, r')).
Proof.
  intros Hr. destruct r as [|c r]; [left; split; [exact I|reflexivity]|]. cbn in Hr. destruct (is_sign c) eqn:S.
  - left. split; [exact S|]. cbn. unfold is_factor. rewrite S. reflexivity.
  - right. exists (take_while (fun c => negb (is_sign c)) (c :: r)), (drop_while (fun c => negb (is_sign c)) (c :: r)). split; [apply take_drop_while|]. split.
    + split; [eapply Forall_impl; [|apply forall_take]; cbv beta; intros d Hd; apply negb_true_iff in Hd; exact Hd|]. cbn. rewrite S. cbn. exact Hr.
    + split; [|unfold m_extract_name, is_factor; rewrite S, Hr; reflexivity].
      assert (D := stops_drop (fun c => negb (is_sign c)) (c :: r)). destruct (drop_while (fun c => negb (is_sign c)) (c :: r)) as [|d l]; [exact I|]. cbn in D |- *. apply negb_false_iff in D. exact D.
Qed.
Lemma find_name_first names n : match find_name n names with Some i => first_named names n i | None => forall i, nth_error names i <> Some n end.
Proof.
  induction names as [|m names IH]; [intros [|i]; discriminate|]. cbn [find_name]. destruct (text_eqb_spec m n) as [->|N].
  - split; [reflexivity|]. intros j Hj. lia.
  - destruct (find_name n names) as [i|]; cbn [option_map].
    + destruct IH as [H1 H2]. split; [exact H1|]. intros [|j] Hj; [cbn; congruence|apply H2; lia].
    + intros [|i]; cbn; [congruence|apply IH].
Qed.
Lemma first_named_unique names n i j : first_named names n i -> first_named names n j -> i = j.
Proof. intros [A1 A2] [B1 B2]. destruct (Nat.lt_trichotomy i j) as [H|[H|H]]; [destruct (B2 i H A1)|exact H|destruct (A2 j H B1)]. Qed.
Lemma image_loop_written names : forall fuel token acc, length token <= fuel ->
  image_loop fuel names acc token <> UB /\ forall im, image_loop fuel names acc token = Ok im -> exists im', im = acc ++ im' /\ written_image names token im'.
Proof.
  induction fuel as [|fuel IH]; intros token acc Hl.
  - destruct token; [|cbn in Hl; lia]. split; [discriminate|]. intros im E. injection E as <-. exists []. rewrite app_nil_r. split; [reflexivity|constructor].
  - destruct token as [|c t]; [split; [discriminate|]; intros im E; injection E as <-; exists []; rewrite app_nil_r; split; [reflexivity|constructor]|].
    destruct (extract_factor_shape (c :: t)) as (f & r & E & HS & Hr & Hn & EF). destruct (to_int_shape f HS) as [TI TU]. cbn [image_loop]. rewrite EF. destruct (m_to_int f) as [z| |]; [|split; [discriminate|discriminate]|congruence].
    cbn [bind]. assert (HF : factor_text f z) by (apply TI; reflexivity). assert (NE : f ++ r <> []) by (rewrite <- E; discriminate). rewrite E in *. clear E EF c t.
    destruct (extract_name_shape r Hr) as [[Hs EN]|(n & r' & -> & HN & Hs & EN)]; rewrite EN.
    + assert (Hf : f <> []). { destruct f as [|d f]; [|discriminate]. specialize (Hn eq_refl). destruct r as [|d r]; [exact NE|]. cbn in Hn, Hs. unfold is_factor in Hn. rewrite Hs in Hn. discriminate. }
      destruct (IH r (acc ++ [(length names, z)])) as [U K]; [rewrite app_length in Hl; destruct f; [congruence|cbn in Hl; lia]|]. split; [exact U|].
      intros im EI. destruct (K im EI) as (im' & -> & W). exists ((length names, z) :: im'). rewrite <- app_assoc. split; [reflexivity|]. apply written_constant; auto.
    + destruct n as [|d n]; [destruct HN as [_ []]|]. assert (FN := find_name_first names (d :: n)). destruct (find_name (d :: n) names) as [i|]; [|split; discriminate].
      destruct (IH r' (acc ++ [(i, z)])) as [U K]; [rewrite !app_length in Hl; cbn in Hl; lia|]. split; [exact U|].
      intros im EI. destruct (K im EI) as (im' & -> & W). exists ((i, z) :: im'). rewrite <- app_assoc. split; [reflexivity|]. apply written_variable; auto.
Qed.
Lemma image_name_extract n r : image_name n -> next_sign r -> n <> [] /\ stops is_factor (n ++ r) /\ m_extract_name (n ++ r) = (n, r).
Proof.
  intros [Hu Hn] Hr. destruct n as [|c n]; [destruct Hn|]. assert (Hc : is_factor c = false) by (unfold is_factor; rewrite (Forall_inv Hu), Hn; reflexivity).
  split; [discriminate|]. split; [exact Hc|]. change ((c :: n) ++ r) with (c :: n ++ r). cbn [m_extract_name]. rewrite Hc. change (c :: n ++ r) with ((c :: n) ++ r).
  assert (U : Forall (fun c => negb (is_sign c) = true) (c :: n)) by (eapply Forall_impl; [|exact Hu]; cbn; intros d ->; reflexivity).
  assert (R : stops (fun c => negb (is_sign c)) r) by (destruct r; cbn in *; auto; rewrite Hr; reflexivity).
  rewrite take_app, drop_app, take_stop, drop_stop, app_nil_r by auto. reflexivity.
Qed.
Lemma image_loop_complete names token im : written_image names token im -> forall fuel acc, length token <= fuel -> image_loop fuel names acc token = Ok (acc ++ im).
Proof.
  intros H. induction H as [|f z n i r im Hf HN Hi Hr HT IH|f z r im Hf Hne Hr HT IH]; intros fuel acc Hl.
  - rewrite app_nil_r. destruct fuel; reflexivity.
  - destruct (image_name_extract n r HN Hr) as (Hne & Hs & EN). destruct n as [|c n]; [congruence|]. rewrite !app_length in Hl. cbn [length] in Hl. destruct fuel as [|fuel]; [lia|].
    assert (E : exists d t, f ++ (c :: n) ++ r = d :: t) by (destruct f; cbn [app]; eexists; eexists; reflexivity).
    destruct E as (d & t & E). cbn [image_loop]. rewrite E. cbv iota. rewrite <- E. clear E.
    rewrite (extract_factor_ok f z ((c :: n) ++ r) Hf); auto.
    + cbn [bind]. rewrite EN. assert (FN := find_name_first names (c :: n)). destruct (find_name (c :: n) names) as [j|]; [|destruct (FN i (proj1 Hi))].
      rewrite (first_named_unique _ _ _ _ FN Hi). rewrite IH by lia. rewrite <- app_assoc. reflexivity.
    + cbn [app stops] in *. unfold is_factor in Hs. apply orb_false_iff in Hs. tauto.
  - destruct f as [|d p]; [congruence|]. rewrite app_length in Hl. cbn [length] in Hl. destruct fuel as [|fuel]; [lia|].
    cbn [image_loop app]. change (d :: p ++ r) with ((d :: p) ++ r). rewrite (extract_factor_ok (d :: p) z r Hf).
    + cbn [bind]. rewrite extract_name_none by auto. rewrite IH by lia. rewrite <- app_assoc. reflexivity.
    + destruct r as [|c r]; cbn in *; auto. apply sign_digit; auto.
    + discriminate.
Qed.
Lemma image_iff names token : m_image token names <> UB /\ forall im, m_image token names = Ok im <-> token <> [] /\ written_image names token im.
Proof.
  unfold m_image. destruct token as [|c t]; [split; [discriminate|]; intros im; split; [discriminate|intros [N _]; congruence]|].
  destruct (image_loop_written names (length (c :: t)) (c :: t) [] (Nat.le_refl _)) as [U K]. split; [exact U|]. intros im. split.
  - intros E. destruct (K im E) as (im' & -> & W). split; [discriminate|exact W].
  - intros [_ W]. exact (image_loop_complete names _ im W _ [] (Nat.le_refl _)).
Qed.

(** ** Maps *)
(** The text t is read as the given images, one word each, separated by white space of any kind (line ends, too); r is left over. *)
Inductive spelled (names : list text) : text -> list image -> text -> Prop :=
| spelled_end r : spelled names r [] r
| spelled_more u w t im ims r : spaces u -> w <> [] -> Forall (fun c => is_space c = false) w -> stops (fun c => negb (is_space c)) t -> written_image names w im -> spelled names t ims r -> spelled names (u ++ w ++ t) (im :: ims) r.
Lemma drop_all_spaces t : drop_while is_space t = [] -> spaces t.
Proof. induction t as [|c t IH]; [constructor|]. cbn. destruct (is_space c) eqn:E; [intros H; constructor; [exact E|apply IH; exact H]|discriminate]. Qed.
Lemma read_word_shape t : (spaces t /\ read_word [] (opened t) = ([], Stream [] true true)) \/
  exists u w r, t = u ++ w ++ r /\ spaces u /\ w <> [] /\ Forall (fun c => is_space c = false) w /\ stops (fun c => negb (is_space c)) r /\ read_word [] (opened t) = (w, Stream r (at_end r) false).
Proof.
  destruct (drop_while is_space t) as [|c t'] eqn:E.
  - left. apply drop_all_spaces in E. split; [exact E|]. apply read_word_none. exact E.
  - right. assert (S := stops_drop is_space t). rewrite E in S. cbn in S.
    exists (take_while is_space t), (take_while (fun c => negb (is_space c)) (c :: t')), (drop_while (fun c => negb (is_space c)) (c :: t')).
    assert (H1 : t = take_while is_space t ++ take_while (fun c => negb (is_space c)) (c :: t') ++ drop_while (fun c => negb (is_space c)) (c :: t')).
    { rewrite <- (take_drop_while _ (c :: t')), <- E. apply take_drop_while. }
    assert (H2 : spaces (take_while is_space t)) by apply (forall_take is_space t).
    assert (H3 : take_while (fun c => negb (is_space c)) (c :: t') <> []) by (cbn; rewrite S; discriminate).
    assert (H4 : Forall (fun c => is_space c = false) (take_while (fun c => negb (is_space c)) (c :: t'))) by (eapply Forall_impl; [|apply forall_take]; cbv beta; intros d Hd; apply negb_true_iff in Hd; exact Hd).
    assert (H5 : stops (fun c => negb (is_space c)) (drop_while (fun c => negb (is_space c)) (c :: t'))) by apply stops_drop.
    split; [exact H1|]. split; [exact H2|]. split; [exact H3|]. split; [exact H4|]. split; [exact H5|]. rewrite H1 at 1. apply read_word_ok; assumption.
Qed.
Lemma end_of_line_any r e : (e = true -> r = []) -> exists b, m_is_end_of_line (Stream r e false) = (b, opened r).
Proof. intros H. destruct e; [rewrite H by reflexivity; eexists; reflexivity|]. destruct r; eexists; reflexivity. Qed.
Lemma map_loop_spelled names : forall k done r e, (e = true -> r = []) ->
  let result := map_loop (k + 1) names (length done) (done ++ repeat [] k) (Stream r e false) in
  result <> UB /\ forall m s', result = Ok (m, s') -> exists ims r', spelled names r ims r' /\ m = done ++ ims ++ repeat [] (k - length ims) /\ length ims <= k /\ rest s' = r'.
Proof.
  assert (STOP : forall k done r s, rest s = r -> (Ok (done ++ repeat [] k, s) : res (lmap * stream)) <> UB /\ forall m s', Ok (done ++ repeat [] k, s) = Ok (m, s') -> exists ims r', spelled names r ims r' /\ m = done ++ ims ++ repeat [] (k - length ims) /\ length ims <= k /\ rest s' = r').
  { intros k done r s Hr. split; [discriminate|]. intros m s' E. injection E as <- <-. exists [], r. cbn [length app]. rewrite Nat.sub_0_r. split; [constructor|]. split; [reflexivity|]. split; [lia|exact Hr]. }
  induction k as [|k IH]; intros done r e He; cbv zeta.
  - cbn [Nat.add map_loop]. change (ok (Stream r e false)) with true. cbn [negb]. destruct (end_of_line_any r e He) as (b & EB). rewrite EB. destruct b; [apply STOP; reflexivity|]. rewrite is_end_of_file_opened. destruct (at_end r); [apply STOP; reflexivity|].
    cbn [repeat]. rewrite app_nil_r, Nat.ltb_irrefl. cbn [negb]. assert (T := STOP 0 done r (opened r) eq_refl). cbn [repeat] in T. rewrite app_nil_r in T. exact T.
  - cbn [Nat.add map_loop]. change (ok (Stream r e false)) with true. cbn [negb]. destruct (end_of_line_any r e He) as (b & EB). rewrite EB. destruct b; [apply STOP; reflexivity|]. rewrite is_end_of_file_opened. destruct (at_end r); [apply STOP; reflexivity|].
    rewrite app_length, repeat_length. destruct (Nat.ltb_spec (length done) (length done + S k)); [|lia]. cbn [negb].
    destruct (read_word_shape r) as [[_ ER]|(u & w & t & -> & Hu & Hw & Hs & Ht & ER)]; rewrite ER; [split; discriminate|].
    destruct (image_iff names w) as [U I]. destruct (m_image w names) as [im| |]; [|split; discriminate|congruence]. cbn [bind]. rewrite set_images. cbn [bind].
    destruct (IH (done ++ [im]) t (at_end t)) as [K1 K2]; [destruct t; [reflexivity|discriminate]|]. cbv zeta in K1, K2. rewrite app_length in K1, K2. cbn [length] in K1, K2. replace (length done + 1) with (S (length done)) in K1, K2 by lia.
    split; [exact K1|]. intros m s' E. destruct (K2 m s' E) as (ims & r' & S1 & -> & S2 & S3). exists (im :: ims), r'. cbn [length]. rewrite <- !app_assoc. cbn [app Nat.sub]. split; [|split; [reflexivity|split; [lia|exact S3]]].
    apply spelled_more; auto. apply I. reflexivity.
Qed.
Lemma map_spelled names t : m_map (opened t) names <> UB /\ forall m s, m_map (opened t) names = Ok (m, s) ->
  exists u t' ims, t = u ++ t' /\ blanks u /\ spelled names t' ims (rest s) /\ length ims <= length names /\ m = ims ++ repeat [] (length names - length ims).
Proof.
  unfold m_map. unfold opened at 1 2. rewrite skip_whitespace_ok by discriminate. cbn [bind].
  destruct (map_loop_spelled names (length names) [] (drop_while is_blank t) false ltac:(discriminate)) as [K1 K2]. cbv zeta in K1, K2. cbn [app length] in K1, K2. split; [exact K1|].
  intros m s E. destruct (K2 m s E) as (ims & r & S1 & -> & S2 & <-). exists (take_while is_blank t), (drop_while is_blank t), ims. split; [apply take_drop_while|]. split; [apply forall_take|]. split; [exact S1|]. split; [exact S2|reflexivity].
Qed.

(** ** Files *)
(** One image per variable of some list of n variables, not all of them empty, and the constant, whose image is itself; an image has factors that fit an int, for variables or the constant. *)
Definition shaped (m : lmap) : Prop :=
  exists n images, m = images ++ [[(n, 1%Z)]] /\ length images = n /\ (exists im, In im images /\ im <> []) /\ forall im i z, In im images -> In (i, z) im -> i <= n /\ int_range z.
Lemma factor_range f z : factor_text f z -> int_range z.
Proof. intros H. inversion H; subst; auto; split; vm_compute; discriminate. Qed.
Lemma written_range names t im : written_image names t im -> forall i z, In (i, z) im -> i <= length names /\ int_range z.
Proof.
  induction 1 as [|f z n i r im Hf HN Hi Hr HT IH|f z r im Hf Hne Hr HT IH]; intros j y Hj; [destruct Hj| |].
  - destruct Hj as [E|Hj]; [|apply IH; exact Hj]. injection E as <- <-. split; [|eapply factor_range; exact Hf]. apply Nat.lt_le_incl, nth_error_Some. rewrite (proj1 Hi). discriminate.
  - destruct Hj as [E|Hj]; [|apply IH; exact Hj]. injection E as <- <-. split; [lia|eapply factor_range; exact Hf].
Qed.
Lemma spelled_range names t ims r : spelled names t ims r -> forall im i z, In im ims -> In (i, z) im -> i <= length names /\ int_range z.
Proof.
  induction 1 as [r|u w t im ims r Hu Hw Hs Ht HW HT IH]; intros im' i z [] Hi.
  - subst im'. eapply written_range; eassumption.
  - eapply IH; eassumption.
Qed.
Lemma map_loop_any names : forall fuel index result s, length result = length names -> (forall im i z, In im result -> In (i, z) im -> i <= length names /\ int_range z) ->
  ens (fun p : lmap * stream => length (fst p) = length names /\ forall im i z, In im (fst p) -> In (i, z) im -> i <= length names /\ int_range z) (map_loop fuel names index result s).
Proof.
  induction fuel as [|fuel IH]; intros index result s HL HR; cbn [map_loop]; [exact I|]. destruct (negb (ok s)); [split; assumption|]. destruct (m_is_end_of_line s) as [b1 s1]. destruct b1; [split; assumption|].
  destruct (m_is_end_of_file s1) as [b2 s2]. destruct b2; [split; assumption|]. match goal with |- context[if negb ?b then _ else _] => destruct b end; cbn [negb]; [|split; assumption]. destruct (read_word [] s2) as [t s3].
  destruct (image_iff names t) as [_ W]. destruct (m_image t names) as [im| |]; [|exact I|exact I]. cbn [bind]. unfold ArithModel.set. match goal with |- context[if ?b then _ else _] => destruct b end; [|exact I]. cbn [bind].
  assert (U : forall (l : lmap) i x, length (ListUtil.upd l i x) = length l /\ forall y, In y (ListUtil.upd l i x) -> In y l \/ y = x).
  { clear. induction l as [|a l IHl]; intros i x; [split; [reflexivity|intros y []]|]. destruct i as [|i]; cbn [ListUtil.upd length In].
    - split; [reflexivity|]. intros y [E|Hy]; [right; congruence|left; right; exact Hy].
    - destruct (IHl i x) as [L1 L2]. split; [f_equal; exact L1|]. intros y [E|Hy]; [left; left; exact E|]. destruct (L2 y Hy) as [E|E]; [left; right; exact E|right; exact E]. }
  destruct (U result index im) as [U1 U2]. apply IH; [exact (eq_trans U1 HL)|]. intros im' i z Him Hi. destruct (U2 im' Him) as [H|H]; [eapply HR; eassumption|]. subst im'. eapply written_range; [apply (W im); reflexivity|exact Hi].
Qed.
Lemma maps_loop_shaped names fuel : forall maps s, Forall shaped maps -> ens (ensured (fun p : list lmap * stream => Forall shaped (fst p))) (maps_loop fuel names maps s).
Proof.
  induction fuel as [|fuel IH]; intros maps s H; cbn [maps_loop]; [exact I|]. destruct (negb (ok s)); [exact H|]. destruct (m_peek_line s) as [l1 s1]. destruct (m_is_keyword (m_trim l1)); [exact H|].
  destruct (m_peek_line s1) as [l2 s2]. destruct (at_end (m_trim l2)); [apply IH; auto|].
  eapply (ens_bind (fun p : lmap * stream => length (fst p) = length names /\ forall im i z, In im (fst p) -> In (i, z) im -> i <= length names /\ int_range z)).
  - unfold m_map. apply ens_skip. intros s3. apply map_loop_any; [apply repeat_length|]. intros im i z Him Hi. apply repeat_spec in Him. subst im. destruct Hi.
  - intros [m s3] [HL HR]. cbn [fst] in HL, HR. apply ens_skip. intros s4. apply ens_skip. intros s5. apply IH. destruct (negb match m with [] => true | _ => false end && negb (forallb empty_image m)) eqn:B; [|exact H].
    apply Forall_app. split; [exact H|]. constructor; [|constructor]. exists (length names), m. split; [reflexivity|]. split; [exact HL|]. split; [|exact HR].
    apply andb_true_iff in B as [_ B]. apply negb_true_iff in B. clear -B. induction m as [|im m IHm]; [discriminate|]. cbn in B. destruct im as [|p im]; [cbn in B; destruct (IHm B) as (x & Hx & N); exists x; split; [right; exact Hx|exact N]|exists (p :: im); split; [left; reflexivity|discriminate]].
Qed.
Lemma maps_shaped fuel names s : ens (ensured (fun p : list lmap * stream => Forall shaped (fst p))) (m_maps fuel names s).
Proof.
  unfold m_maps. destruct (getline [] s) as [tk s1]. destruct (negb (ok s1)); [exact I|]. destruct (negb _); [exact I|]. eapply ens_bindo; [apply maps_loop_shaped; constructor|exact I|]. intros [maps s2] H. exact H.
Qed.
Lemma ens_skipo {X Y} (Q : option Y -> Prop) (m : res (option X)) f : Q None -> (forall x, ens Q (f x)) -> ens Q (bindo m f).
Proof. intros H K. destruct m as [[x|]| |]; cbn; auto. Qed.
Lemma inner_loop_shaped check fuel : forall token d s, Forall shaped (i_maps d) -> ens (ensured (fun d => Forall shaped (i_maps d))) (inner_loop fuel check token d s).
Proof.
  induction fuel as [|fuel IH]; intros token d s H; cbn [inner_loop]; [exact I|]. destruct (negb (ok s)); [exact H|]. apply ens_skip. intros [tk s1]. destruct (negb (ok s1)); [exact H|].
  destruct (m_is_dimension tk); [apply ens_skip; intros p; apply IH; exact H|]. destruct (m_is_names tk); [apply ens_skip; intros p; apply IH; exact H|].
  destruct (m_is_maps tk); [eapply ens_bindo; [apply maps_shaped|exact I|]; intros p Hp; apply IH; exact Hp|].
  destruct (m_is_convex tk); [apply ens_skipo; [exact I|]; intros p; apply IH; exact H|].
  destruct (m_is_reduced_convex tk); [apply ens_skipo; [exact I|]; intros p; apply IH; exact H|].
  destruct (m_is_conical tk); [apply ens_skipo; [exact I|]; intros p; apply IH; exact H|].
  destruct (m_is_reduced_conical tk); [apply ens_skipo; [exact I|]; intros p; apply IH; exact H|].
  destruct (getline tk s1) as [tk2 s2]. apply IH. exact H.
Qed.
Lemma outer_loop_shaped check fuel : forall token d s, Forall shaped (o_maps d) -> ens (ensured (fun d => Forall shaped (o_maps d))) (outer_loop fuel check token d s).
Proof.
  induction fuel as [|fuel IH]; intros token d s H; cbn [outer_loop]; [exact I|]. destruct (negb (ok s)); [exact H|]. apply ens_skip. intros [tk s1]. destruct (negb (ok s1)); [exact H|].
  destruct (m_is_dimension tk); [apply ens_skip; intros p; apply IH; exact H|]. destruct (m_is_names tk); [apply ens_skip; intros p; apply IH; exact H|].
  destruct (m_is_maps tk); [eapply ens_bindo; [apply maps_shaped|exact I|]; intros p Hp; apply IH; exact Hp|].
  destruct (m_is_equations tk); [apply ens_skip; intros p; apply IH; exact H|].
  destruct (m_is_inequalities tk); [apply ens_skip; intros p; apply IH; exact H|].
  destruct (m_is_reduced_inequalities tk); [apply ens_skipo; [exact I|]; intros p; apply IH; exact H|].
  destruct (getline tk s1) as [tk2 s2]. apply IH. exact H.
Qed.
Lemma input_vertices_shaped fs fuel args : ens (ensured (fun p : list vec * list text * list lmap * list vec => Forall shaped (snd (fst p)))) (m_input_vertices fs fuel args).
Proof.
  unfold m_input_vertices. apply ens_skip. intros f. apply ens_skip. intros s. destruct (m_contains_keywords s) as [k s1]. destruct (negb k); [exact I|]. eapply ens_bindo; [apply inner_loop_shaped; constructor|exact I|]. intros d H.
  apply ens_skip. intros _. apply ens_skip. intros o. apply ens_skip. intros known. apply ens_skip. intros _. exact H.
Qed.
Lemma input_inequalities_shaped fs fuel args : ens (ensured (fun p : list vec * list text * list lmap * list vec => Forall shaped (snd (fst p)))) (m_input_inequalities fs fuel args).
Proof.
  unfold m_input_inequalities. apply ens_skip. intros f. apply ens_skip. intros s. destruct (m_contains_keywords s) as [k s1]. destruct (negb k); [exact I|]. eapply ens_bindo; [apply outer_loop_shaped; constructor|exact I|]. intros d H.
  apply ens_skip. intros _. apply ens_skip. intros pairs. apply ens_skip. intros o. apply ens_skip. intros l. apply ens_skip. intros tr. apply ens_skipo; [exact I|]. intros known. apply ens_skip. intros _. exact H.
Qed.
