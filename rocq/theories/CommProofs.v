(** * CommProofs: what is read from a link is what was sent. *)
From Coq Require Import List ZArith Arith Bool Lia.
From Verif Require Import Base Spec ArithModel SafeIntModel IntTypes OutputModel FileModel CommModel.
Import ListNotations.
Open Scope Z_scope.

Lemma le_bytes_length k z : length (le_bytes k z) = k.
Proof. revert z. induction k as [|k IH]; intros z; cbn [le_bytes length]; auto. Qed.
Lemma le_value_bytes k z : le_value (le_bytes k z) = z mod 256 ^ Z.of_nat k.
Proof.
  revert z. induction k as [|k IH]; intros z.
  - cbn. symmetry. apply Z.mod_1_r.
  - cbn [le_bytes le_value]. rewrite IH, Nat2Z.inj_succ, Z.pow_succ_r by lia. rewrite Z.rem_mul_r by (try apply Z.pow_nonzero; try apply Z.pow_pos_nonneg; lia). reflexivity.
Qed.
Lemma size_ok n : Z.of_nat n < 2 ^ 64 -> size_value (size_bytes n) = n.
Proof. intros H. unfold size_value, size_bytes. rewrite le_value_bytes. change (256 ^ Z.of_nat 8) with (2 ^ 64). rewrite Z.mod_small by lia. apply Nat2Z.id. Qed.
Definition in_int (z : Z) : Prop := - 2 ^ 31 <= z < 2 ^ 31.
Lemma wrap32_small z : in_int z -> wrap_signed 32 z = z.
Proof. unfold in_int, wrap_signed. intros H. rewrite Z.mod_small; lia. Qed.
Lemma int_ok z : in_int z -> int_value (int_bytes z) = z.
Proof.
  intros H. unfold int_value, int_bytes. rewrite le_value_bytes. change (256 ^ Z.of_nat 4) with (2 ^ 32). unfold wrap_signed. change (2 ^ (32 - 1)) with (2 ^ 31). rewrite Z.add_mod_idemp_l by lia.
  unfold in_int in H. rewrite Z.mod_small; lia.
Qed.
Lemma ints_bytes_length row : length (ints_bytes row) = (4 * length row)%nat.
Proof. unfold ints_bytes. induction row as [|z row IH]; cbn [flat_map length]; auto. rewrite app_length, IH. unfold int_bytes. rewrite le_bytes_length. lia. Qed.
Lemma ints_ok row : Forall in_int row -> ints_value (length row) (ints_bytes row) = row.
Proof.
  induction 1 as [|z row Hz _ IH]; cbn [length ints_value]; auto. unfold ints_bytes in *. cbn [flat_map].
  assert (L : length (int_bytes z) = 4%nat) by (apply le_bytes_length).
  rewrite firstn_app, L, Nat.sub_diag, firstn_O, app_nil_r, <- L, firstn_all, int_ok by auto.
  rewrite skipn_app, skipn_all, L, Nat.sub_diag, skipn_O, app_nil_l, IH. reflexivity.
Qed.
Lemma ints_value_length n b : length (ints_value n b) = n.
Proof. revert b. induction n as [|n IH]; intros b; cbn [ints_value length]; auto. Qed.
Lemma count_ok n : Z.of_nat n < 2 ^ 29 -> byte_count n = 4 * Z.of_nat n.
Proof. intros H. unfold byte_count. apply wrap32_small. unfold in_int. lia. Qed.

(** ** A matrix that can be sent. *)
Definition sendable (t : int_type) (M : list vec) : Prop :=
  M <> [] /\ Z.of_nat (length M) < 2 ^ 64 /\ exists n, (0 < n)%nat /\ Z.of_nat n < 2 ^ 29 /\ Forall (fun row => length row = n /\ Forall (fun z => representable t z /\ in_int z) row) M.
Lemma to_int_ok t z : in_int z -> m_to_int t z = Ok z.
Proof.
  intros H. unfold in_int in H. destruct t; cbn [m_to_int]; auto; [f_equal; apply wrap32_small; auto|]. unfold si_to_int, int_max, int_min. change (2 ^ (32 - 1)) with (2 ^ 31).
  destruct (Z.gtb_spec z (2 ^ 31 - 1)); [lia|]. destruct (Z.ltb_spec z (- 2 ^ 31)); [lia|]. cbn [orb]. f_equal. apply wrap32_small. auto.
Qed.
Lemma from_int_ok t z : representable t z -> m_from_int t z = z.
Proof. destruct t; cbn [m_from_int representable]; auto. unfold fits, int_min, int_max. intros H. apply andb_true_iff in H as [H1 H2]. apply Z.leb_le in H1, H2. unfold wrap_signed. change (2 ^ (16 - 1)) with 32768 in *. change (2 ^ 16) with 65536. rewrite Z.mod_small; lia. Qed.
Lemma mapM_id {A} (f : A -> res A) l : Forall (fun x => f x = Ok x) l -> mapM f l = Ok l.
Proof. induction 1 as [|x l Hx _ IH]; cbn [mapM]; auto. rewrite Hx. cbn [bind]. rewrite IH. reflexivity. Qed.
Lemma cast_ok t row : Forall in_int row -> m_cast t row = Ok row.
Proof. intros H. apply mapM_id. eapply Forall_impl; [|exact H]. intros z. apply to_int_ok. Qed.
Lemma send_row_ok n row : (0 < n)%nat -> Z.of_nat n < 2 ^ 29 -> length row = n -> m_send_row row (byte_count n) = Ok (ints_bytes row).
Proof.
  intros H0 Hn Hl. unfold m_send_row. destruct row as [|z row]; [cbn in Hl; lia|]. rewrite count_ok by auto. destruct (Z.ltb_spec (4 * Z.of_nat n) 0); [lia|]. rewrite Hl. destruct (Z.ltb_spec (4 * Z.of_nat n) (4 * Z.of_nat n)); [lia|].
  f_equal. apply firstn_all2. rewrite ints_bytes_length, Hl. lia.
Qed.
Lemma mapM_map {A B} (f : A -> res B) g l : Forall (fun x => f x = Ok (g x)) l -> mapM f l = Ok (map g l).
Proof. induction 1 as [|x l Hx _ IH]; cbn [mapM map]; auto. rewrite Hx. cbn [bind]. rewrite IH. reflexivity. Qed.
(** The messages. *)
Definition encoding (n : nat) (M : list vec) : list (bool * message) := (true, size_bytes (length M)) :: (true, size_bytes n) :: map (fun row => (false, ints_bytes row)) M.
Lemma to_master_ok t M n : M <> [] -> (0 < n)%nat -> Z.of_nat n < 2 ^ 29 -> Forall (fun row => length row = n /\ Forall (fun z => representable t z /\ in_int z) row) M -> m_to_master t M = Ok (encoding n M).
Proof.
  intros Hne H0 Hn HM. unfold m_to_master. rewrite mapM_id.
  2:{ eapply Forall_impl; [|exact HM]. intros row (_ & H). apply cast_ok. eapply Forall_impl; [|exact H]. intros z [_ Hz]. auto. }
  cbn [bind]. unfold m_to_master_int. destruct (exists_last Hne) as (M0 & row & E). assert (B : back M = Ok row).
  { rewrite E. unfold back. destruct (M0 ++ [row]) as [|x l] eqn:E0; [destruct M0; discriminate|]. rewrite <- E0. f_equal. apply last_last. }
  change (@back vec M = @Ok vec row) in B. rewrite B. cbn [bind]. assert (L : length row = n). { rewrite Forall_forall in HM. apply HM. rewrite E. apply in_app_iff. right. left. auto. }
  rewrite L, (mapM_map _ ints_bytes). { cbn [bind]. unfold encoding. rewrite map_map. reflexivity. }
  eapply Forall_impl; [|exact HM]. intros r [Hr _]. apply send_row_ok; auto.
Qed.

(** ** Reading it *)
(** Reading the messages [xs] from [r] yields the matrix [M]. *)
Inductive yields : reader -> list message -> list vec -> Prop :=
| yields_last r x M : r <> Idle -> r <> Failed -> r <> Undefined -> m_read r x = (Idle, Some M) -> yields r [x] M
| yields_more r x r' xs M : r <> Idle -> r <> Failed -> r <> Undefined -> m_read r x = (r', None) -> yields r' xs M -> yields r (x :: xs) M.
Lemma yields_active r xs M : yields r xs M -> r <> Idle /\ r <> Failed /\ r <> Undefined.
Proof. destruct 1; auto. Qed.
Lemma receive_ok b x : Z.of_nat (length x) = b -> m_receive b x = Ok x.
Proof. intros H. unfold m_receive. destruct (Z.ltb_spec b 0); [lia|]. rewrite H, Z.eqb_refl. reflexivity. Qed.
Lemma read_row n row : (0 < n)%nat -> Z.of_nat n < 2 ^ 29 -> length row = n -> Forall in_int row -> forall more rows,
  m_read (WantRow n more rows) (ints_bytes row) = match more with O => (Idle, Some (rows ++ [row])) | S m => (WantRow n m (rows ++ [row]), None) end.
Proof.
  intros H0 Hn Hl HR more rows. unfold m_read. destruct (Nat.eqb_spec n 0); [lia|]. rewrite receive_ok by (rewrite count_ok, ints_bytes_length by auto; lia).
  assert (E : (length (ints_bytes row) / 4)%nat = n) by (rewrite ints_bytes_length, Nat.mul_comm, Nat.div_mul by lia; auto). rewrite E.
  assert (E2 : ints_value n (ints_bytes row) = row) by (rewrite <- Hl; apply ints_ok; auto). rewrite E2, Nat.sub_diag. cbn [repeat]. rewrite app_nil_r. reflexivity.
Qed.
Lemma yields_rows n : (0 < n)%nat -> Z.of_nat n < 2 ^ 29 -> forall M rows, M <> [] -> Forall (fun row => length row = n /\ Forall in_int row) M ->
  yields (WantRow n (length M - 1) rows) (map ints_bytes M) (rows ++ M).
Proof.
  intros H0 Hn. induction M as [|row M IH]; intros rows Hne HM; [congruence|]. apply Forall_cons_iff in HM as [[Hl Hr] HM]. cbn [map length]. rewrite Nat.sub_succ, Nat.sub_0_r. destruct M as [|row2 M].
  - apply yields_last; try discriminate. rewrite (read_row n row) by auto. reflexivity.
  - apply (yields_more _ _ (WantRow n (length (row2 :: M) - 1) (rows ++ [row]))); try discriminate.
    + rewrite (read_row n row) by auto. cbn [length]. rewrite Nat.sub_succ, Nat.sub_0_r. reflexivity.
    + assert (Y := IH (rows ++ [row]) ltac:(discriminate) HM). rewrite <- app_assoc in Y. exact Y.
Qed.
Lemma yields_encoding n M : M <> [] -> Z.of_nat (length M) < 2 ^ 64 -> (0 < n)%nat -> Z.of_nat n < 2 ^ 29 -> Forall (fun row => length row = n /\ Forall in_int row) M -> yields WantSize (map snd (encoding n M)) M.
Proof.
  intros Hne HL H0 Hn HM. unfold encoding. cbn [map snd]. rewrite map_map. cbn [snd].
  apply (yields_more _ _ (WantRowSize (length M))); try discriminate.
  - cbn [m_read]. rewrite receive_ok by (unfold size_bytes; rewrite le_bytes_length; auto). rewrite size_ok by auto. reflexivity.
  - destruct M as [|row M]; [congruence|]. apply (yields_more _ _ (WantRow n (length M) [])); try discriminate.
    + cbn [m_read length]. rewrite receive_ok by (unfold size_bytes; rewrite le_bytes_length; auto). rewrite size_ok by lia. reflexivity.
    + assert (Y := yields_rows n H0 Hn (row :: M) [] ltac:(discriminate) HM). cbn [length app] in Y. rewrite Nat.sub_succ, Nat.sub_0_r in Y. exact Y.
Qed.
Lemma sendable_ok t M : sendable t M -> exists ms, m_to_master t M = Ok ms /\ yields WantSize (map snd ms) M /\ m_cast_rows t M = M.
Proof.
  intros (Hne & HL & n & H0 & Hn & HM). exists (encoding n M). split; [apply to_master_ok; auto|]. split.
  - apply yields_encoding; auto. eapply Forall_impl; [|exact HM]. intros row [Hl Hr]. split; auto. eapply Forall_impl; [|exact Hr]. intros z [_ Hz]. auto.
  - unfold m_cast_rows. rewrite <- (map_id M) at 2. apply map_ext_in. intros row Hrow. rewrite <- (map_id row) at 2. apply map_ext_in. intros z Hz. apply from_int_ok.
    rewrite Forall_forall in HM. destruct (HM row Hrow) as [_ H]. rewrite Forall_forall in H. apply (H z Hz).
Qed.

(** ** The invariant of a link *)
(** The contents of a posted message, as far as they are still defined. *)
Definition carries (s : slot) (x : message) : Prop := match s with Copied y | Local y | Heap y => y = x | Dangling => True end.
Definition unposted (l : link) : list message := match sending l with Some ms => map snd ms | None => [] end.
(** [xs] is what is still to be read, [Ms] the matrices that will be returned. *)
Inductive expects (t : int_type) : reader -> list message -> list (list vec) -> Prop :=
| expects_idle r : r = Idle -> expects t r [] []
| expects_next r ms M xs Ms : r = Idle \/ r = WantSize -> yields WantSize ms M -> m_cast_rows t M = M -> expects t Idle xs Ms -> expects t r (ms ++ xs) (M :: Ms)
| expects_middle r ms M xs Ms : yields r ms M -> m_cast_rows t M = M -> expects t Idle xs Ms -> expects t r (ms ++ xs) (M :: Ms).
Record invariant (t : int_type) (l : link) : Prop := {
  inv_stream : exists xs Ms, Forall2 carries (pipe l) xs /\ expects t (reading l) (xs ++ unposted l) Ms /\ got l ++ Ms = sent l }.
Definition broken (l : link) : Prop := reading l = Undefined /\ exists Ms, got l ++ Ms = sent l.

Lemma expects_extend t r xs Ms ms M : yields WantSize ms M -> m_cast_rows t M = M -> expects t r xs Ms -> expects t r (xs ++ ms) (Ms ++ [M]).
Proof.
  intros HY HC H. induction H as [r Hr|r ms0 M0 xs Ms Hr H1 H2 H3 IH|r ms0 M0 xs Ms H1 H2 H3 IH].
  - cbn [app]. rewrite <- (app_nil_r ms). apply expects_next; auto. constructor. auto.
  - rewrite <- app_assoc. cbn [app]. apply expects_next; auto.
  - rewrite <- app_assoc. cbn [app]. apply expects_middle; auto.
Qed.
Lemma yields_nonempty r xs M : yields r xs M -> xs <> [].
Proof. destruct 1; discriminate. Qed.
Lemma expects_probe t xs Ms : expects t Idle xs Ms -> xs <> [] -> expects t WantSize xs Ms.
Proof.
  intros H Hne. inversion H as [r Hr|r ms M xs0 Ms0 Hr H1 H2 H3|r ms M xs0 Ms0 H1 H2 H3]; subst; [congruence|apply expects_next; auto|].
  apply yields_active in H1 as (K & _). congruence.
Qed.
(** A defined receive. *)
Lemma expects_read t r x xs Ms G : r <> Idle -> expects t r (x :: xs) Ms -> exists Ms', expects t (fst (m_read r x)) xs Ms' /\ after_read t (m_read r x) G ++ Ms' = G ++ Ms.
Proof.
  intros Hr H. inversion H as [r0 E|r0 ms M xs0 Ms0 Hr0 H1 H2 H3 E1 E2|r0 ms M xs0 Ms0 H1 H2 H3 E1 E2]; subst.
  - assert (HW : r = WantSize) by (destruct Hr0; congruence). subst r. inversion H1 as [r0 y M1 _ _ _ Y E3|r0 y r' ys M1 _ _ _ Y1 Y2 E3]; subst; match goal with E1 : _ ++ _ = _ :: _ |- _ => cbn [app] in E1; injection E1 as -> <- end; rewrite ?Y, ?Y1.
    + exists Ms0. cbn [fst]. split; auto. unfold after_read. cbn [snd]. rewrite H2, <- app_assoc. reflexivity.
    + exists (M :: Ms0). cbn [fst]. split; auto. apply expects_middle; auto.
  - inversion H1 as [r0 y M1 _ _ _ Y E3|r0 y r' ys M1 _ _ _ Y1 Y2 E3]; subst; match goal with E1 : _ ++ _ = _ :: _ |- _ => cbn [app] in E1; injection E1 as -> <- end; rewrite ?Y, ?Y1.
    + exists Ms0. cbn [fst]. split; auto. unfold after_read. cbn [snd]. rewrite H2, <- app_assoc. reflexivity.
    + exists (M :: Ms0). cbn [fst]. split; auto. apply expects_middle; auto.
Qed.
Lemma expects_defined t r xs Ms : expects t r xs Ms -> r <> Failed /\ r <> Undefined.
Proof.
  intros H. inversion H as [r0 E|r0 ms M xs0 Ms0 [E|E] _ _ _|r0 ms M xs0 Ms0 H1 _ _]; subst; try (split; discriminate). apply yields_active in H1 as (_ & K1 & K2). auto.
Qed.
Definition allowed (t : int_type) (e : event) : Prop := match e with Send M => sendable t M | Other => True end.
Lemma invariant_step t eager e l l' : allowed t e -> link_step t eager e l l' -> invariant t l \/ broken l -> invariant t l' \/ broken l'.
Proof.
  intros HA HS [H|H].
  - destruct H as [(xs & Ms & H1 & H2 & H3)]. destruct HS as [l M ms E1 E2|l m ms E|l E|l a s b E Hs|l E1 E2|l s p x E1 E2 E3 E4 E5|l s p E1 E2 E3 E4 E5]; unfold unposted in *; rewrite ?E, ?E1 in *.
    + left. destruct (sendable_ok t M HA) as (ms' & K1 & K2 & K3). rewrite K1 in E2. injection E2 as <-. constructor. cbn [pipe sending reading got sent]. exists xs, (Ms ++ [M]). split; auto. split.
      * rewrite app_nil_r in H2. apply expects_extend; auto.
      * rewrite app_assoc, H3. reflexivity.
    + left. constructor. cbn [pipe sending reading got sent]. exists (xs ++ [snd m]), Ms. split; [|split; auto].
      * apply Forall2_app; auto. constructor; [|constructor]. unfold slot_for. destruct eager; cbn; auto. destruct (fst m); cbn; auto.
      * unfold unposted. cbn [map] in H2. rewrite <- app_assoc. exact H2.
    + left. constructor. cbn [pipe sending reading got sent]. exists xs, Ms. split; [|split; auto]. clear - H1. induction H1 as [|s x p xs Hs _ IH]; cbn [map]; constructor; auto. destruct s; cbn in *; auto.
    + left. constructor. cbn [pipe sending reading got sent]. exists xs, Ms. split; [|split; auto]. apply Forall2_app_inv_l in H1 as (x1 & x2 & K1 & K2 & ->). apply Forall2_app; auto.
      inversion K2; subst. constructor; auto. destruct s; cbn in *; auto.
    + left. constructor. cbn [pipe sending reading got sent]. exists xs, Ms. split; auto. split; auto. apply expects_probe; auto. destruct xs; [inversion H1; congruence|discriminate].
    + left. rewrite E4 in H1. inversion H1 as [|s' x' p' xs' Hs Hp]; subst. assert (x' = x) by (destruct s; cbn in *; congruence). subst x'. cbn [app] in H2.
      destruct (expects_read t _ _ _ _ (got l) E1 H2) as (Ms' & K1 & K2). constructor. cbn [pipe sending reading got sent]. exists xs', Ms'. split; auto. split; auto. congruence.
    + right. split; [reflexivity|]. exists Ms. exact H3.
  - right. destruct H as (E & Ms & HM). destruct HS; cbn [reading got sent]; try congruence; (split; [auto|]); cbn [got sent]; try (exists Ms; assumption). exists (Ms ++ [matrix]). rewrite app_assoc, HM. reflexivity.
Qed.
Lemma invariant_run t eager es l : link_run t eager es l -> Forall (allowed t) es -> invariant t l \/ broken l.
Proof.
  induction 1 as [|es e l l' _ IH HS]; intros HA.
  - left. constructor. exists [], []. split; [constructor|]. split; [constructor; auto|reflexivity].
  - apply Forall_app in HA as [HA He]. apply (invariant_step t eager e l l'); auto. apply Forall_inv in He. auto.
Qed.
(** With [eager] nothing dangles. *)
Definition all_copied (l : link) : Prop := Forall (fun s => exists x, s = Copied x) (pipe l).
Lemma eager_copied t es l : link_run t true es l -> all_copied l.
Proof.
  unfold all_copied. induction 1 as [|es e l l' _ IH HS]; [constructor|]. destruct HS; cbn [pipe]; auto.
  - apply Forall_app. split; auto. constructor; [|constructor]. eexists. reflexivity.
  - clear - IH. induction IH as [|s p (x & ->) _ IHp]; cbn [map expired]; constructor; eauto.
  - rewrite H in IH. apply Forall_app in IH as [_ IH]. apply Forall_inv in IH as (x & ->). cbn in H0. congruence.
  - rewrite H2 in IH. apply Forall_inv_tail in IH. auto.
  - rewrite H2 in IH. apply Forall_inv_tail in IH. auto.
Qed.
Lemma eager_defined t es l : link_run t true es l -> Forall (allowed t) es -> invariant t l.
Proof.
  intros HR. remember true as eager eqn:E0. revert E0. induction HR as [|es e l l' HR IH HS]; intros E0 HA.
  - destruct (invariant_run t true [] link_start (link_nil _ _) HA) as [H|(H & _)]; [auto|discriminate].
  - subst eager. apply Forall_app in HA as [HA He]. assert (I := IH eq_refl HA). destruct (invariant_step t true e l l' (Forall_inv He) HS (or_introl I)) as [H|(H & _)]; auto. exfalso.
    destruct I as [(xs & Ms & H1 & H2 & H3)]. assert (D := expects_defined _ _ _ _ H2). destruct HS as [l M ms E1 E2|l m ms E|l E|l a s b E Hs|l E1 E2|l s p x E1 E2 E3 E4 E5|l s p E1 E2 E3 E4 E5]; cbn [reading] in H; try (destruct D; congruence).
    + rewrite E4 in H1. inversion H1 as [|s' x' p' xs' Hs Hp]; subst. assert (x' = x) by (destruct s; cbn in *; congruence). subst x'. cbn [app] in H2.
      destruct (expects_read t _ _ _ _ (got l) E1 H2) as (Ms' & K1 & _). apply expects_defined in K1 as [_ K1]. congruence.
    + assert (C := eager_copied _ _ _ HR). unfold all_copied in C. rewrite E4 in C. apply Forall_inv in C as (x & ->). discriminate.
Qed.
(** Something can happen until everything has arrived. *)
Lemma invariant_progress t eager l : invariant t l -> got l = sent l /\ pipe l = [] /\ sending l = None \/ exists l', link_step t eager Other l l'.
Proof.
  intros [(xs & Ms & H1 & H2 & H3)]. destruct (sending l) as [[|m ms]|] eqn:ES.
  - right. eexists. apply link_leave. auto.
  - right. eexists. eapply link_post. eauto.
  - destruct (pipe l) as [|s p] eqn:EP.
    + left. inversion H1; subst. unfold unposted in H2. rewrite ES in H2. cbn [app] in H2. assert (Ms = []).
      { inversion H2 as [r0 E|r0 ms M xs0 Ms0 _ H4 _ _ E1 E2|r0 ms M xs0 Ms0 H4 _ _ E1 E2]; auto; match goal with E : _ ++ _ = [] |- _ => apply app_eq_nil in E as [-> _] end; apply yields_nonempty in H4; congruence. }
      subst Ms. rewrite app_nil_r in H3. auto.
    + right. assert (D := expects_defined _ _ _ _ H2). destruct D as [D1 D2]. assert (DI : {reading l = Idle} + {reading l <> Idle}) by (destruct (reading l); [left; reflexivity|right; discriminate..]).
      destruct DI as [DI|DI]; [eexists; apply link_probe; auto; rewrite EP; discriminate|].
      destruct (contents s) as [x|] eqn:EC; eexists; [eapply link_receive|eapply link_dangling]; eauto.
Qed.
(** And only finitely much. *)
Definition weight (s : slot) : nat := match s with Local _ | Heap _ => 2 | _ => 1 end.
Definition active (r : reader) : nat := match r with Idle => 1 | _ => 0 end.
Definition rank (l : link) : nat :=
  (match sending l with Some ms => 1 + 5 * length ms | None => 0 end + 2 * list_sum (map weight (pipe l)) + active (reading l))%nat.
Lemma weight_expired p : (list_sum (map weight (map expired p)) <= list_sum (map weight p))%nat.
Proof. induction p as [|s p IH]; cbn [map list_sum]; auto. assert (weight (expired s) <= weight s)%nat by (destruct s; cbn; lia). change (weight (expired s) + list_sum (map weight (map expired p)) <= weight s + list_sum (map weight p))%nat. lia. Qed.
Lemma list_sum_cons' x l : list_sum (x :: l) = (x + list_sum l)%nat.
Proof. reflexivity. Qed.
Lemma rank_step t eager l l' : link_step t eager Other l l' -> (rank l' < rank l)%nat.
Proof.
  intros H. unfold rank. inversion H as [|l0 m ms E|l0 E|l0 a s b E Hs|l0 E1 E2|l0 s p x E1 E2 E3 E4 E5|l0 s p E1 E2 E3 E4 E5]; subst; cbn [sending pipe reading]; rewrite ?E, ?E4; rewrite ?map_app, ?list_sum_app; cbn [map]; rewrite ?list_sum_cons'; cbn [length].
  - assert (weight (slot_for eager m) <= 2)%nat by (unfold slot_for; destruct eager, (fst m); cbn; lia). change (list_sum []) with 0%nat. lia.
  - assert (W := weight_expired (pipe l)). lia.
  - assert (weight (copied s) < weight s)%nat by (destruct s; cbn in *; try congruence; lia). lia.
  - rewrite E1. cbn [active]. lia.
  - assert (1 <= weight s)%nat by (destruct s; cbn; lia). assert (active (fst (m_read (reading l) x)) <= 1)%nat by (destruct (fst _); cbn; lia). lia.
  - assert (1 <= weight s)%nat by (destruct s; cbn; lia). cbn [active]. lia.
Qed.
