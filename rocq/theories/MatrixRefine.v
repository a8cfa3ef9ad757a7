(** * MatrixRefine: the matrix operations over a sound integer type compute the exact ones. *)
From Coq Require Import List ZArith Arith Lia Bool Permutation.
From Verif Require Import Base Spec LinAlg Cone Bits ListUtil FmeCore Gauss FmePure ArithModel MatrixModel Refine.
Import ListNotations.
Open Scope Z_scope.

Lemma Forall2_impl_in {X Y} (R Q : X -> Y -> Prop) l l' :
  Forall2 R l l' -> (forall x y, In y l' -> R x y -> Q x y) -> Forall2 Q l l'.
Proof. induction 1 as [|x y l l' H _ IH]; intros HI; constructor; [apply HI; auto; left; auto|apply IH; intros; apply HI; auto; right; auto]. Qed.

Lemma Forall2_skipn {X Y} (R : X -> Y -> Prop) k l l' : Forall2 R l l' -> Forall2 R (skipn k l) (skipn k l').
Proof. intros H; revert k. induction H as [|x y l l' Hx H IH]; intros [|k]; cbn [skipn]; auto. Qed.
Lemma Forall2_firstn {X Y} (R : X -> Y -> Prop) k l l' : Forall2 R l l' -> Forall2 R (firstn k l) (firstn k l').
Proof. intros H; revert k. induction H as [|x y l l' Hx H IH]; intros [|k]; cbn [firstn]; auto. Qed.
Lemma Forall2_rev {X Y} (R : X -> Y -> Prop) l l' : Forall2 R l l' -> Forall2 R (rev l) (rev l').
Proof. induction 1 as [|x y l l' Hx H IH]; cbn [rev]; auto. apply Forall2_app; auto. Qed.

Lemma rel_mapM_in {allowT allowU} {X Y X' Y'} (R : X -> Y -> Prop) (Q : X' -> Y' -> Prop) (f : X -> res X') (g : Y -> Y') l l' :
  Forall2 R l l' -> (forall x y, In y l' -> R x y -> rel allowT allowU Q (f x) (g y)) ->
  rel allowT allowU (Forall2 Q) (mapM f l) (map g l').
Proof. intros H HI. apply rel_mapM. eapply Forall2_impl_in; eauto. Qed.

Lemma rel_mapM_same {allowT allowU} {X X' Y'} (Q : X' -> Y' -> Prop) (f : X -> res X') (g : X -> Y') l :
  (forall x, In x l -> rel allowT allowU Q (f x) (g x)) ->
  rel allowT allowU (Forall2 Q) (mapM f l) (map g l).
Proof. intros H. apply rel_mapM. apply Forall2_same. exact H. Qed.

Lemma dims_last n M : dims n M -> M <> [] -> length (last M []) = n.
Proof.
  intros H Hne. apply (dims_in n M); auto. destruct M as [|x M]; [congruence|]. clear.
  revert x. induction M as [|y M IH]; intros x; [left; reflexivity|]. right. apply IH.
Qed.

Section Ops.
  Variables (allowT allowU : bool) (A : Arith) (S : Sound allowT allowU A).
  Notation rl := (rel allowT allowU).
  Notation vr := (vr S).
  Notation rowr := (rowr S).
  Notation matr := (matr S).

  Definition mr (m n : nat) (M : list (list (num A))) (M' : list vec) : Prop := matr M M' /\ rect m n M'.

  Lemma mr_at m n M M' i j : mr m n M M' -> (i < m)%nat -> (j < n)%nat ->
    exists x, m_at A M i j = Ok x /\ vr x (mget M' i j).
  Proof.
    intros (H & Hl & Hd) Hi Hj. unfold m_at.
    destruct (get_mat _ _ A S M M' i H) as (r & E & Hr); [lia|]. rewrite E. cbn [bind].
    apply get_row; auto. rewrite (dims_in n M'); auto. apply nth_In. lia.
  Qed.

  Lemma mr_back m n M M' : mr m n M M' -> (0 < m)%nat -> exists b, back M = Ok b /\ length b = n.
  Proof.
    intros (H & Hl & Hd) Hm. destruct (back_ok rowr M M' [] H) as (b & E & Hb).
    { intros ->. cbn in Hl. lia. }
    exists b. split; auto. rewrite (rowr_len _ _ A S _ _ Hb). apply dims_last; auto. intros ->; cbn in Hl; lia.
  Qed.

  Lemma mr_len m n M M' : mr m n M M' -> length M = m.
  Proof. intros (H & Hl & _). rewrite (Forall2_length H). exact Hl. Qed.

  (** A loop that rewrites one entry of each row. *)
  Lemma mr_upd m n M M' (f : list (num A) -> res (list (num A))) (g : vec -> Z) c :
    mr m n M M' ->
    (forall r r', In r' M' -> length r' = n -> rowr r r' -> rl rowr (f r) (upd r' c (g r'))) ->
    rl (mr m n) (for_each f M) (map (fun r => upd r c (g r)) M').
  Proof.
    intros (H & R) Hf. rewrite for_each_mapM.
    apply (rel_impl _ _ matr).
    - apply (rel_mapM_in rowr rowr f (fun r => upd r c (g r))); auto. intros r r' Hin Hr. apply Hf; auto.
      eapply dims_in; [apply R|auto].
    - intros x Hx. split; auto. apply rect_map_upd; auto.
  Qed.

  (** [appendNegativeIdentityMatrix]. *)
  Lemma append_negative_identity_rel m n M M' : mr m n M M' -> (0 < m)%nat ->
    rl (mr (m + n) n) (m_append_negative_identity A M) (M' ++ neg_identity n).
  Proof.
    intros H Hm. unfold m_append_negative_identity. destruct (mr_back m n M M' H Hm) as (b & E & Hb).
    rewrite E. cbn [bind]. rewrite Hb.
    apply (rel_bind _ _ matr _ _ _ (neg_identity n)).
    - unfold neg_identity. apply rel_mapM_same. intros i Hi. apply in_seq in Hi.
      destruct (set_ok vr (repeat (a_lit A 0) n) (vzero n) i (a_lit A (-1)) (-1)) as (r & Er & Hr).
      + unfold vzero. clear. induction n as [|n IH]; cbn [repeat]; constructor; auto. apply vr_lit; auto.
      + rewrite vzero_length. lia.
      + apply vr_lit; auto.
      + rewrite Er. exact Hr.
    - intros rows Hrows. cbn [rel]. split; [apply Forall2_app; auto; apply H|].
      destruct H as (H & Hl & Hd). subst m. apply start_rect; auto.
  Qed.

  (** [normalizeColumn]. *)
  Lemma gcd_fold l a : 0 <= a -> fold_left Z.gcd l a = Z.gcd a (rgcd l).
  Proof.
    revert a. induction l as [|x l IH]; intros a Ha; cbn [fold_left rgcd fold_right].
    - rewrite Z.gcd_0_r, Z.abs_eq; auto.
    - fold (rgcd l). rewrite IH by apply Z.gcd_nonneg. rewrite Z.gcd_assoc. reflexivity.
  Qed.

  Lemma fold_left_map' {X Y Z} (f : X -> Y -> X) (h : Z -> Y) l a :
    fold_left f (map h l) a = fold_left (fun a z => f a (h z)) l a.
  Proof. revert a; induction l as [|z l IH]; intros a; cbn [map fold_left]; auto. Qed.

  Lemma colv_seq c M : colv c M = map (fun i => mget M i c) (seq 0 (length M)).
  Proof.
    unfold colv, mget. induction M as [|r M IH]; auto. cbn [map length seq]. f_equal.
    rewrite <- seq_shift, map_map. exact IH.
  Qed.

  Lemma normalize_column_rel m n M M' c : mr m n M M' -> (c < n)%nat ->
    rl (mr m n) (m_normalize_column A M c) (norm_col M' c).
  Proof.
    intros H Hc. unfold m_normalize_column, norm_col.
    apply (rel_bind _ _ vr _ _ _ (rgcd (colv c M'))).
    - apply (rel_eq _ _ _ _ (fold_left (fun g i => Z.gcd g (mget M' i c)) (seq 0 m) 0)).
      + rewrite (mr_len m n M M' H). apply rel_foldM_same; [|apply vr_lit; auto].
        intros i g g' Hi Hg. apply in_seq in Hi. destruct (mr_at m n M M' i c H) as (x & E & Hx); [lia|auto|].
        rewrite E. cbn [bind]. apply gcd_rel; auto.
      + rewrite <- (fold_left_map' Z.gcd (fun i => mget M' i c)). destruct H as (_ & <- & _). rewrite <- colv_seq.
        rewrite gcd_fold by lia. rewrite Z.gcd_0_l, Z.abs_eq by apply rgcd_nonneg. reflexivity.
    - intros g Hg. rewrite (vr_gti _ _ A S g _ Hg). rewrite Z.gtb_ltb. destruct (Z.ltb_spec 1 (rgcd (colv c M'))) as [Hlt|]; [|exact H].
      apply mr_upd; auto. intros r r' _ Hl Hr.
      destruct (get_row _ _ A S r r' c Hr) as (x & E & Hx); [lia|]. rewrite E. cbn [bind].
      apply (rel_bind _ _ vr _ _ _ (Z.quot (nth c r' 0) (rgcd (colv c M')))); [apply vr_div; auto; lia|].
      intros q Hq. destruct (set_ok vr r r' c q _ Hr ltac:(lia) Hq) as (s & Es & Hs). rewrite Es. exact Hs.
  Qed.

  (** [eliminateColumn]. *)
  Lemma eliminate_column_rel m n M M' row c e : mr m n M M' -> (row < m)%nat -> (c < n)%nat -> (e < n)%nat -> e <> c ->
    rl (mr m n) (m_eliminate_column A M row c e) (elim_col M' row c e).
  Proof.
    intros H Hrow Hc He Hne. unfold m_eliminate_column, elim_col.
    destruct (mr_at m n M M' row c H) as (x & E & Hx); auto. rewrite E. cbn [bind].
    apply (rel_bind _ _ vr _ _ _ (- mget M' row c)); [apply vr_neg; auto|]. intros a Ha.
    destruct (mr_at m n M M' row e H) as (b & Eb & Hb); auto. rewrite Eb. cbn [bind].
    apply (mr_upd m n M M' _ (fun r => nth e r 0 * - mget M' row c + nth c r 0 * mget M' row e)); auto.
    intros r r' _ Hl Hr.
    destruct (get_row _ _ A S r r' e Hr) as (y & Ey & Hy); [lia|]. rewrite Ey. cbn [bind].
    apply (rel_bind _ _ vr _ _ _ (nth e r' 0 * - mget M' row c)); [apply vr_mul; auto|]. intros e1 He1.
    destruct (set_ok vr r r' e e1 _ Hr ltac:(lia) He1) as (s & Es & Hs). rewrite Es. cbn [bind].
    destruct (get_row _ _ A S s _ c Hs) as (u & Eu & Hu); [rewrite upd_length; lia|]. rewrite Eu. cbn [bind].
    rewrite nth_upd_other in Hu by auto.
    apply (rel_bind _ _ vr _ _ _ (nth c r' 0 * mget M' row e)); [apply vr_mul; auto|]. intros p Hp.
    destruct (get_row _ _ A S s _ e Hs) as (w & Ew & Hw); [rewrite upd_length; lia|]. rewrite Ew. cbn [bind].
    rewrite nth_upd_same in Hw by lia.
    apply (rel_bind _ _ vr _ _ _ (nth e r' 0 * - mget M' row c + nth c r' 0 * mget M' row e)); [apply vr_add; auto|]. intros e2 He2.
    destruct (set_ok vr s _ e e2 _ Hs ltac:(rewrite upd_length; lia) He2) as (s2 & Es2 & Hs2). rewrite Es2. cbn [rel].
    assert (Eu2 : forall (l : vec) i x y, upd (upd l i x) i y = upd l i y).
    { induction l as [|z l IH]; intros [|i] x0 y0; cbn [upd]; auto. f_equal; auto. }
    rewrite Eu2 in Hs2. exact Hs2.
  Qed.

  (** [eliminateColumns]. *)
  Lemma eliminate_columns_rel m n M M' row c : mr m n M M' -> (row < m)%nat -> (c < n)%nat ->
    rl (mr m n) (m_eliminate_columns A M row c) (elim_cols n M' row c).
  Proof.
    intros H Hrow Hc. unfold m_eliminate_columns, elim_cols.
    destruct (mr_back m n M M' H ltac:(lia)) as (b & E & Hb). rewrite E. cbn [bind]. rewrite Hb.
    apply rel_foldM_same; auto. intros i N N' Hi HN. apply in_seq in Hi.
    destruct (mr_at m n N N' row i HN) as (x & Ex & Hx); [auto|lia|]. rewrite Ex. cbn [bind].
    rewrite (vr_eqi _ _ A S x _ 0 Hx) by auto. unfold elim_step.
    destruct (Nat.eqb_spec i c) as [->|Hne]; cbn [negb andb]; [exact HN|].
    destruct (mget N' row i =? 0); cbn [negb]; [exact HN|].
    apply (rel_bind _ _ (mr m n) _ _ _ (elim_col N' row c i)); [apply eliminate_column_rel; auto; lia|].
    intros N1 HN1. apply normalize_column_rel; auto. lia.
  Qed.

  (** [pivot]. *)
  Lemma pivot_col_eq m n M M' row used cols : mr m n M M' -> (row < m)%nat -> (forall c, In c cols -> (c < n)%nat) ->
    m_pivot_col A M row used cols =
    Ok (find (fun c => negb (mget M' row c =? 0) && negb (existsb (Nat.eqb c) used)) cols).
  Proof.
    intros H Hrow. induction cols as [|c cols IH]; intros Hc; cbn [m_pivot_col find]; auto.
    destruct (mr_at m n M M' row c H) as (x & E & Hx); [auto|apply Hc; left; auto|]. rewrite E. cbn [bind].
    rewrite (vr_eqi _ _ A S x _ 0 Hx) by auto.
    destruct (negb (mget M' row c =? 0) && negb (existsb (Nat.eqb c) used)); auto.
    apply IH. intros; apply Hc; right; auto.
  Qed.

  (** The first row from [rows] with a pivot. *)
  Fixpoint first_pivot (n : nat) (M : list vec) (used rows : list nat) : option (nat * nat) :=
    match rows with
    | [] => None
    | r :: rows' => match pivot_col n M r used with Some c => Some (r, c) | None => first_pivot n M used rows' end
    end.

  Lemma pivot_rows_eq m n M M' used rows : mr m n M M' -> (forall r, In r rows -> (r < m)%nat) ->
    m_pivot_rows A M used n rows = Ok (match first_pivot n M' used rows with Some p => p | None => (m, n) end).
  Proof.
    intros H. induction rows as [|r rows IH]; intros Hr; cbn [m_pivot_rows first_pivot].
    - rewrite (mr_len m n M M' H). reflexivity.
    - rewrite (pivot_col_eq m n M M'); [|auto|apply Hr; left; auto|intros c Hc; apply in_seq in Hc; lia].
      cbn [bind]. fold (pivot_col n M' r used). destruct (pivot_col n M' r used); auto.
      apply IH. intros; apply Hr; right; auto.
  Qed.

  Lemma first_pivot_spec n M used a k :
    match first_pivot n M used (seq a k) with
    | None => forall r, (a <= r < a + k)%nat -> pivot_col n M r used = None
    | Some (r, c) => (a <= r < a + k)%nat /\ pivot_col n M r used = Some c /\
        forall r', (a <= r' < r)%nat -> pivot_col n M r' used = None
    end.
  Proof.
    revert a. induction k as [|k IH]; intros a; cbn [seq first_pivot]; [intros; lia|].
    destruct (pivot_col n M a used) as [c|] eqn:E.
    - split; [lia|]. split; auto. intros; lia.
    - specialize (IH (Datatypes.S a)). destruct (first_pivot n M used (seq (Datatypes.S a) k)) as [(r, c)|].
      + destruct IH as (H1 & H2 & H3). split; [lia|]. split; auto. intros r' Hr'.
        destruct (Nat.eq_dec r' a) as [->|]; auto. apply H3; lia.
      + intros r Hr. destruct (Nat.eq_dec r a) as [->|]; auto. apply IH; lia.
  Qed.

  Lemma gauss_rows_none n M piv a k : (forall r, (a <= r < a + k)%nat -> pivot_col n M r (map snd piv) = None) ->
    fold_left (gauss_row n) (seq a k) (M, piv) = (M, piv).
  Proof.
    revert a. induction k as [|k IH]; intros a H; cbn [seq fold_left]; auto.
    unfold gauss_row at 2. rewrite H by lia. apply IH. intros; apply H; lia.
  Qed.

  Lemma gauss_loop_rel m n t fuel : forall row M M' piv, mr m n M M' -> (row <= m)%nat -> (m - row <= fuel)%nat -> (0 < m)%nat ->
    rl (fun q s => mr m n (fst (fst q)) (fst s) /\ snd (fst q) = eq_columns t (snd s) /\ snd q = used_rows t (snd s))
       (m_gauss_loop A fuel t row M (map snd piv) (eq_columns t piv) (used_rows t piv))
       (fold_left (gauss_row n) (seq row (m - row)) (M', piv)).
  Proof.
    induction fuel as [|fuel IH]; intros row M M' piv H Hrow Hf Hm; cbn [m_gauss_loop].
    - replace (m - row)%nat with 0%nat by lia. cbn [seq fold_left rel fst snd]. auto.
    - rewrite (mr_len m n M M' H). destruct (Nat.ltb_spec row m) as [Hlt|Hge].
      2:{ replace (m - row)%nat with 0%nat by lia. cbn [seq fold_left rel fst snd]. auto. }
      unfold m_pivot. destruct (mr_back m n M M' H ltac:(lia)) as (b & E & Hb). rewrite E. cbn [bind]. rewrite Hb.
      rewrite (mr_len m n M M' H). rewrite (pivot_rows_eq m n M M'); [|auto|intros r Hr; apply in_seq in Hr; lia].
      cbn [bind]. assert (Hsp := first_pivot_spec n M' (map snd piv) row (m - row)).
      destruct (first_pivot n M' (map snd piv) (seq row (m - row))) as [(r, c)|].
      + destruct Hsp as (Hr & Hp & Hn). cbn [snd].
        destruct (Nat.eqb_spec r m) as [|_]; [lia|].
        assert (Hc : (c < n)%nat) by (assert (Hq := pivot_col_spec n [] M' r (map snd piv)); rewrite Hp in Hq; tauto).
        replace (seq row (m - row)) with (seq row (r - row) ++ r :: seq (Datatypes.S r) (m - Datatypes.S r)).
        2:{ change (r :: seq (Datatypes.S r) (m - Datatypes.S r)) with (seq r (Datatypes.S (m - Datatypes.S r))).
            replace r with (row + (r - row))%nat at 2 by lia. rewrite <- seq_app. f_equal. lia. }
        rewrite fold_left_app. rewrite gauss_rows_none by (intros r' Hr'; apply Hn; lia). cbn [fold_left].
        unfold gauss_row at 2. rewrite Hp.
        apply (rel_bind _ _ (mr m n) _ _ _ (elim_cols n M' r c)); [apply eliminate_columns_rel; auto; lia|].
        intros M1 HM1.
        replace (map snd piv ++ [c]) with (map snd (piv ++ [(r, c)])) by (rewrite map_app; reflexivity).
        assert (E1 : eq_columns t (piv ++ [(r, c)]) = eq_columns t piv ++ (if (t <=? r)%nat then [c] else [])).
        { unfold eq_columns. rewrite filter_app, map_app. cbn [filter fst]. destruct (t <=? r)%nat; reflexivity. }
        assert (E2 : used_rows t (piv ++ [(r, c)]) = used_rows t piv ++ (if (r <? t)%nat then [r] else [])).
        { unfold used_rows. rewrite filter_app, map_app. cbn [filter fst]. destruct (r <? t)%nat; reflexivity. }
        specialize (IH (Datatypes.S r) M1 (elim_cols n M' r c) (piv ++ [(r, c)]) HM1 ltac:(lia) ltac:(lia) Hm).
        rewrite E1, E2 in IH.
        destruct (Nat.leb_spec t r), (Nat.ltb_spec r t); try lia; rewrite ?app_nil_r in IH; exact IH.
      + cbn [snd]. rewrite Nat.eqb_refl. rewrite gauss_rows_none by (intros; apply Hsp; lia). cbn [rel fst snd]. auto.
  Qed.

  (** The sign loop. *)
  Lemma find_nonzero_eq n M M' c : matr M M' -> dims n M' -> (c < n)%nat ->
    match find (fun r => negb (nth c r 0 =? 0)) M' with
    | Some r' => exists r, m_find_nonzero A M c = Ok r /\ rowr r r' /\ length r' = n
    | None => True
    end.
  Proof.
    intros H Hd Hc. induction H as [|r r' M M' Hr H IH]; cbn [find m_find_nonzero]; auto.
    inversion Hd as [|? ? Hl Hd']; subst.
    destruct (get_row _ _ A S r r' c Hr) as (x & E & Hx); [lia|]. rewrite E. cbn [bind].
    rewrite (vr_eqi _ _ A S x _ 0 Hx) by auto. destruct (nth c r' 0 =? 0); cbn [negb].
    - apply IH; auto.
    - exists r. auto.
  Qed.

  Lemma sign_column_rel m n M M' c : mr m n M M' -> (c < n)%nat ->
    find (fun r => negb (nth c r 0 =? 0)) M' <> None ->
    rl (mr m n) (m_sign_column A M c) (sign_col M' c).
  Proof.
    intros H Hc Hf. unfold m_sign_column, sign_col.
    assert (Hq := find_nonzero_eq n M M' c (proj1 H) (proj2 (proj2 H)) Hc).
    destruct (find (fun r => negb (nth c r 0 =? 0)) M') as [p'|]; [|congruence].
    destruct Hq as (p & E & Hp & Hpl). rewrite E. cbn [bind].
    destruct (get_row _ _ A S p p' c Hp) as (e & Ee & He); [lia|]. rewrite Ee. cbn [bind].
    rewrite (vr_lti _ _ A S e _ He). destruct (nth c p' 0 <? 0); [|exact H].
    apply (mr_upd m n M M' _ (fun r => nth c r 0 * -1)); auto. intros r r' _ Hl Hr.
    destruct (get_row _ _ A S r r' c Hr) as (x & Ex & Hx); [lia|]. rewrite Ex. cbn [bind].
    apply (rel_bind _ _ vr _ _ _ (nth c r' 0 * -1)); [apply vr_mul; auto; apply vr_lit; auto|]. intros y Hy.
    destruct (set_ok vr r r' c y _ Hr ltac:(lia) Hy) as (s & Es & Hs). rewrite Es. exact Hs.
  Qed.

  Lemma sign_find n V M c : cinv n V M -> (c < n)%nat -> find (fun r => negb (nth c r 0 =? 0)) M <> None.
  Proof.
    intros C Hc Hf. assert (Hg := c_gcd n V M C c Hc).
    assert (Hz : colv c M = vzero (length (colv c M))).
    { apply (vec_ext_nth (length (colv c M))); auto using vzero_length. intros j Hj. rewrite nth_vzero.
      rewrite colv_length in Hj. rewrite <- mget_colv by auto.
      assert (Hn := find_none _ _ Hf (nth j M []) (nth_In _ _ Hj)). cbn beta in Hn. unfold mget.
      destruct (Z.eqb_spec (nth c (nth j M []) 0) 0); auto; discriminate. }
    apply rgcd_0 in Hz. lia.
  Qed.

  (** [gaussianElimination] on the matrix with the appended identity. *)
  Lemma gaussian_elimination_rel n V' M : dims n V' -> (0 < length V')%nat -> mr (length V' + n) n M (V' ++ neg_identity n) ->
    rl (fun q s => mr (length V' + n) n (fst (fst q)) (fst s) /\ snd (fst q) = eq_columns (length V') (snd s) /\
                   snd q = used_rows (length V') (snd s))
       (m_gaussian_elimination A M) (gauss n V').
  Proof.
    intros HV Hne H. unfold m_gaussian_elimination.
    destruct (mr_back _ n M _ H ltac:(lia)) as (b & E & Hb). rewrite E. cbn [bind]. rewrite Hb, (mr_len _ _ _ _ H).
    destruct (Nat.ltb_spec (length V' + n) n); [lia|].
    replace (length V' + n - n)%nat with (length V') by lia.
    assert (G := gauss_loop_inv n V' HV (length V' + n) (le_n _)). cbn zeta in G.
    unfold gauss.
    assert (HL := gauss_loop_rel (length V' + n) n (length V') (length V' + n) 0 M _ [] H ltac:(lia) ltac:(lia) ltac:(lia)).
    rewrite Nat.sub_0_r in HL. cbn [map eq_columns used_rows filter] in HL.
    destruct (fold_left (gauss_row n) (seq 0 (length V' + n)) (V' ++ neg_identity n, [])) as (M1', piv). cbn [fst snd] in *.
    eapply rel_bind; [exact HL|]. intros ((M1, L), Tr) (H1 & H2 & H3). cbn [fst snd] in *.
    apply (rel_bind _ _ (fun N N' => mr (length V' + n) n N N' /\ cinv n V' N') _ _ _ (fold_left sign_col (seq 0 n) M1')).
    - apply rel_foldM_same; [|split; auto; apply (g_c _ _ _ _ _ G)].
      intros c N N' Hc (HN & C). apply in_seq in Hc.
      apply (rel_impl _ _ (mr (length V' + n) n)).
      + apply sign_column_rel; auto; [lia|]. eapply sign_find; eauto; lia.
      + intros x Hx. split; auto. apply (sign_col_spec n V'); auto; lia.
    - intros M2 (HM2 & _). cbn [rel fst snd]. auto.
  Qed.

  (** [transpose]. *)
  Lemma transpose_rel m n M M' : mr m n M M' -> (0 < m)%nat -> rl (mr n m) (m_transpose A M) (transpose n M').
  Proof.
    intros H Hm. unfold m_transpose. destruct (mr_back _ n M _ H Hm) as (b & E & Hb). rewrite E. cbn [bind]. rewrite Hb, (mr_len _ _ _ _ H).
    unfold transpose. apply (rel_impl _ _ matr).
    - apply rel_mapM_same. intros i Hi. apply in_seq in Hi.
      apply (rel_eq _ _ _ _ (map (fun j => mget M' j i) (seq 0 m))).
      + apply rel_mapM_same. intros j Hj. apply in_seq in Hj.
        destruct (mr_at m n M M' j i H) as (x & Ex & Hx); [lia|lia|]. rewrite Ex. exact Hx.
      + destruct H as (_ & <- & _). symmetry. apply colv_seq.
    - intros x Hx. split; auto. split; [rewrite map_length, seq_length; auto|]. apply Forall_forall. intros v Hv.
      apply in_map_iff in Hv. destruct Hv as (j & <- & _). rewrite colv_length. apply H.
  Qed.

  (** [extractEquations(matrix, indices)]. *)
  Lemma swap_rel M M' i j : matr M M' -> (i < length M')%nat -> (j < length M')%nat -> 
    exists r, swapM M i j = Ok r /\ matr r (swap (A:=vec) [] M' i j).
  Proof.
    intros H Hi Hj. unfold swapM, swap.
    destruct (get_mat _ _ A S M M' i H Hi) as (x & Ex & Hx). rewrite Ex. cbn [bind].
    destruct (get_mat _ _ A S M M' j H Hj) as (y & Ey & Hy). rewrite Ey. cbn [bind].
    destruct (set_ok rowr M M' i y _ H Hi Hy) as (r & Er & Hr). rewrite Er. cbn [bind].
    destruct (set_ok rowr r _ j x _ Hr ltac:(rewrite upd_length; exact Hj) Hx) as (s & Es & Hs). eauto.
  Qed.

  Lemma swap_length {X} (d : X) l i j : length (swap d l i j) = length l.
  Proof. unfold swap. rewrite !upd_length. reflexivity. Qed.

  Lemma extract_at_rel M M' idx : matr M M' -> (forall i, In i idx -> (i < length M')%nat) -> (length idx <= length M')%nat ->
    rl (fun q s => matr (fst q) (fst s) /\ matr (snd q) (snd s)) (m_extract_equations_at A M idx) (extract_rows M' idx).
  Proof.
    intros H Hidx Hl. unfold m_extract_equations_at, extract_rows.
    set (F := fold_left _ (seq 0 (length idx)) M').
    apply (rel_bind _ _ (fun N N' => matr N N' /\ @length vec N' = length M') _ _ _ F).
    - unfold F. apply rel_foldM_same; [|split; auto]. intros i N N' Hi (HN & El). apply in_seq in Hi.
      assert (G : get idx i = Ok (nth i idx 0%nat)).
      { unfold get. rewrite (nth_error_nth' idx 0%nat) by lia. reflexivity. }
      rewrite G. cbn [bind]. rewrite (Forall2_length HN).
      destruct (Nat.ltb_spec (length N') (1 + i)); [unfold vec in *; lia|].
      destruct (swap_rel N N' (nth i idx 0%nat) (length N' - 1 - i) HN) as (r & Er & Hr).
      + rewrite El. apply Hidx. apply nth_In. lia.
      + unfold vec in *; lia.
      + rewrite Er. cbn [rel]. split; auto. rewrite swap_length. exact El.
    - intros N (HN & El). rewrite (Forall2_length HN), El.
      destruct (Nat.ltb_spec (length M') (length idx)); [lia|]. cbn [rel fst snd]. split.
      + assert (Ef : firstn (length idx) (rev F) = rev (skipn (length M' - length idx) F)).
        { rewrite firstn_rev. unfold vec in *; rewrite El. reflexivity. }
        rewrite <- Ef. apply Forall2_firstn. apply Forall2_rev. exact HN.
      + apply Forall2_firstn. exact HN.
  Qed.

  Lemma sort_desc_eq l : sort_nat_desc l = sort_desc l.
  Proof.
    reflexivity.
  Qed.

  (** The first steps of [extractEquations] and of both enumerations, up to the equations and the remaining matrix. *)
  Definition equations_rest (n : nat) (V : list vec) : list vec * list vec :=
    let '(M, piv) := gauss n V in
    extract_rows (transpose n (skipn (length V) M)) (sort_desc (eq_columns (length V) piv)).
End Ops.
