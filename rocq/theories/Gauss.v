(** * Gauss: integer column elimination on the stacked matrix [V; -I] over exact integers.

    Exact-arithmetic counterpart of [gaussianElimination] (algorithm_matrix_operations.cpp 116-159, 206-285). *)
From Coq Require Import List ZArith Lia Bool Arith Permutation.
From Verif Require Import Spec LinAlg Cone ListUtil FmeCore.
Import ListNotations.
Open Scope Z_scope.

Definition mget (M : list vec) (r c : nat) : Z := nth c (nth r M []) 0.

(** Column [e] becomes [a * e + b * c] with [a = -M[row][c]], [b = M[row][e]]. *)
Definition elim_col (M : list vec) (row c e : nat) : list vec :=
  let a := - mget M row c in
  let b := mget M row e in
  map (fun r => upd r e (nth e r 0 * a + nth c r 0 * b)) M.

Definition norm_col (M : list vec) (c : nat) : list vec :=
  let g := rgcd (colv c M) in
  if 1 <? g then map (fun r => upd r c (Z.quot (nth c r 0) g)) M else M.

Definition elim_step (row c : nat) (M : list vec) (i : nat) : list vec :=
  if negb (i =? c)%nat && negb (mget M row i =? 0) then norm_col (elim_col M row c i) i else M.

Definition elim_cols (n : nat) (M : list vec) (row c : nat) : list vec :=
  fold_left (elim_step row c) (seq 0 n) M.

Definition pivot_col (n : nat) (M : list vec) (row : nat) (used : list nat) : option nat :=
  find (fun c => negb (mget M row c =? 0) && negb (existsb (Nat.eqb c) used)) (seq 0 n).

Definition gstate := (list vec * list (nat * nat))%type.

Definition gauss_row (n : nat) (s : gstate) (row : nat) : gstate :=
  let '(M, piv) := s in
  match pivot_col n M row (map snd piv) with
  | Some c => (elim_cols n M row c, piv ++ [(row, c)])
  | None => (M, piv)
  end.

Definition sign_col (M : list vec) (c : nat) : list vec :=
  match find (fun r => negb (nth c r 0 =? 0)) M with
  | Some r => if nth c r 0 <? 0 then map (fun r' => upd r' c (nth c r' 0 * -1)) M else M
  | None => M
  end.

Definition neg_identity (n : nat) : list vec := map (fun i => unit_vec n i (-1)) (seq 0 n).

(** The final stacked matrix and the pivots (row, column) in order. *)
Definition gauss (n : nat) (V : list vec) : gstate :=
  let S := V ++ neg_identity n in
  let '(M, piv) := fold_left (gauss_row n) (seq 0 (length V + n)) (S, []) in
  (fold_left sign_col (seq 0 n) M, piv).

(** ** Columns under the column operations *)
Definition rect (m n : nat) (M : list vec) : Prop := length M = m /\ dims n M.

Lemma colv_map_upd m n M e f j : rect m n M -> (e < n)%nat ->
  colv j (map (fun r => upd r e (f r)) M) = if (j =? e)%nat then map f M else colv j M.
Proof.
  intros (_ & HM) He. unfold colv. rewrite map_map.
  destruct (Nat.eqb_spec j e) as [->|Hne]; apply map_ext_in; intros r Hr.
  - apply nth_upd_same. rewrite (dims_in n M r); auto.
  - apply nth_upd_other; auto.
Qed.

Lemma rect_map_upd m n M e f : rect m n M -> rect m n (map (fun r => upd r e (f r)) M).
Proof.
  intros (Hl & HM). split; [rewrite map_length; auto|]. apply Forall_forall. intros r Hr.
  apply in_map_iff in Hr. destruct Hr as (r' & <- & Hr). rewrite upd_length. eapply dims_in; eauto.
Qed.

Lemma mget_colv M r c : (r < length M)%nat -> mget M r c = nth r (colv c M) 0.
Proof.
  unfold mget, colv. revert r. induction M as [|x M IH]; intros [|r] H; cbn [length map nth] in *; try reflexivity; try lia.
  apply IH. lia.
Qed.

Lemma map_lin2 (M : list vec) c e a b :
  map (fun r => nth e r 0 * a + nth c r 0 * b) M = vadd (vscale a (colv e M)) (vscale b (colv c M)).
Proof.
  unfold colv, vscale. induction M as [|r M IH]; cbn [map vadd]; auto. rewrite IH. f_equal. lia.
Qed.

Lemma elim_col_rect m n M row c e : rect m n M -> rect m n (elim_col M row c e).
Proof. intros; apply rect_map_upd; auto. Qed.

Lemma elim_col_colv m n M row c e j : rect m n M -> (e < n)%nat ->
  colv j (elim_col M row c e) =
  if (j =? e)%nat then vadd (vscale (- mget M row c) (colv e M)) (vscale (mget M row e) (colv c M)) else colv j M.
Proof. intros HM He. unfold elim_col. rewrite (colv_map_upd m n) by auto. rewrite map_lin2. reflexivity. Qed.

Lemma norm_col_rect m n M c : rect m n M -> rect m n (norm_col M c).
Proof. intros H. unfold norm_col. destruct (1 <? _); auto. apply rect_map_upd; auto. Qed.

Lemma norm_col_colv m n M c j : rect m n M -> (c < n)%nat ->
  colv j (norm_col M c) = if (j =? c)%nat then rnorm (colv c M) else colv j M.
Proof.
  intros HM Hc. unfold norm_col, rnorm. destruct (1 <? rgcd (colv c M)).
  - rewrite (colv_map_upd m n) by auto. destruct (j =? c)%nat; auto.
    unfold colv. rewrite map_map. reflexivity.
  - destruct (Nat.eqb_spec j c) as [->|]; auto.
Qed.

(** ** Invariants *)
Section Inv.
  Variables (n : nat) (V : list vec).
  Let t := length V.
  Hypothesis HV : dims n V.

  Definition bot (j : nat) (M : list vec) : vec := skipn t (colv j M).

  Record cinv (M : list vec) : Prop := {
    c_rect : rect (t + n) n M;
    (* the top part is determined by the bottom part *)
    c_top : forall j k, (j < n)%nat -> (k < t)%nat -> mget M k j = - dot (nth k V []) (bot j M);
    c_ker : forall x, length x = n -> (forall j, (j < n)%nat -> dot (bot j M) x = 0) -> x = vzero n;
    c_gcd : forall j, (j < n)%nat -> rgcd (colv j M) = 1
  }.

  Lemma bot_length M j : rect (t + n) n M -> length (bot j M) = n.
  Proof. intros (H & _). unfold bot. rewrite skipn_length, colv_length. lia. Qed.

  Lemma skipn_vadd k a b : skipn k (vadd a b) = vadd (skipn k a) (skipn k b).
  Proof.
    revert a b; induction k as [|k IH]; intros [|x a] [|y b]; cbn [skipn vadd]; auto.
    destruct (skipn k a); reflexivity.
  Qed.
  Lemma skipn_vscale k c a : skipn k (vscale c a) = vscale c (skipn k a).
  Proof. unfold vscale. apply skipn_map. Qed.

  Lemma bots_independent M : cinv M -> independent n (map (fun j => bot j M) (seq 0 n)).
  Proof.
    intros C. apply independent_of_kernel.
    - apply Forall_forall. intros v Hv. apply in_map_iff in Hv. destruct Hv as (j & <- & _).
      apply bot_length. apply c_rect; auto.
    - rewrite map_length, seq_length; auto.
    - intros x Hx Hv. apply (c_ker M C); auto. intros j Hj. rewrite dot_comm. apply Hv.
      apply in_map_iff. exists j; split; auto. apply in_seq; lia.
  Qed.

  (** A column operation replacing column [e] by a multiple of [a*e + b*c], [a <> 0]. *)
  Lemma colop_inv M M' e c a b f : cinv M -> rect (t + n) n M' -> (e < n)%nat -> (c < n)%nat -> c <> e ->
    a <> 0 -> f <> 0 ->
    (forall j, j <> e -> colv j M' = colv j M) ->
    vscale f (colv e M') = vadd (vscale a (colv e M)) (vscale b (colv c M)) ->
    (rgcd (colv e M') = 1 \/ rgcd (colv e M') <> 1) ->
    (forall j, (j < n)%nat -> (j <> e)%nat -> rgcd (colv j M') = 1) /\
    (forall j k, (j < n)%nat -> (k < t)%nat -> mget M' k j = - dot (nth k V []) (bot j M')) /\
    (forall x, length x = n -> (forall j, (j < n)%nat -> dot (bot j M') x = 0) -> x = vzero n).
  Proof.
    intros C R' He Hc Hce Ha Hf Hsame Hnew _.
    assert (R := c_rect M C).
    assert (Hbot : vscale f (bot e M') = vadd (vscale a (bot e M)) (vscale b (bot c M))).
    { unfold bot. rewrite <- !skipn_vscale, <- skipn_vadd. rewrite Hnew. reflexivity. }
    assert (Hbots : forall j, j <> e -> bot j M' = bot j M).
    { intros j Hj. unfold bot. rewrite Hsame; auto. }
    split; [|split].
    - intros j Hj Hje. rewrite Hsame by auto. apply (c_gcd M C); auto.
    - intros j k Hj Hk. destruct R as (Rl & Rd), R' as (Rl' & Rd').
      rewrite mget_colv by lia. destruct (Nat.eq_dec j e) as [->|Hje].
      + assert (E1 : f * nth k (colv e M') 0 = a * mget M k e + b * mget M k c).
        { rewrite <- nth_vscale, Hnew, nth_vadd, !nth_vscale by (rewrite !vscale_length, !colv_length; auto).
          rewrite !mget_colv by lia. reflexivity. }
        assert (E2 : f * dot (nth k V []) (bot e M') =
                     a * dot (nth k V []) (bot e M) + b * dot (nth k V []) (bot c M)).
        { rewrite <- dot_vscale_r, Hbot, dot_vadd_r, !dot_vscale_r; auto.
          rewrite !vscale_length, !bot_length; auto; split; auto. }
        rewrite !(c_top M C) in E1 by auto. nia.
      + rewrite Hsame by auto. rewrite <- mget_colv by lia. rewrite (c_top M C) by auto. rewrite Hbots; auto.
    - intros x Hx Hz. apply (c_ker M C); auto. intros j Hj.
      destruct (Nat.eq_dec j e) as [->|Hje].
      + assert (E : f * dot (bot e M') x = a * dot (bot e M) x + b * dot (bot c M) x).
        { rewrite <- dot_vscale_l, Hbot, dot_vadd_l, !dot_vscale_l; auto.
          rewrite !vscale_length, !bot_length; auto. }
        assert (Hzc := Hz c Hc). rewrite (Hbots c Hce) in Hzc. rewrite (Hz e He), Hzc in E. nia.
      + rewrite <- Hbots by auto. apply Hz; auto.
  Qed.

  Lemma col_nonzero M e c a b : cinv M -> (e < n)%nat -> (c < n)%nat -> c <> e -> a <> 0 ->
    vadd (vscale a (colv e M)) (vscale b (colv c M)) <> vzero (t + n).
  Proof.
    intros C He Hc Hce Ha E.
    assert (R := c_rect M C).
    assert (Hb : vadd (vscale a (bot e M)) (vscale b (bot c M)) = vzero n).
    { unfold bot. rewrite <- !skipn_vscale, <- skipn_vadd, E. unfold vzero.
      rewrite repeat_app, skipn_app, repeat_length, Nat.sub_diag. cbn [skipn].
      rewrite skipn_all2; [reflexivity|rewrite repeat_length; auto]. }
    assert (Hi := bots_independent M C).
    specialize (Hi (upd (upd (vzero n) c b) e a)).
    rewrite map_length, seq_length, !upd_length, vzero_length in Hi. specialize (Hi eq_refl).
    assert (Hcomb : lincomb n (upd (upd (vzero n) c b) e a) (map (fun j => bot j M) (seq 0 n)) = vzero n).
    { assert (Hd : dims n (map (fun j => bot j M) (seq 0 n))).
      { apply Forall_forall. intros v Hv. apply in_map_iff in Hv. destruct Hv as (j & <- & _).
        apply bot_length; auto. }
      apply (vec_ext n); auto using vzero_length, lincomb_length.
      intros x Hx. rewrite dot_vzero_l, dot_lincomb_l by auto.
      rewrite map_map.
      assert (Hlm : length (map (fun j => dot (bot j M) x) (seq 0 n)) = n) by (rewrite map_length, seq_length; auto).
      rewrite dot_upd by (rewrite ?upd_length, ?vzero_length; auto).
      rewrite dot_upd by (rewrite ?upd_length, ?vzero_length; auto).
      rewrite dot_vzero_l, nth_vzero, nth_upd_other, nth_vzero by auto.
      assert (Hnm : forall j, (j < n)%nat -> nth j (map (fun j => dot (bot j M) x) (seq 0 n)) 0 = dot (bot j M) x).
      { intros j Hj. rewrite (nth_indep _ 0 (dot (bot 0 M) x)) by lia.
        rewrite (map_nth (fun j => dot (bot j M) x)). rewrite seq_nth by auto. reflexivity. }
      rewrite !Hnm by auto.
      assert (Hx0 : dot (vadd (vscale a (bot e M)) (vscale b (bot c M))) x = 0) by (rewrite Hb; apply dot_vzero_l).
      rewrite dot_vadd_l, !dot_vscale_l in Hx0 by (rewrite !vscale_length, !bot_length; auto). lia. }
    specialize (Hi Hcomb). rewrite Forall_forall in Hi.
    assert (Hin : In a (upd (upd (vzero n) c b) e a)).
    { assert (Hn : nth e (upd (upd (vzero n) c b) e a) 0 = a).
      { apply nth_upd_same. rewrite upd_length, vzero_length; auto. }
      rewrite <- Hn at 1. apply nth_In. rewrite !upd_length, vzero_length; auto. }
    apply Ha. apply Hi; auto.
  Qed.

  (** Effect of one elimination step on columns. *)
  Lemma elim_step_spec M row c i : cinv M -> (row < t + n)%nat -> (c < n)%nat -> (i < n)%nat -> mget M row c <> 0 ->
    cinv (elim_step row c M i) /\
    (forall j, j <> i -> colv j (elim_step row c M i) = colv j M) /\
    (i = c -> colv i (elim_step row c M i) = colv i M) /\
    (i <> c -> exists f a b, f <> 0 /\ a <> 0 /\
        vscale f (colv i (elim_step row c M i)) = vadd (vscale a (colv i M)) (vscale b (colv c M)) /\
        mget (elim_step row c M i) row i = 0).
  Proof.
    intros C Hrow Hc Hi Hp. unfold elim_step. assert (R := c_rect M C).
    destruct (Nat.eqb_spec i c) as [->|Hic]; cbn [negb andb].
    { split; [exact C|]. split; [intros j _; reflexivity|]. split; [intros _; reflexivity|congruence]. }
    destruct (Z.eqb_spec (mget M row i) 0) as [Hz|Hz]; cbn [negb].
    { split; [exact C|]. split; [intros j _; reflexivity|]. split; [congruence|]. intros _.
      exists 1, 1, 0. split; [lia|]. split; [lia|]. split; [|auto].
      rewrite !vscale_1, vscale_0. rewrite vadd_vzero_r; auto. rewrite !colv_length; auto. }
    set (M1 := elim_col M row c i). set (M2 := norm_col M1 i).
    assert (R1 : rect (t + n) n M1) by (apply elim_col_rect; auto).
    assert (R2 : rect (t + n) n M2) by (apply norm_col_rect; auto).
    set (a := - mget M row c) in *. set (b := mget M row i) in *.
    assert (Hcol1 : colv i M1 = vadd (vscale a (colv i M)) (vscale b (colv c M))).
    { unfold M1. rewrite (elim_col_colv (t + n) n) by auto. rewrite Nat.eqb_refl. reflexivity. }
    assert (Hcol2 : colv i M2 = rnorm (colv i M1)).
    { unfold M2. rewrite (norm_col_colv (t + n) n) by auto. rewrite Nat.eqb_refl. reflexivity. }
    assert (Hother : forall j, j <> i -> colv j M2 = colv j M).
    { intros j Hj. unfold M2, M1. rewrite (norm_col_colv (t + n) n) by auto.
      destruct (Nat.eqb_spec j i); [congruence|]. rewrite (elim_col_colv (t + n) n) by auto.
      destruct (Nat.eqb_spec j i); [congruence|]. reflexivity. }
    assert (Hnew : vscale (rfac (colv i M1)) (colv i M2) = vadd (vscale a (colv i M)) (vscale b (colv c M))).
    { rewrite Hcol2, rnorm_spec. exact Hcol1. }
    assert (Hf : rfac (colv i M1) <> 0) by (pose proof (rfac_pos (colv i M1)); lia).
    assert (Ha : a <> 0) by (unfold a; lia).
    assert (Hnz : colv i M1 <> vzero (length (colv i M1))).
    { rewrite Hcol1 at 1. rewrite colv_length. destruct R1 as (-> & _). apply (col_nonzero M i c a b); auto. }
    assert (Hg : rgcd (colv i M2) = 1).
    { rewrite Hcol2. apply primitive_rgcd. apply rnorm_primitive; auto. }
    destruct (colop_inv M M2 i c a b (rfac (colv i M1))) as (H1 & H2 & H3); auto.
    split; [constructor; auto|].
    { intros j Hj. destruct (Nat.eq_dec j i) as [->|]; auto. }
    split; [exact Hother|]. split; [congruence|]. intros _.
    exists (rfac (colv i M1)), a, b. repeat split; auto.
    rewrite mget_colv by (destruct R2; lia).
    assert (E : rfac (colv i M1) * nth row (colv i M2) 0 = 0); [|nia].
    rewrite <- nth_vscale, Hnew, nth_vadd, !nth_vscale by (rewrite !vscale_length, !colv_length; auto).
    destruct R as (Rl & _). rewrite <- !mget_colv by lia. fold b. unfold a. lia.
  Qed.

  (** Effect of clearing a pivot row. *)
  Lemma elim_cols_spec M row c : cinv M -> (row < t + n)%nat -> (c < n)%nat -> mget M row c <> 0 ->
    cinv (elim_cols n M row c) /\
    colv c (elim_cols n M row c) = colv c M /\
    (forall i, (i < n)%nat -> i <> c -> exists f a b, f <> 0 /\ a <> 0 /\
        vscale f (colv i (elim_cols n M row c)) = vadd (vscale a (colv i M)) (vscale b (colv c M)) /\
        mget (elim_cols n M row c) row i = 0).
  Proof.
    intros C Hrow Hc Hp. unfold elim_cols.
    assert (H : forall k, (k <= n)%nat -> let M' := fold_left (elim_step row c) (seq 0 k) M in
       cinv M' /\ colv c M' = colv c M /\ (forall i, (k <= i)%nat -> colv i M' = colv i M) /\
       (forall i, (i < k)%nat -> i <> c -> exists f a b, f <> 0 /\ a <> 0 /\
          vscale f (colv i M') = vadd (vscale a (colv i M)) (vscale b (colv c M)) /\ mget M' row i = 0)).
    { induction k as [|k IH]; intros Hk; cbn zeta.
      - cbn [seq fold_left]. repeat split; auto; try apply C. intros i Hi; lia.
      - rewrite seq_S, fold_left_app. cbn [fold_left plus].
        destruct (IH ltac:(lia)) as (C' & Hcc & Hrest & Hdone).
        set (M' := fold_left (elim_step row c) (seq 0 k) M) in *.
        assert (Hlen : (row < length M')%nat) by (destruct (c_rect M' C'); lia).
        assert (Hlen0 : (row < length M)%nat) by (destruct (c_rect M C); lia).
        assert (Hp' : mget M' row c <> 0).
        { rewrite mget_colv, Hcc, <- mget_colv by auto. auto. }
        destruct (elim_step_spec M' row c k C' Hrow Hc ltac:(lia) Hp') as (C2 & Ho & Hs & Hd).
        assert (Hlen2 : (row < length (elim_step row c M' k))%nat) by (destruct (c_rect _ C2); lia).
        split; auto. split; [|split].
        + destruct (Nat.eq_dec k c) as [->|Hkc]; [rewrite Hs; auto|rewrite Ho; auto].
        + intros i Hi. rewrite Ho by lia. apply Hrest. lia.
        + intros i Hi Hic. destruct (Nat.eq_dec i k) as [->|Hik].
          * destruct (Hd Hic) as (f & a & b & Hf & Ha & E & Hz). exists f, a, b. repeat split; auto.
            rewrite E, Hcc. rewrite (Hrest k) by lia. reflexivity.
          * destruct (Hdone i ltac:(lia) Hic) as (f & a & b & Hf & Ha & E & Hz).
            exists f, a, b. repeat split; auto.
            -- rewrite Ho by auto. exact E.
            -- rewrite mget_colv in * by auto. rewrite Ho by auto. exact Hz. }
    destruct (H n (le_n _)) as (H1 & H2 & H3 & H4). repeat split; auto; apply H1.
  Qed.

  (** Echelon invariant after processing the rows below [r]. *)
  Record ginv (r : nat) (M : list vec) (piv : list (nat * nat)) : Prop := {
    g_c : cinv M;
    g_rows : forall p, In p piv -> (fst p < r)%nat;
    g_cols : forall p, In p piv -> (snd p < n)%nat;
    g_sorted : forall p1 p2 l1 l2 l3, piv = l1 ++ p1 :: l2 ++ p2 :: l3 -> (fst p1 < fst p2)%nat;
    g_nodup : NoDup (map snd piv);
    g_diag : forall p, In p piv -> mget M (fst p) (snd p) <> 0;
    g_off : forall p j, In p piv -> (j < n)%nat -> j <> snd p -> mget M (fst p) j = 0;
    g_ech : forall k j, (k < r)%nat -> (j < n)%nat ->
      (forall p, In p piv -> snd p = j -> (k < fst p)%nat) -> mget M k j = 0
  }.

  Lemma pivot_col_spec M row used :
    match pivot_col n M row used with
    | Some c => (c < n)%nat /\ mget M row c <> 0 /\ ~ In c used
    | None => forall c, (c < n)%nat -> ~ In c used -> mget M row c = 0
    end.
  Proof.
    unfold pivot_col.
    assert (Hin : forall c, existsb (Nat.eqb c) used = true <-> In c used).
    { intros c. rewrite existsb_exists. split.
      - intros (x & Hx & E). apply Nat.eqb_eq in E. subst; auto.
      - intros H. exists c; split; auto. apply Nat.eqb_refl. }
    destruct (find _ _) as [c|] eqn:F.
    - apply find_some in F. destruct F as (F1 & F2). apply in_seq in F1.
      apply andb_true_iff in F2. destruct F2 as (F2 & F3).
      apply negb_true_iff in F2. apply negb_true_iff in F3. apply Z.eqb_neq in F2.
      repeat split; auto; [lia|]. rewrite <- Hin, F3. discriminate.
    - intros c Hc Hu. assert (F' := find_none _ _ F c). cbn beta in F'.
      assert (Hs : In c (seq 0 n)) by (apply in_seq; lia). specialize (F' Hs).
      apply andb_false_iff in F'. destruct F' as [F'|F']; apply negb_false_iff in F'.
      + apply Z.eqb_eq; auto.
      + apply Hin in F'. contradiction.
  Qed.

  Lemma gauss_row_inv r M piv : (r < t + n)%nat -> ginv r M piv ->
    ginv (S r) (fst (gauss_row n (M, piv) r)) (snd (gauss_row n (M, piv) r)).
  Proof.
    intros Hr G. assert (C := g_c _ _ _ G). unfold gauss_row.
    assert (Hspec := pivot_col_spec M r (map snd piv)).
    destruct (pivot_col n M r (map snd piv)) as [c|]; cbn [fst snd].
    - destruct Hspec as (Hc & Hp & Hu).
      destruct (elim_cols_spec M r c C Hr Hc Hp) as (C' & Hcc & Hi).
      set (M' := elim_cols n M r c) in *.
      assert (Hlen : length M = (t + n)%nat) by (apply (c_rect M C)).
      assert (Hlen' : length M' = (t + n)%nat) by (apply (c_rect M' C')).
      (* entries of rows where column c vanishes *)
      assert (Hent : forall k j, (k < t + n)%nat -> (j < n)%nat -> mget M k c = 0 ->
                (mget M' k j = 0 <-> mget M k j = 0)).
      { intros k j Hk Hj Hz. destruct (Nat.eq_dec j c) as [->|Hjc].
        - rewrite !mget_colv by lia. rewrite Hcc. tauto.
        - destruct (Hi j Hj Hjc) as (f & a & b & Hf & Ha & E & _).
          assert (E' : f * mget M' k j = a * mget M k j + b * mget M k c).
          { rewrite !mget_colv by lia. rewrite <- nth_vscale, E, nth_vadd, !nth_vscale; auto.
            rewrite !vscale_length, !colv_length; auto. }
          rewrite Hz in E'. split; intros H0; rewrite H0 in E'; nia. }
      assert (Hcz : forall k, (k < r)%nat -> mget M k c = 0).
      { intros k Hk. apply (g_ech _ _ _ G); auto. intros p Hpi E. exfalso. apply Hu. apply in_map_iff. exists p; auto. }
      constructor.
      + exact C'.
      + intros p Hpi. apply in_app_iff in Hpi. destruct Hpi as [Hpi|[<-|[]]]; cbn [fst]; [|lia].
        apply (g_rows _ _ _ G) in Hpi. lia.
      + intros p Hpi. apply in_app_iff in Hpi. destruct Hpi as [Hpi|[<-|[]]]; cbn [snd]; auto.
        apply (g_cols _ _ _ G) in Hpi. lia.
      + intros p1 p2 l1 l2 l3 E.
        destruct l3 as [|q l3 _] using rev_ind.
        * replace (l1 ++ p1 :: l2 ++ [p2]) with ((l1 ++ p1 :: l2) ++ [p2]) in E by (rewrite <- app_assoc; reflexivity).
          apply app_inj_tail in E. destruct E as (E & <-). cbn [fst].
          apply (g_rows _ _ _ G). rewrite E. apply in_elt.
        * replace (l1 ++ p1 :: l2 ++ p2 :: l3 ++ [q]) with ((l1 ++ p1 :: l2 ++ p2 :: l3) ++ [q]) in E
            by (rewrite <- app_assoc; cbn [app]; rewrite <- app_assoc; reflexivity).
          apply app_inj_tail in E. destruct E as (E & _). apply (g_sorted _ _ _ G) in E. auto.
      + rewrite map_app. cbn [map snd]. apply (Permutation_NoDup (l := c :: map snd piv)).
        * apply Permutation_cons_append.
        * constructor; auto. apply (g_nodup _ _ _ G).
      + intros p Hpi. apply in_app_iff in Hpi. destruct Hpi as [Hpi|[<-|[]]]; cbn [fst snd].
        * assert (Hpr := g_rows _ _ _ G p Hpi). assert (Hpc := g_cols _ _ _ G p Hpi).
          intros H0. apply Hent in H0; auto; try lia. apply (g_diag _ _ _ G) in H0; auto.
        * rewrite mget_colv, Hcc, <- mget_colv by lia. auto.
      + intros p j Hpi Hj Hne. apply in_app_iff in Hpi. destruct Hpi as [Hpi|[<-|[]]]; cbn [fst snd] in *.
        * assert (Hpr := g_rows _ _ _ G p Hpi). apply Hent; auto; try lia. apply (g_off _ _ _ G); auto.
        * destruct (Hi j Hj Hne) as (f & a & b & Hf & Ha & E & Hz). auto.
      + intros k j Hk Hj Hpv. destruct (Nat.eq_dec k r) as [->|Hkr].
        * destruct (Nat.eq_dec j c) as [->|Hjc].
          -- specialize (Hpv (r, c)). cbn [fst snd] in Hpv. rewrite in_app_iff in Hpv. cbn [In] in Hpv.
             exfalso. assert (r < r)%nat by (apply Hpv; auto). lia.
          -- destruct (Hi j Hj Hjc) as (f & a & b & Hf & Ha & E & Hz). auto.
        * apply Hent; auto; try lia; [apply Hcz; lia|]. apply (g_ech _ _ _ G); auto; [lia|].
          intros p Hpi E. apply Hpv; auto. rewrite in_app_iff; auto.
    - constructor; try apply G.
      + intros p Hpi. apply (g_rows _ _ _ G) in Hpi. lia.
      + intros k j Hk Hj Hpv. destruct (Nat.eq_dec k r) as [->|Hkr].
        * apply Hspec; auto. intros Hin. apply in_map_iff in Hin. destruct Hin as (p & E & Hpi).
          assert (r < fst p)%nat by (apply Hpv; auto). apply (g_rows _ _ _ G) in Hpi. lia.
        * apply (g_ech _ _ _ G); auto; lia.
  Qed.

  (** ** Start *)
  Lemma nth_neg_identity k : (k < n)%nat -> nth k (neg_identity n) [] = unit_vec n k (-1).
  Proof.
    intros H. unfold neg_identity. rewrite (nth_indep _ [] (unit_vec n 0 (-1))) by (rewrite map_length, seq_length; auto).
    rewrite (map_nth (fun i => unit_vec n i (-1))). rewrite seq_nth by auto. reflexivity.
  Qed.

  Lemma start_rect : rect (t + n) n (V ++ neg_identity n).
  Proof.
    split.
    - rewrite app_length. unfold neg_identity. rewrite map_length, seq_length. reflexivity.
    - apply dims_app. split; auto. apply Forall_forall. intros v Hv. unfold neg_identity in Hv.
      apply in_map_iff in Hv. destruct Hv as (j & <- & _). apply unit_vec_length.
  Qed.

  Lemma start_bot j : (j < n)%nat -> bot j (V ++ neg_identity n) = unit_vec n j (-1).
  Proof.
    intros Hj. unfold bot, colv. rewrite map_app, skipn_app, map_length. fold t. rewrite Nat.sub_diag. cbn [skipn].
    rewrite skipn_all2 by (rewrite map_length; auto). cbn [app].
    apply (vec_ext_nth n).
    - rewrite map_length. unfold neg_identity. rewrite map_length, seq_length; auto.
    - apply unit_vec_length.
    - intros k Hk. rewrite (nth_indep _ 0 ((fun r => nth j r 0) []))
        by (rewrite map_length; unfold neg_identity; rewrite map_length, seq_length; auto).
      rewrite (map_nth (fun r => nth j r 0)). rewrite nth_neg_identity by auto.
      unfold unit_vec. rewrite !nth_upd, vzero_length.
      rewrite (Nat.eqb_sym k j). destruct (Nat.eqb_spec j k) as [->|]; cbn [andb].
      + reflexivity.
      + rewrite !nth_vzero. reflexivity.
  Qed.

  Lemma start_cinv : cinv (V ++ neg_identity n).
  Proof.
    constructor.
    - apply start_rect.
    - intros j k Hj Hk. rewrite start_bot by auto. rewrite dot_comm, dot_unit; auto.
      + unfold mget. rewrite app_nth1 by auto. lia.
      + apply (dims_in n V); auto. apply nth_In; auto.
    - intros x Hx Hz. apply (vec_ext_nth n); auto using vzero_length.
      intros j Hj. specialize (Hz j Hj). rewrite start_bot, dot_unit in Hz by auto. rewrite nth_vzero. lia.
    - intros j Hj. apply Z.divide_1_r_nonneg; [apply rgcd_nonneg|].
      assert (Hin : In (-1) (colv j (V ++ neg_identity n))).
      { assert (Hs := start_bot j Hj).
        assert (Hi : In (-1) (bot j (V ++ neg_identity n))).
        { rewrite Hs. unfold unit_vec. assert (Hn : nth j (upd (vzero n) j (-1)) 0 = -1).
          { apply nth_upd_same. rewrite vzero_length; auto. }
          rewrite <- Hn at 1. apply nth_In. rewrite upd_length, vzero_length; auto. }
        unfold bot in Hi. rewrite <- (firstn_skipn t (colv j (V ++ neg_identity n))). apply in_app_iff; auto. }
      apply rgcd_divide in Hin. apply Z.divide_opp_r in Hin. exact Hin.
  Qed.

  Lemma start_ginv : ginv 0 (V ++ neg_identity n) [].
  Proof.
    constructor.
    - apply start_cinv.
    - intros p [].
    - intros p [].
    - intros p1 p2 l1 l2 l3 E. destruct l1; discriminate.
    - constructor.
    - intros p [].
    - intros p j [].
    - intros k j Hk; lia.
  Qed.

  Lemma gauss_loop_inv : forall k, (k <= t + n)%nat ->
    let s := fold_left (gauss_row n) (seq 0 k) (V ++ neg_identity n, []) in ginv k (fst s) (snd s).
  Proof.
    induction k as [|k IH]; intros Hk; cbn zeta.
    - cbn [seq fold_left fst snd]. apply start_ginv.
    - rewrite seq_S, fold_left_app. cbn [fold_left plus]. specialize (IH ltac:(lia)). cbn zeta in IH.
      destruct (fold_left (gauss_row n) (seq 0 k) (V ++ neg_identity n, [])) as (M, piv). cbn [fst snd] in IH.
      apply gauss_row_inv; auto.
  Qed.

  (** ** Sign normalisation *)
  Lemma sign_col_spec M c : cinv M -> (c < n)%nat -> 
    cinv (sign_col M c) /\ (forall j, j <> c -> colv j (sign_col M c) = colv j M) /\
    (exists s, (s = 1 \/ s = -1) /\ colv c (sign_col M c) = vscale s (colv c M)) /\
    (exists k, (k < t + n)%nat /\ 0 < mget (sign_col M c) k c /\ forall k', (k' < k)%nat -> mget (sign_col M c) k' c = 0).
  Proof.
    intros C Hc. assert (R := c_rect M C). unfold sign_col.
    assert (Hfind : forall l : list vec, match find (fun r => negb (nth c r 0 =? 0)) l with
       | Some r => exists k, (k < length l)%nat /\ nth k l [] = r /\ nth c r 0 <> 0 /\
                     forall k', (k' < k)%nat -> nth c (nth k' l []) 0 = 0
       | None => forall r, In r l -> nth c r 0 = 0 end).
    { induction l as [|r l IH]; cbn [find]; [intros r []|].
      destruct (Z.eqb_spec (nth c r 0) 0) as [E|E]; cbn [negb].
      - destruct (find (fun r : list Z => negb (nth c r 0 =? 0)) l) as [r'|].
        + destruct IH as (k & Hk & E1 & E2 & E3). exists (S k). cbn [length nth]. repeat split; auto; [lia|].
          intros [|k'] Hk'; cbn [nth]; auto. apply E3. lia.
        + intros r' [<-|Hr]; auto.
      - exists 0%nat. cbn [length nth]. repeat split; auto; [lia|]. intros k' Hk'; lia. }
    specialize (Hfind M). destruct (find (fun r : list Z => negb (nth c r 0 =? 0)) M) as [r|].
    2:{ exfalso. assert (Hg := c_gcd M C c Hc). assert (Hz : colv c M = vzero (length (colv c M))).
        { apply (vec_ext_nth (length (colv c M))); auto using vzero_length. intros j Hj. rewrite nth_vzero.
          rewrite colv_length in Hj. rewrite <- mget_colv by auto. apply Hfind. apply nth_In; auto. }
        apply rgcd_0 in Hz. lia. }
    destruct Hfind as (k & Hk & E & Hnz & Hbef).
    assert (Hkr : mget M k c = nth c r 0) by (unfold mget; rewrite E; reflexivity).
    destruct (Z.ltb_spec (nth c r 0) 0) as [Hneg|Hpos].
    - set (M' := map (fun r' => upd r' c (nth c r' 0 * -1)) M).
      assert (R' : rect (t + n) n M') by (apply rect_map_upd; auto).
      assert (Hcol : colv c M' = vscale (-1) (colv c M)).
      { unfold M'. rewrite (colv_map_upd (t + n) n) by auto. rewrite Nat.eqb_refl. unfold vscale, colv.
        rewrite map_map. apply map_ext. intros; lia. }
      assert (Hoth : forall j, j <> c -> colv j M' = colv j M).
      { intros j Hj. unfold M'. rewrite (colv_map_upd (t + n) n) by auto.
        destruct (Nat.eqb_spec j c); congruence. }
      assert (Hbot : bot c M' = vscale (-1) (bot c M)) by (unfold bot; rewrite Hcol; apply skipn_vscale).
      assert (Hboto : forall j, j <> c -> bot j M' = bot j M) by (intros; unfold bot; rewrite Hoth; auto).
      assert (Hl : length M = (t + n)%nat) by apply R. assert (Hl' : @length vec M' = (t + n)%nat) by apply R'.
      assert (Hmg : forall k', (k' < t + n)%nat -> mget M' k' c = - mget M k' c).
      { intros k' Hk'. rewrite (mget_colv M') by (rewrite Hl'; exact Hk'). rewrite (mget_colv M) by (rewrite Hl; exact Hk'). rewrite Hcol, nth_vscale. lia. }
      split; [|split; [exact Hoth|split; [exists (-1); auto|]]].
      + constructor; auto.
        * intros j k' Hj Hk'. destruct (Nat.eq_dec j c) as [->|Hjc].
          -- rewrite Hmg by lia. rewrite (c_top M C) by auto. rewrite Hbot, dot_vscale_r. lia.
          -- rewrite mget_colv, Hoth, <- mget_colv by (auto; lia). rewrite (c_top M C) by auto. rewrite Hboto; auto.
        * intros x Hx Hz. apply (c_ker M C); auto. intros j Hj. destruct (Nat.eq_dec j c) as [->|Hjc].
          -- specialize (Hz c Hc). rewrite Hbot, dot_vscale_l in Hz. lia.
          -- rewrite <- Hboto; auto.
        * intros j Hj. destruct (Nat.eq_dec j c) as [->|Hjc].
          -- rewrite Hcol. rewrite <- (c_gcd M C c Hc). clear. induction (colv c M) as [|x l IH]; auto.
             cbn [vscale map rgcd fold_right]. unfold rgcd, vscale in IH. rewrite IH.
             replace (-1 * x) with (- x) by lia. apply Z.gcd_opp_l.
          -- rewrite Hoth by auto. apply (c_gcd M C); auto.
      + exists k. split; [lia|]. split.
        * rewrite Hmg by lia. lia.
        * intros k' Hk'. rewrite Hmg by lia. unfold mget. rewrite Hbef by auto. reflexivity.
    - split; [exact C|]. split; [auto|]. split; [exists 1; split; auto; rewrite vscale_1; auto|].
      exists k. split; [destruct R; lia|]. split; [lia|]. intros k' Hk'. apply Hbef; auto.
  Qed.

  Lemma sign_cols_spec M : cinv M -> let M' := fold_left sign_col (seq 0 n) M in
    cinv M' /\
    (forall j, (j < n)%nat -> (exists s, (s = 1 \/ s = -1) /\ colv j M' = vscale s (colv j M)) /\
       exists k, (k < t + n)%nat /\ 0 < mget M' k j /\ forall k', (k' < k)%nat -> mget M' k' j = 0).
  Proof.
    intros C. cbn zeta.
    assert (H : forall m, (m <= n)%nat -> let M' := fold_left sign_col (seq 0 m) M in
      cinv M' /\ (forall j, (m <= j)%nat -> colv j M' = colv j M) /\
      (forall j, (j < m)%nat -> (exists s, (s = 1 \/ s = -1) /\ colv j M' = vscale s (colv j M)) /\
       exists k, (k < t + n)%nat /\ 0 < mget M' k j /\ forall k', (k' < k)%nat -> mget M' k' j = 0)).
    { induction m as [|m IH]; intros Hm; cbn zeta.
      - cbn [seq fold_left]. split; auto. split; auto. intros j Hj; lia.
      - rewrite seq_S, fold_left_app. cbn [fold_left plus].
        destruct (IH ltac:(lia)) as (C' & Hrest & Hdone).
        set (M' := fold_left sign_col (seq 0 m) M) in *.
        destruct (sign_col_spec M' m C' ltac:(lia)) as (C2 & Ho & (s & Hs & Es) & Hk).
        split; auto. split; [intros j Hj; rewrite Ho by lia; apply Hrest; lia|].
        intros j Hj. destruct (Nat.eq_dec j m) as [->|Hjm].
        + split; [exists s; split; auto; rewrite Es, Hrest by lia; reflexivity|exact Hk].
        + destruct (Hdone j ltac:(lia)) as ((s' & Hs' & Es') & (k & Hk1 & Hk2 & Hk3)).
          assert (L' := c_rect _ C'). assert (L2 := c_rect _ C2). destruct L' as (L' & _), L2 as (L2 & _).
          split; [exists s'; split; auto; rewrite Ho by auto; exact Es'|].
          exists k. split; [auto|]. split.
          * rewrite mget_colv in * by lia. rewrite Ho by auto. auto.
          * intros k' Hk'. specialize (Hk3 k' Hk'). rewrite mget_colv in * by lia. rewrite Ho by auto. auto. }
    destruct (H n (le_n _)) as (H1 & _ & H3). split; auto.
  Qed.

  (** ** Result *)
  Record gauss_result (M : list vec) (piv : list (nat * nat)) : Prop := {
    r_c : cinv M;
    r_rows : forall p, In p piv -> (fst p < t + n)%nat;
    r_sorted : forall p1 p2 l1 l2 l3, piv = l1 ++ p1 :: l2 ++ p2 :: l3 -> (fst p1 < fst p2)%nat;
    r_cols : Permutation (map snd piv) (seq 0 n);
    r_diag : forall p, In p piv -> 0 < mget M (fst p) (snd p);
    r_off : forall p j, In p piv -> (j < n)%nat -> j <> snd p -> mget M (fst p) j = 0;
    r_ech : forall p k, In p piv -> (k < fst p)%nat -> mget M k (snd p) = 0
  }.

  Lemma gauss_correct : gauss_result (fst (gauss n V)) (snd (gauss n V)).
  Proof.
    unfold gauss. fold t.
    assert (G := gauss_loop_inv (t + n) (le_n _)). cbn zeta in G.
    destruct (fold_left (gauss_row n) (seq 0 (t + n)) (V ++ neg_identity n, [])) as (M, piv).
    cbn [fst snd] in *. assert (C := g_c _ _ _ G).
    destruct (sign_cols_spec M C) as (C' & Hs).
    set (M' := fold_left sign_col (seq 0 n) M) in *.
    assert (Hl : length M = (t + n)%nat) by apply (c_rect M C).
    assert (Hl' : length M' = (t + n)%nat) by apply (c_rect M' C').
    assert (Hent : forall k j, (k < t + n)%nat -> (j < n)%nat -> (mget M' k j = 0 <-> mget M k j = 0)).
    { intros k j Hk Hj. destruct (Hs j Hj) as ((s & Hs1 & Es) & _).
      rewrite !mget_colv by lia. rewrite Es, nth_vscale. destruct Hs1 as [-> | ->]; lia. }
    assert (Hused : forall c, (c < n)%nat -> In c (map snd piv)).
    { intros c Hc. destruct (in_dec Nat.eq_dec c (map snd piv)) as [|Hn]; auto. exfalso.
      assert (Hz : colv c M = vzero (length (colv c M))).
      { apply (vec_ext_nth (length (colv c M))); auto using vzero_length. intros j Hj. rewrite nth_vzero.
        rewrite colv_length in Hj. rewrite <- mget_colv by auto. apply (g_ech _ _ _ G); auto; [lia|].
        intros p Hp E. exfalso. apply Hn. apply in_map_iff. exists p; auto. }
      apply rgcd_0 in Hz. rewrite (c_gcd M C c Hc) in Hz. lia. }
    assert (Hech : forall p k, In p piv -> (k < fst p)%nat -> mget M k (snd p) = 0).
    { intros p k Hp Hk. assert (Hpr := g_rows _ _ _ G p Hp). apply (g_ech _ _ _ G); auto; [lia|apply (g_cols _ _ _ G); auto|].
      intros q Hq E. assert (q = p) as ->; auto.
      assert (Hnd := g_nodup _ _ _ G). clear - Hnd Hp Hq E.
      induction piv as [|r piv IH]; [destruct Hp|]. cbn [map] in Hnd. inversion Hnd as [|? ? Hnin Hnd']; subst.
      destruct Hp as [->|Hp], Hq as [->|Hq]; auto.
      - exfalso. apply Hnin. rewrite <- E. apply in_map; auto.
      - exfalso. apply Hnin. rewrite E. apply in_map; auto. }
    constructor; auto.
    - apply (g_rows _ _ _ G).
    - apply (g_sorted _ _ _ G).
    - apply NoDup_Permutation.
      + apply (g_nodup _ _ _ G).
      + apply seq_NoDup.
      + intros c. rewrite in_seq. split.
        * intros Hin. apply in_map_iff in Hin. destruct Hin as (p & <- & Hp). apply (g_cols _ _ _ G) in Hp. lia.
        * intros Hc. apply Hused. lia.
    - intros p Hp. assert (Hpc := g_cols _ _ _ G p Hp). assert (Hpr := g_rows _ _ _ G p Hp).
      destruct (Hs (snd p) Hpc) as (_ & (k & Hk & Hkp & Hkb)).
      assert (Hd : mget M' (fst p) (snd p) <> 0) by (rewrite Hent by auto; apply (g_diag _ _ _ G); auto).
      destruct (lt_eq_lt_dec k (fst p)) as [[Hlt|<-]|Hgt]; auto.
      + assert (Hz := Hech p k Hp Hlt). apply Hent in Hz; auto. lia.
      + exfalso. apply Hd. apply Hkb; auto.
    - intros p j Hp Hj Hne. assert (Hpr := g_rows _ _ _ G p Hp). apply Hent; auto. apply (g_off _ _ _ G); auto.
    - intros p k Hp Hk. assert (Hpr := g_rows _ _ _ G p Hp). apply Hent; auto; [lia|apply (g_cols _ _ _ G); auto].
  Qed.
End Inv.
