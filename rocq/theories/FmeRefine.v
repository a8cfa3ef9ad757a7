(** * FmeRefine: the elimination over a sound integer type computes the exact one. *)
From Coq Require Import List ZArith NArith Arith Lia Bool Permutation.
From Verif Require Import Base Spec LinAlg Cone Bits ListUtil FmeCore Gauss FmePure FmeReduce FmePrepare FmeCorrect ArithModel MatrixModel
  BitsetModel BitsetProofs FmeModel Refine MatrixRefine.
Import ListNotations.
Open Scope Z_scope.

Section Ops.
  Variables (allowT allowU : bool) (A : Arith) (S : Sound allowT allowU A).
  Variable order : list nat -> list nat.
  Hypothesis order_perm : forall ks, Permutation (order ks) (seq 0 (length ks)).
  Notation rl := (rel allowT allowU).
  Notation vr := (vr S).
  Notation rowr := (rowr S).
  Notation matr := (matr S).

  Lemma rel_allM {X Y} (f : X -> res bool) (g : Y -> bool) l l' :
    Forall2 (fun x y => rl eq (f x) (g y)) l l' -> rl eq (allM f l) (forallb g l').
  Proof.
    induction 1 as [|x y l l' H _ IH]; cbn [allM forallb]; [reflexivity|].
    apply (rel_bind _ _ eq _ _ _ (g y)); auto. intros b ->. destruct (g y); cbn [andb]; [exact IH|reflexivity].
  Qed.

  Lemma matr_len M M' : matr M M' -> length M = length M'.
  Proof. apply Forall2_length. Qed.

  Lemma Forall2_erase {X Y} (R : X -> Y -> Prop) l l' i : Forall2 R l l' -> Forall2 R (erase i l) (erase i l').
  Proof. intros H; revert i. induction H as [|x y l l' Hx H IH]; intros [|i]; cbn [erase]; auto. Qed.
  Lemma Forall2_insert {X Y} (R : X -> Y -> Prop) l l' i x y : Forall2 R l l' -> R x y ->
    Forall2 R (insert_at i x l) (insert_at i y l').
  Proof.
    intros H Hx; revert i. induction H as [|u v l l' Hu H IH]; intros [|i]; cbn [insert_at]; auto.
  Qed.

  Lemma erase_rel r r' c : rowr r r' -> (c < length r')%nat -> rl rowr (eraseM r c) (erase c r').
  Proof.
    intros H Hc. unfold eraseM. rewrite (rowr_len _ _ A S r r' H). destruct (Nat.ltb_spec c (length r')); [|lia].
    apply Forall2_erase. exact H.
  Qed.

  (** [eliminateZeroColumns]. *)
  Definition longer (k : nat) (M : list vec) : Prop := Forall (fun r => (k <= length r)%nat) M.

  Lemma zero_column_step_rel col M V zc M' V' zc' : matr M M' -> matr V V' -> zc = zc' ->
    longer (Datatypes.S col) M' -> longer (Datatypes.S col) V' ->
    rl (fun q s => matr (fst (fst q)) (fst (fst s)) /\ matr (snd (fst q)) (snd (fst s)) /\ snd q = snd s /\
          longer col (fst (fst s)) /\ longer col (snd (fst s)))
       (m_zero_column_step A (M, V, zc) col) (zero_col_step (M', V', zc') col).
  Proof.
    intros HM HV <- LM LV. unfold m_zero_column_step, zero_col_step.
    assert (Hlong : forall N, longer (Datatypes.S col) N -> longer col N).
    { intros N HN. eapply Forall_impl; [|exact HN]. cbn beta. intros; lia. }
    assert (Her : forall N, longer (Datatypes.S col) N -> longer col (map (erase col) N)).
    { intros N HN. apply Forall_forall. intros r Hr. apply in_map_iff in Hr. destruct Hr as (r' & <- & Hr).
      unfold longer in HN. rewrite Forall_forall in HN. specialize (HN r' Hr). rewrite erase_length by lia. lia. }
    apply (rel_bind _ _ eq _ _ _ (forallb (fun r => nth col r 0 =? 0) M')).
    - apply rel_allM. unfold longer in LM. rewrite Forall_forall in LM. eapply Forall2_impl_in; [exact HM|].
      intros r r' Hin Hr. specialize (LM r' Hin).
      destruct (get_row _ _ A S r r' col Hr) as (x & E & Hx); [lia|]. rewrite E. cbn [bind rel].
      rewrite (vr_eqi _ _ A S x _ 0 Hx) by auto. reflexivity.
    - intros z ->. destruct (forallb (fun r => nth col r 0 =? 0) M').
      + apply (rel_bind _ _ matr _ _ _ (map (erase col) M')).
        { apply (rel_mapM_in rowr rowr); auto. intros r r' Hin Hr. unfold longer in LM. rewrite Forall_forall in LM. specialize (LM r' Hin). apply erase_rel; auto. }
        intros M1 HM1. apply (rel_bind _ _ matr _ _ _ (map (erase col) V')).
        { apply (rel_mapM_in rowr rowr); auto. intros r r' Hin Hr. unfold longer in LV. rewrite Forall_forall in LV. specialize (LV r' Hin). apply erase_rel; auto. }
        intros V1 HV1. cbn [rel fst snd]. repeat split; auto.
      + cbn [rel fst snd]. repeat split; auto.
  Qed.

  Lemma eliminate_zero_columns_rel n M V M' V' : matr M M' -> matr V V' -> dims n M' -> dims n V' -> M' <> [] ->
    rl (fun q s => matr (fst (fst q)) (fst (fst s)) /\ matr (snd (fst q)) (snd (fst s)) /\ snd q = snd s)
       (m_eliminate_zero_columns A M V) (eliminate_zero_columns n M' V').
  Proof.
    intros HM HV DM DV Hne. unfold m_eliminate_zero_columns, eliminate_zero_columns.
    destruct (back_ok rowr M M' [] HM Hne) as (b & E & Hb). rewrite E. cbn [bind].
    rewrite (rowr_len _ _ A S _ _ Hb), dims_last with (n := n) by auto.
    assert (H : forall k M V M' V' zc, matr M M' -> matr V V' -> longer k M' -> longer k V' ->
      rl (fun q s => matr (fst (fst q)) (fst (fst s)) /\ matr (snd (fst q)) (snd (fst s)) /\ snd q = snd s)
        (foldM (m_zero_column_step A) (M, V, zc) (rev (seq 0 k))) (fold_left zero_col_step (rev (seq 0 k)) (M', V', zc))).
    { induction k as [|k IH]; intros N W N' W' zc HN HW LN LW; [cbn [seq rev foldM fold_left rel fst snd]; auto|].
      rewrite seq_S, rev_app_distr. cbn [rev app plus foldM fold_left].
      eapply rel_bind; [apply zero_column_step_rel; eauto|].
      intros ((N1, W1), zc1). destruct (zero_col_step (N', W', zc) k) as ((N1', W1'), zc1'). cbn [fst snd].
      intros (H1 & H2 & -> & H4 & H5). apply IH; auto. }
    apply H; auto; (eapply Forall_impl; [|eassumption]; cbn beta; intros; lia).
  Qed.

  (** [reinsertZeroColumns]; a descending list of columns below [n]. *)
  Lemma reinsert_rel M M' zc k : matr M M' -> dims k M' -> desc zc -> (forall c, In c zc -> (c < k + length zc)%nat) ->
    rl matr (m_reinsert_zero_columns A M zc) (reinsert_zero_columns zc M').
  Proof.
    intros HM DM Hd Hb. unfold m_reinsert_zero_columns, reinsert_zero_columns.
    assert (H : forall l, desc l -> (forall c, In c l -> (c < k + length l)%nat) ->
      rl (fun N N' => matr N N' /\ dims (k + length l) N')
        (foldM (fun M col => mapM (fun r => insertM r col (a_lit A 0)) M) M (rev l))
        (fold_left (fun M col => map (insert_at col 0) M) (rev l) M')).
    { induction l as [|c l IH]; intros Dl Bl.
      - cbn [rev foldM fold_left rel length]. rewrite Nat.add_0_r. auto.
      - cbn [desc] in Dl. destruct Dl as (D1 & D2). cbn [rev length].
        rewrite fold_left_app, foldM_app. cbn [fold_left].
        assert (Hc : (c < k + Datatypes.S (length l))%nat) by (apply Bl; left; auto).
        assert (Hlen : (forall x, In x l -> (x < k + length l)%nat)) by (intros x Hx; specialize (D1 x Hx); lia).
        eapply rel_bind; [apply IH; auto|]. intros N (HN & DN). cbn [foldM].
        set (N' := fold_left (fun (M : list (list Z)) (col : nat) => map (insert_at col 0) M) (rev l) M') in *.
        rewrite bind_ok_r. apply (rel_impl _ _ matr).
        + apply (rel_mapM_in rowr rowr _ (insert_at c 0)); auto. intros r r' Hin Hr. unfold insertM.
          rewrite (rowr_len _ _ A S _ _ Hr), (dims_in _ _ _ DN Hin).
          destruct (Nat.leb_spec c (k + length l)); [|lia]. cbn [rel]. apply Forall2_insert; auto. apply vr_lit; auto.
        + intros x Hx. split; auto. apply Forall_forall. intros r Hr. apply in_map_iff in Hr. destruct Hr as (r' & <- & Hr).
          rewrite insert_at_length, (dims_in _ _ _ DN Hr). lia. }
    eapply rel_impl; [apply H; auto|]. cbn beta. tauto.
  Qed.

  (** Moving the used vertices to the front. *)
  Lemma take_used_rel V V' used : matr V V' -> desc (rev used) -> (forall i, In i used -> (i < length V')%nat) ->
    rl matr (m_take_used A V used) (take_used V' used).
  Proof.
    intros HV Hd Hb. unfold m_take_used, take_used.
    assert (H : forall l u V u' V', matr u u' -> matr V V' -> desc l -> (forall i, In i l -> (i < length V')%nat) ->
      rl (fun q s => matr (fst q) (fst s) /\ matr (snd q) (snd s))
        (foldM (fun s i => do v <- get (snd s) i; do r <- eraseM (snd s) i; Ok (fst s ++ [v], r)) (u, V) l)
        (fold_left use_step l (u', V'))).
    { induction l as [|i l IH]; intros u W u' W' Hu HW Dl Bl; cbn [foldM fold_left fst snd]; [split; auto|].
      assert (Hi : (i < length W')%nat) by (apply Bl; left; auto). cbn [desc] in Dl. destruct Dl as (D1 & D2).
      destruct (get_mat _ _ A S W W' i HW Hi) as (v & E & Hv). rewrite E. cbn [bind].
      unfold eraseM. rewrite (matr_len W W' HW). destruct (Nat.ltb_spec i (length W')); [|lia]. cbn [bind].
      unfold use_step at 2. cbn [fst snd]. apply IH; auto.
      - apply Forall2_app; auto.
      - apply Forall2_erase; auto.
      - intros j Hj. specialize (D1 j Hj). rewrite erase_length by auto. lia. }
    set (F := fold_left use_step (rev used) ([], V')) in *.
    apply (rel_bind _ _ (fun q s => matr (fst q) (fst s) /\ matr (snd q) (snd s)) _ _ _ F).
    - apply H; auto. + constructor. + intros i Hi. apply in_rev in Hi. auto.
    - intros q (H1 & H2). destruct F as (a, b). cbn [rel fst snd] in *. apply Forall2_app; auto.
  Qed.

  (** ** The preparation *)
  Lemma gauss_indices n V : dims n V -> let '(M, piv) := gauss n V in
    (forall i, In i (eq_columns (length V) piv) -> (i < n)%nat) /\ (length (eq_columns (length V) piv) <= n)%nat /\
    NoDup (eq_columns (length V) piv) /\
    desc (rev (used_rows (length V) piv)) /\ (forall i, In i (used_rows (length V) piv) -> (i < length V)%nat) /\
    rect (length V + n) n M.
  Proof.
    intros HV. assert (G := gauss_correct n V HV). destruct (gauss n V) as (M, piv). cbn [fst snd] in G.
    assert (P := r_cols _ _ _ _ G).
    assert (Hnd : NoDup (map snd piv)) by (apply (Permutation_NoDup (Permutation_sym P)), seq_NoDup).
    split; [|split; [|split; [|split; [|split]]]].
    - intros i Hi. unfold eq_columns in Hi. apply in_map_iff in Hi. destruct Hi as (p & <- & Hp).
      apply filter_In in Hp. assert (Hi : In (snd p) (seq 0 n)) by (apply (Permutation_in _ P), in_map; tauto).
      apply in_seq in Hi. lia.
    - unfold eq_columns. rewrite map_length. etransitivity; [apply filter_length_le|].
      assert (H := Permutation_length P). rewrite map_length, seq_length in H. lia.
    - unfold eq_columns. clear - Hnd. induction piv as [|p l IH]; cbn [filter map]; [constructor|].
      cbn [map] in Hnd. inversion Hnd as [|? ? H1 H2]; subst.
      destruct (length V <=? fst p)%nat; auto. cbn [map]. constructor; auto.
      intros Hc. apply H1. apply in_map_iff in Hc. destruct Hc as (q & E & Hq). apply filter_In in Hq. rewrite <- E. apply in_map. tauto.
    - unfold used_rows. apply desc_rev_filter. apply sub_sorted_desc. apply (r_sorted _ _ _ _ G).
    - intros i Hi. unfold used_rows in Hi. apply in_map_iff in Hi. destruct Hi as (p & <- & Hp).
      apply filter_In in Hp. destruct Hp as (_ & Hp). apply Nat.ltb_lt in Hp. exact Hp.
    - apply (c_rect _ _ _ (r_c _ _ _ _ G)).
  Qed.

  Definition nonzero (n : nat) (V : list vec) : Prop := exists v, In v V /\ v <> vzero n.

  Lemma nonzero_matrix n V : dims n V -> nonzero n V -> (0 < length (p_matrix (prepare n V)))%nat.
  Proof.
    intros HV (v & Hv & Hnz). assert (P := prepare_ok n V HV). set (p := prepare n V) in *.
    destruct (length (p_matrix p)) as [|k] eqn:E; [|lia]. exfalso. apply Hnz.
    apply (vec_ext n); [eapply dims_in; eauto|apply vzero_length|]. intros b Hb. rewrite dot_vzero_l.
    destruct (po_forms _ _ _ P b Hb) as (c & b' & Hc & Hb' & H). rewrite E in Hb'.
    assert (b' = []) as -> by (destruct b'; [auto|discriminate]).
    specialize (H v (dims_in _ _ _ HV Hv)). cbn [dot] in H.
    assert (H0 : forall e, In e (p_eqs p) -> dot e v = 0) by (intros e He; apply (po_eqs_van _ _ _ P); auto).
    specialize (H H0). rewrite dot_comm. nia.
  Qed.

  Lemma extract_rel n V V' : matr V V' -> dims n V' -> (0 < length V')%nat -> (0 < n)%nat ->
    rl (fun q s => matr (fst (fst q)) (fst (fst s)) /\ matr (snd (fst q)) (snd (fst s)) /\ snd q = snd s)
      (do St <- m_append_negative_identity A V;
       do q <- m_gaussian_elimination A St;
       let '(M1, L, Tr) := q in
       do B <- m_transpose A (skipn (length V) M1);
       do r <- m_extract_equations_at A B (sort_nat_desc L);
       Ok (r, Tr))
      (let '(M, piv) := gauss n V' in
       (extract_rows (transpose n (skipn (length V') M)) (sort_desc (eq_columns (length V') piv)), used_rows (length V') piv)).
  Proof.
    intros HM HV Hlen Hn.
    eapply rel_bind; [apply (append_negative_identity_rel _ _ A S (length V') n V V'); auto; split; auto; split; auto|].
    intros St HSt. cbn beta.
    assert (HG := gaussian_elimination_rel _ _ A S n V' St HV Hlen HSt).
    assert (HI := gauss_indices n V' HV).
    destruct (gauss n V') as (M', piv). destruct HI as (I1 & I2 & I3 & I4 & I5 & I6).
    eapply rel_bind; [exact HG|]. intros ((M1, L), Tr) (H1 & H2 & H3). cbn [fst snd] in *. subst L Tr.
    eapply (rel_bind _ _ (mr _ _ A S n n) _ _ _ (transpose n (skipn (length V') M'))).
    - apply transpose_rel; auto. rewrite (matr_len V V' HM). destruct H1 as (H1 & Hr). split; [apply Forall2_skipn; auto|].
      destruct Hr as (Hr1 & Hr2). split; [rewrite skipn_length; unfold vec in *; lia|].
      rewrite <- (firstn_skipn (length V') M') in Hr2. apply dims_app in Hr2. apply Hr2.
    - intros B (HB & RB1 & RB2). rewrite sort_desc_eq.
      assert (Hsp := sort_desc_perm (eq_columns (length V') piv)).
      eapply rel_bind; [apply (extract_at_rel _ _ A S B _ (sort_desc (eq_columns (length V') piv)) HB)|].
      + intros i Hi. rewrite RB1. apply I1. apply (Permutation_in _ Hsp). auto.
      + rewrite RB1, (Permutation_length Hsp). auto.
      + intros q (Hq1 & Hq2). cbn [rel fst snd]. auto.
  Qed.

  (** [extractEquations]. *)
  Theorem extract_equations_rel n V V' : matr V V' -> dims n V' -> (0 < length V')%nat -> (0 < n)%nat ->
    rl matr (m_extract_equations A V) (equations_of n V').
  Proof.
    intros HM HV Hlen Hn. assert (H := extract_rel n V V' HM HV Hlen Hn). unfold m_extract_equations, equations_of.
    destruct (gauss n V') as (M', piv). cbn [fst snd] in H.
    destruct (m_append_negative_identity A V) as [St| |]; cbn [bind] in *; auto.
    destruct (m_gaussian_elimination A St) as [((M1, L), Tr)| |]; cbn [bind] in *; auto.
    destruct (m_transpose A (skipn (length V) M1)) as [B| |]; cbn [bind] in *; auto.
    destruct (m_extract_equations_at A B (sort_nat_desc L)) as [r| |]; cbn [bind] in *; auto.
    cbn [rel fst snd] in *. tauto.
  Qed.

  Lemma extract_rows_length M idx : (length idx <= length M)%nat ->
    length (snd (extract_rows M idx)) = (length M - length idx)%nat.
  Proof.
    intros H. unfold extract_rows. cbn [snd]. rewrite firstn_length.
    set (F := fold_left _ (seq 0 (length idx)) M).
    assert (E : @length vec F = length M).
    { unfold F. generalize (seq 0 (length idx)) as l. clear. intros l. revert M. induction l as [|i l IH]; intros M; cbn [fold_left]; auto.
      rewrite IH. apply swap_length. }
    unfold vec in *. lia.
  Qed.

  (** A block of steps of the exact preparation: the matrix before column elimination. *)
  Theorem prepare_rel n V V' : matr V V' -> dims n V' -> nonzero n V' ->
    rl (fun q p => let '(M, W, zc) := q in matr M (p_matrix p) /\ matr W (p_vertices p) /\ zc = p_zero p)
      (m_prepare A V) (prepare n V').
  Proof.
    intros HM HV Hnz. assert (Hpos := nonzero_matrix n V' HV Hnz).
    assert (Hlen : (0 < length V')%nat) by (destruct Hnz as (v & Hv & _); destruct V'; [destruct Hv|cbn; lia]).
    assert (Hn : (0 < n)%nat).
    { destruct Hnz as (v & Hv & Hn). destruct n; [|lia]. exfalso. apply Hn. assert (Hl := dims_in _ _ _ HV Hv). destruct v; [reflexivity|discriminate]. }
    assert (H := extract_rel n V V' HM HV Hlen Hn). assert (HI := gauss_indices n V' HV). 
    unfold m_prepare. unfold prepare in *.
    destruct (gauss n V') as (M', piv). cbn [fst snd] in H. destruct HI as (I1 & I2 & I3 & I4 & I5 & I6).
    destruct (m_append_negative_identity A V) as [St| |]; cbn [bind] in *; auto.
    destruct (m_gaussian_elimination A St) as [((M1, L), Tr)| |]; cbn [bind] in *; auto.
    destruct (m_transpose A (skipn (length V) M1)) as [B| |]; cbn [bind] in *; auto.
    destruct (m_extract_equations_at A B (sort_nat_desc L)) as [r| |]; cbn [bind] in *; auto.
    cbn [rel fst snd] in H. destruct H as (_ & H2 & ->).
    assert (Hsp := sort_desc_perm (eq_columns (length V') piv)).
    assert (Htl : @length vec (transpose n (skipn (length V') M')) = n) by (unfold transpose; rewrite map_length, seq_length; auto).
    assert (Htd : dims n (transpose n (skipn (length V') M'))).
    { apply Forall_forall. intros v Hv. unfold transpose in Hv. apply in_map_iff in Hv. destruct Hv as (j & <- & _).
      rewrite colv_length, skipn_length. destruct I6 as (Hr & _). unfold vec in *; lia. }
    assert (Hdesc : desc (sort_desc (eq_columns (length V') piv))) by (apply sort_desc_desc; auto).
    destruct (extract_rows_spec (transpose n (skipn (length V') M')) (sort_desc (eq_columns (length V') piv)) Hdesc) as (_ & Eperm & _).
    { intros i Hi. rewrite Htl. apply I1. apply (Permutation_in _ Hsp). auto. }
    destruct (extract_rows (transpose n (skipn (length V') M')) (sort_desc (eq_columns (length V') piv))) as (eqs, rest).
    cbn [fst snd] in *.
    assert (Hrd : dims n rest).
    { apply (dims_incl n _ (transpose n (skipn (length V') M'))); auto. intros v Hv. apply (Permutation_in _ Eperm). apply in_app_iff; auto. }
    assert (Hzs := eliminate_zero_columns_spec n rest V' Hrd).
    assert (HE : rest <> [] -> rl (fun q s => matr (fst (fst q)) (fst (fst s)) /\ matr (snd (fst q)) (snd (fst s)) /\ snd q = snd s)
       (m_eliminate_zero_columns A (snd r) V) (eliminate_zero_columns n rest V')).
    { intros. apply eliminate_zero_columns_rel; auto. }
    destruct (eliminate_zero_columns n rest V') as ((M2', V2'), zc'). destruct Hzs as (_ & _ & EM & EV).
    cbn [p_matrix p_vertices p_zero] in *.
    eapply rel_bind; [apply HE|].
    - intros ->. rewrite EM in Hpos. cbn in Hpos. lia.
    - intros ((M2, V2), zc). cbn [fst snd]. intros (Hm & Hv & ->).
      eapply rel_bind; [apply (take_used_rel V2 V2' (used_rows (length V') piv) Hv)|].
      + auto.
      + intros i Hi. rewrite EV, map_length. auto.
      + intros W HW. cbn [rel p_matrix p_vertices p_zero]. auto.
  Qed.

  (** ** The elimination *)
  Section Phase.
    Variables (K d : nat).

    Definition br (i : nat) (ws : words) (b : N) : Prop :=
      words_ok ws /\ length ws = K /\ wval ws = b /\ below ws i.

    Lemma br_weaken i j ws b : br i ws b -> (i <= j)%nat -> br j ws b.
    Proof. intros (H1 & H2 & H3 & H4) Hij. repeat split; auto. intros k Hk. specialize (H4 k Hk). lia. Qed.

    Lemma br_set i ws b j : br i ws b -> (j < 32 * K)%nat ->
      exists r, bs_set ws j = Ok r /\ br (Nat.max i (Datatypes.S j)) r (N.setbit b (N.of_nat j)).
    Proof.
      intros (H1 & H2 & H3 & H4) Hj. destruct (bs_set_spec K ws j H1 H2 Hj) as (r & E & L & Ok' & Hm & Hv).
      exists r. split; auto. repeat split; auto; [congruence|]. intros k Hk. rewrite Hm in Hk.
      destruct (Nat.eqb_spec k j) as [Ek|Ek]; [lia|]. cbn [orb] in Hk. specialize (H4 k Hk). lia.
    Qed.

    Record sysr (i : nat) (M : list (list (num A))) (R : list words) (sys : list entry) : Prop := {
      sy_rows : matr M (map fst sys);
      sy_bits : Forall2 (br i) R (map snd sys);
      sy_dims : dims d (map fst sys) }.

    (** [initializeR]. *)
    Lemma initialize_rel M M' W W' empty : matr M M' -> matr W W' -> dims d M' -> dims d W' ->
      (length M' <= length W')%nat -> (length W' <= 32 * K)%nat -> empty = bs_fixed K ->
      rl (fun R sys => sysr (length M') M R sys) (m_initialize_R A M W empty) (initial_system M' W').
    Proof.
      intros HM HW DM DW Hl HK ->. unfold m_initialize_R, initial_system.
      rewrite (matr_len M M' HM).
      assert (E1 : map fst (map (fun row => (row, initial_bits row W' (length M'))) M') = M').
      { rewrite map_map. cbn [fst]. apply map_id. }
      assert (E2 : map snd (map (fun row => (row, initial_bits row W' (length M'))) M') = map (fun row => initial_bits row W' (length M')) M').
      { rewrite map_map. reflexivity. }
      set (s0 := map _ M') in *. set (s1 := map _ M') in E2.
      cut (rl (Forall2 (br (length M'))) (mapM (fun r => foldM (fun bits j => do v <- get W j; do s <- m_dot A r v; if a_lti A s 0 then bs_set bits j else Ok bits)
        (bs_fixed K) (seq 0 (length M'))) M) s1).
      { destruct (mapM _ M) as [R| |]; cbn [rel]; auto. intros HR. constructor; rewrite ?E1, ?E2; auto. }
      apply (rel_mapM_in rowr (br (length M'))); auto. intros r r' Hin Hr.
      unfold initial_bits.
      apply rel_foldM_same.
      - intros j ws b Hj Hb. apply in_seq in Hj.
        destruct (get_mat _ _ A S W W' j HW) as (v & E & Hv); [lia|]. rewrite E. cbn [bind].
        assert (Hvl : length (nth j W' []) = d) by (apply (dims_in d W' _ DW); apply nth_In; lia).
        apply (rel_bind _ _ vr _ _ _ (dot r' (nth j W' []))).
        { apply dot_rel; auto. rewrite Hvl. apply (dims_in d M'); auto. }
        intros s Hs. rewrite (vr_lti _ _ A S s _ Hs). destruct (dot r' (nth j W' []) <? 0); [|exact Hb].
        destruct (br_set _ ws b j Hb) as (ws' & E' & Hb'); [lia|]. rewrite E'. cbn [rel]. eapply br_weaken; eauto. lia.
      - destruct (bs_fixed_spec K) as (B1 & B2 & B3 & B4). repeat split; auto. intros j Hj. rewrite B4 in Hj. discriminate.
    Qed.

    (** Index lists and the entries they denote. *)
    Definition at_ (sys : list entry) (j : nat) (e : entry) : Prop := nth_error sys j = Some e.

    Lemma filter_index (f : num A -> bool) (g : entry -> bool) (s : list (num A)) (sys : list entry) w :
      Forall2 (fun x e => vr x (dot (fst e) w)) s sys ->
      (forall x e, vr x (dot (fst e) w) -> f x = g e) ->
      Forall2 (at_ sys) (filter (fun j => match nth_error s j with Some x => f x | None => false end) (seq 0 (length s))) (filter g sys).
    Proof.
      intros H Hf.
      assert (G : forall s2 sys2, Forall2 (fun x e => vr x (dot (fst e) w)) s2 sys2 -> forall s1 sys1, length s1 = length sys1 ->
        Forall2 (at_ (sys1 ++ sys2))
          (filter (fun j => match nth_error (s1 ++ s2) j with Some x => f x | None => false end) (seq (length s1) (length s2)))
          (filter g sys2)).
      { induction 1 as [|x e s2 sys2 Hx H2 IH]; intros s1 sys1 Hl; [constructor|]. cbn [length seq filter].
        assert (E : nth_error (s1 ++ x :: s2) (length s1) = Some x).
        { rewrite nth_error_app2, Nat.sub_diag by lia. reflexivity. }
        rewrite E. rewrite (Hf x e Hx).
        specialize (IH (s1 ++ [x]) (sys1 ++ [e])). rewrite !app_length in IH. cbn [length] in IH.
        specialize (IH ltac:(lia)). rewrite <- !app_assoc in IH. cbn [app] in IH.
        replace (length s1 + 1)%nat with (Datatypes.S (length s1)) in IH by lia.
        destruct (g e); auto. constructor; auto. unfold at_. rewrite Hl, nth_error_app2, Nat.sub_diag by lia. reflexivity. }
      apply (G s sys H [] []); auto.
    Qed.

    Lemma at_nth {Y} (f : entry -> Y) sys j e y : at_ sys j e -> nth j (map f sys) y = f e.
    Proof.
      unfold at_. revert j. induction sys as [|x sys IH]; intros [|j]; cbn [nth_error map nth]; intros H; try discriminate.
      - injection H as ->. reflexivity.
      - auto.
    Qed.

    Lemma at_row i M R sys j e : sysr i M R sys -> at_ sys j e -> exists r, get M j = Ok r /\ rowr r (fst e).
    Proof.
      intros [H _ _] Ha. unfold at_ in Ha. assert (Hj : (j < length sys)%nat) by (apply nth_error_Some; congruence).
      destruct (get_mat _ _ A S M _ j H) as (r & E & Hr); [rewrite map_length; auto|]. exists r. split; auto.
      assert (En := at_nth fst sys j e [] Ha). unfold entry, vec in *. rewrite En in Hr. exact Hr.
    Qed.
    Lemma at_bits i M R sys j e : sysr i M R sys -> at_ sys j e -> exists ws, get R j = Ok ws /\ br i ws (snd e).
    Proof.
      intros [_ H _] Ha. unfold at_ in Ha. assert (Hj : (j < length sys)%nat) by (apply nth_error_Some; congruence).
      destruct (get_ok (br i) R _ j 0%N H) as (r & E & Hr); [rewrite map_length; auto|]. exists r. split; auto.
      assert (En := at_nth snd sys j e 0%N Ha). unfold entry, vec in *. rewrite En in Hr. exact Hr.
    Qed.
    Lemma at_in sys j e : at_ sys j e -> In e sys.
    Proof. apply nth_error_In. Qed.

    Variable i : nat.
    Hypothesis i_pos : (0 < i)%nat.
    Hypothesis i_max : (i < 32 * K)%nat.
    Variables (M : list (list (num A))) (R : list words) (sys : list entry).
    Hypothesis HS : sysr i M R sys.

    Definition prel (q : pnr_t) (q' : pnr) : Prop :=
      at_ sys (fst (fst q)) (fst (fst q')) /\ at_ sys (snd (fst q)) (snd (fst q')) /\ br i (snd q) (snd q').

    Lemma contains_rel a b x y : br i a x -> br i b y -> bs_contains a b i = Ok (containsN x y).
    Proof.
      intros (A1 & A2 & <- & A4) (B1 & B2 & <- & B4). apply (bs_contains_spec K i); auto. lia.
    Qed.

    Lemma pnr_scan_rel pnrs pnrs' u ub : Forall2 prel pnrs pnrs' -> br i u ub ->
      exists o, m_pnr_scan pnrs u i = Ok o /\
        match o with
        | None => existsb (fun q => containsN ub (snd q)) pnrs' = true
        | Some l => existsb (fun q => containsN ub (snd q)) pnrs' = false /\
                    Forall2 prel l (filter (fun q => negb (containsN (snd q) ub)) pnrs')
        end.
    Proof.
      intros H Hu. induction H as [|q q' pnrs pnrs' Hq H IH]; cbn [m_pnr_scan existsb filter].
      - eexists; split; [reflexivity|]. split; auto.
      - assert (Hb : br i (snd q) (snd q')) by apply Hq.
        rewrite (contains_rel u (snd q) ub (snd q')) by auto. cbn [bind].
        destruct (containsN ub (snd q')); cbn [orb]; [eexists; split; [reflexivity|reflexivity]|].
        rewrite (contains_rel (snd q) u (snd q') ub) by auto. cbn [bind].
        destruct IH as (o & E & Ho). rewrite E. cbn [bind]. destruct o as [l|].
        + eexists; split; [reflexivity|]. destruct Ho as (H1 & H2). split; auto.
          destruct (containsN (snd q') ub); cbn [negb]; auto.
        + eexists; split; [reflexivity|]. exact Ho.
    Qed.

    Lemma pnr_iteration_rel pnrs pnrs' jn jp en ep u ub : Forall2 prel pnrs pnrs' -> at_ sys jn en -> at_ sys jp ep -> br i u ub ->
      exists r, m_pnr_iteration pnrs jn jp u i = Ok r /\ Forall2 prel r (pnr_iteration pnrs' en ep ub).
    Proof.
      intros H Hn Hp Hu. unfold m_pnr_iteration, pnr_iteration.
      destruct (pnr_scan_rel pnrs pnrs' u ub H Hu) as (o & E & Ho). rewrite E. cbn [bind]. destruct o as [l|].
      - destruct Ho as (-> & Hl). eexists; split; [reflexivity|]. constructor; auto. split; [|split]; auto.
      - rewrite Ho. eauto.
    Qed.

    Lemma pair_rel mc zeros zeros' pnrs pnrs' jn jp en ep : Forall2 (at_ sys) zeros zeros' -> Forall2 prel pnrs pnrs' ->
      at_ sys jn en -> at_ sys jp ep ->
      exists r, m_pair mc i R zeros pnrs jn jp = Ok r /\ Forall2 prel r (pair_step mc zeros' pnrs' en ep).
    Proof.
      intros Hz H Hn Hp. unfold m_pair, pair_step.
      destruct (at_bits _ _ _ _ _ _ HS Hn) as (Rn & En & (N1 & N2 & N3 & N4)). rewrite En. cbn [bind].
      destruct (at_bits _ _ _ _ _ _ HS Hp) as (Rp & Ep & (P1 & P2 & P3 & P4)). rewrite Ep. cbn [bind].
      rewrite (bs_unionCount_spec K i) by (auto; lia). cbn [bind]. rewrite N3, P3.
      destruct (popcountN (N.lor (snd en) (snd ep)) <=? mc)%nat; [|eauto].
      assert (Hall : allM (fun z => do Rz <- get R z; do b <- bs_unionContains Rn Rp Rz i; Ok (negb b)) zeros =
              Ok (forallb (fun z => negb (containsN (N.lor (snd en) (snd ep)) (snd z))) zeros')).
      { clear H. induction Hz as [|z z' zeros zeros' Hz _ IH]; cbn [allM forallb]; auto.
        destruct (at_bits _ _ _ _ _ _ HS Hz) as (Rz & Ez & (Z1 & Z2 & Z3 & Z4)). rewrite Ez. cbn [bind].
        rewrite (bs_unionContains_spec K i) by (auto; lia). cbn [bind]. rewrite N3, P3, Z3.
        destruct (negb _); cbn [andb]; auto. }
      rewrite Hall. cbn [bind]. unfold entry. match goal with |- context [forallb ?f zeros'] => destruct (forallb f zeros') end; [|eauto].
      destruct (bs_merge_spec K i i_pos ltac:(lia) Rn Rp) as (r & E & Lr & Hokr & Hm & Hv); auto. rewrite E. cbn [bind].
      apply pnr_iteration_rel; auto. repeat split; auto; [congruence|].
      intros j Hj. rewrite Hm in Hj. apply orb_true_iff in Hj. destruct Hj as [Hj|Hj]; auto.
    Qed.

    Lemma pairs_rel mc zeros zeros' negs negs' poss poss' :
      Forall2 (at_ sys) zeros zeros' -> Forall2 (at_ sys) negs negs' -> Forall2 (at_ sys) poss poss' ->
      exists r, foldM (fun acc n => foldM (fun acc' p => m_pair mc i R zeros acc' n p) acc poss) [] negs = Ok r /\
        Forall2 prel r (pairs_loop mc zeros' negs' poss').
    Proof.
      intros Hz Hn Hp. unfold pairs_loop.
      assert (Hin : forall jn en, at_ sys jn en -> forall acc acc', Forall2 prel acc acc' ->
        exists r, foldM (fun acc' p => m_pair mc i R zeros acc' jn p) acc poss = Ok r /\
          Forall2 prel r (fold_left (fun acc' ep => pair_step mc zeros' acc' en ep) poss' acc')).
      { intros jn en He. induction Hp as [|p p' poss poss' Hp' _ IH]; intros acc acc' Hacc; cbn [foldM fold_left]; [eauto|].
        destruct (pair_rel mc zeros zeros' acc acc' jn p en p' Hz Hacc He Hp') as (r & E & Hr). rewrite E. cbn [bind]. apply IH; auto. }
      assert (Hout : forall acc acc', Forall2 prel acc acc' ->
        exists r, foldM (fun acc n => foldM (fun acc' p => m_pair mc i R zeros acc' n p) acc poss) acc negs = Ok r /\
          Forall2 prel r (fold_left (fun acc en => fold_left (fun acc' ep => pair_step mc zeros' acc' en ep) poss' acc) negs' acc')).
      { induction Hn as [|n n' negs negs' Hn' _ IH]; intros acc acc' Hacc; cbn [foldM fold_left]; [eauto|].
        destruct (Hin n n' Hn' acc acc' Hacc) as (r & E & Hr). rewrite E. cbn [bind]. apply IH; auto. }
      apply Hout. constructor.
    Qed.

    Lemma mapM_ok {X Y Z} (P : X -> Z -> Prop) (Q : Y -> Z -> Prop) (f : X -> res Y) l l' : Forall2 P l l' ->
      (forall x z, P x z -> exists y, f x = Ok y /\ Q y z) -> exists r, mapM f l = Ok r /\ Forall2 Q r l'.
    Proof.
      intros H Hf. induction H as [|x z l l' Hx H IH]; cbn [mapM]; [eauto|].
      destruct (Hf x z Hx) as (y & E & Hy). rewrite E. cbn [bind]. destruct IH as (r & E2 & Hr). rewrite E2. cbn [bind]. eauto.
    Qed.

    Lemma sort_zero_rel zeros zeros' : Forall2 (at_ sys) zeros zeros' ->
      exists r, m_sort_zero order R i zeros = Ok r /\ Forall2 (at_ sys) r (zsort_of order zeros').
    Proof.
      intros Hz. unfold m_sort_zero, zsort_of.
      destruct (mapM_ok (at_ sys) (fun (k : nat) e => k = popcountN (snd e)) (fun j => do b <- get R j; bs_count b i) zeros zeros' Hz) as (keys & E & Hk).
      { intros j e Hj. destruct (at_bits _ _ _ _ _ _ HS Hj) as (Rj & Ej & (Z1 & Z2 & Z3 & Z4)). rewrite Ej. cbn [bind].
        rewrite (bs_count_spec K i) by (auto; lia). rewrite Z3. eauto. }
      rewrite E. cbn [bind]. assert (keys = map (fun e => popcountN (snd e)) zeros') as ->.
      { clear - Hk. induction Hk; cbn [map]; congruence. }
      set (o := order _). assert (Ho : forall k, In k o -> (k < length zeros')%nat).
      { intros k Hin. unfold o in Hin. apply (Permutation_in _ (order_perm _)) in Hin. rewrite map_length in Hin. apply in_seq in Hin. unfold entry, vec in *. lia. }
      clearbody o. clear - Hz Ho. induction o as [|k o IH]; cbn [mapM map]; [eauto|].
      destruct (get_ok (at_ sys) zeros zeros' k ([], 0%N) Hz) as (x & E & Hx); [apply Ho; left; auto|]. rewrite E. cbn [bind].
      destruct IH as (r & E2 & Hr); [intros; apply Ho; right; auto|]. rewrite E2. cbn [bind]. eauto.
    Qed.

    Lemma sysr_app M1 R1 s1 M2 R2 s2 j : sysr j M1 R1 s1 -> sysr j M2 R2 s2 -> sysr j (M1 ++ M2) (R1 ++ R2) (s1 ++ s2).
    Proof.
      intros [A1 A2 A3] [B1 B2 B3]. constructor; rewrite ?map_app.
      - apply Forall2_app; auto.
      - apply Forall2_app; auto.
      - apply dims_app; auto.
    Qed.

    Theorem projection_rel w w' : rowr w w' -> length w' = d ->
      rl (fun q s => sysr (Datatypes.S i) (fst q) (snd q) s) (m_projection A order M R w i) (project (zsort_of order) d i sys w').
    Proof.
      intros Hw Hwl. unfold m_projection, project. rewrite (rowr_len _ _ A S w w' Hw), Hwl.
      apply (rel_bind _ _ rowr _ _ _ (map (fun r => dot r w') (map fst sys))).
      { unfold m_mat_vec. apply (rel_mapM_in rowr vr); [apply (sy_rows _ _ _ _ HS)|]. intros r r' Hin Hr.
        apply dot_rel; auto. rewrite Hwl. apply (dims_in d _ _ (sy_dims _ _ _ _ HS) Hin). }
      intros s Hs.
      assert (Hs2 : Forall2 (fun x e => vr x (dot (fst e) w')) s sys).
      { clear - Hs. rewrite map_map in Hs. revert s Hs. induction sys as [|e l IH]; intros s Hs; cbn [map] in Hs; inversion Hs; subst; constructor; auto. }
      assert (Hneg : Forall2 (at_ sys) (m_indices_neg A s) (negs_of w' sys)).
      { apply (filter_index _ _ s sys w' Hs2). intros x e Hx. apply (vr_lti _ _ A S); auto. }
      assert (Hzero : Forall2 (at_ sys) (m_indices_zero A s) (filter (fun e => dot (fst e) w' =? 0) sys)).
      { apply (filter_index (fun x => negb (a_lti A x 0) && a_eqi A x 0) _ s sys w' Hs2). intros x e Hx. rewrite (vr_lti _ _ A S _ _ Hx), (vr_eqi _ _ A S _ _ 0 Hx) by auto.
        destruct (Z.ltb_spec (dot (fst e) w') 0), (Z.eqb_spec (dot (fst e) w') 0); try reflexivity; lia. }
      assert (Hpos : Forall2 (at_ sys) (m_indices_pos A s) (poss_of w' sys)).
      { apply (filter_index (fun x => negb (a_lti A x 0) && negb (a_eqi A x 0)) _ s sys w' Hs2). intros x e Hx. rewrite (vr_lti _ _ A S _ _ Hx), (vr_eqi _ _ A S _ _ 0 Hx) by auto.
        destruct (Z.ltb_spec (dot (fst e) w') 0), (Z.eqb_spec (dot (fst e) w') 0), (Z.ltb_spec 0 (dot (fst e) w')); try reflexivity; lia. }
      destruct (sort_zero_rel _ _ Hzero) as (zs & Ez & Hz). rewrite Ez. cbn [bind].
      change (zsort_of order (filter (fun e => dot (fst e) w' =? 0) sys)) with (zeros_of (zsort_of order) w' sys) in Hz.
      destruct (pairs_rel (i + 2 - d) _ _ _ _ _ _ Hz Hneg Hpos) as (pn & Ep & Hpn). rewrite Ep. cbn [bind].
      set (pn' := pairs_loop (i + 2 - d) _ _ _) in *. set (zs' := zeros_of (zsort_of order) w' sys) in *.
      set (ng' := negs_of w' sys) in *. unfold m_update_system.
      destruct (mapM_ok (at_ sys) (fun r e => rowr r (fst e)) (fun z => get M z) zs zs' Hz) as (zrows & E1 & H1).
      { intros j e Hj. apply (at_row _ _ _ _ _ _ HS Hj). }
      rewrite E1. cbn [bind].
      destruct (mapM_ok (at_ sys) (fun r e => br i r (snd e)) (fun z => get R z) zs zs' Hz) as (zbits & E2 & H2).
      { intros j e Hj. apply (at_bits _ _ _ _ _ _ HS Hj). }
      rewrite E2. cbn [bind].
      destruct (mapM_ok (at_ sys) (fun r e => rowr r (fst e)) (fun z => get M z) _ ng' Hneg) as (nrows & E3 & H3).
      { intros j e Hj. apply (at_row _ _ _ _ _ _ HS Hj). }
      rewrite E3. cbn [bind].
      destruct (mapM_ok (at_ sys) (fun r e => br (Datatypes.S i) r (N.setbit (snd e) (N.of_nat i))) (fun n => do b <- get R n; bs_set b i) _ ng' Hneg) as (nbits & E4 & H4).
      { intros j e Hj. destruct (at_bits _ _ _ _ _ _ HS Hj) as (b & Eb & Hb). rewrite Eb. cbn [bind].
        destruct (br_set _ b _ i Hb i_max) as (r & Er & Hr). exists r. split; auto. eapply br_weaken; eauto. lia. }
      rewrite E4. cbn [bind].
      assert (Hsub : forall e, In e sys -> length (fst e) = d).
      { intros e He. apply (dims_in d (map fst sys) _ (sy_dims _ _ _ _ HS)). apply in_map; auto. }
      apply (rel_bind _ _ matr _ _ _ (map (fun q => combine_rows w' (fst (fst q)) (snd (fst q))) pn')).
      - apply (rel_mapM_in prel rowr _ (fun q => combine_rows w' (fst (fst q)) (snd (fst q)))); auto.
        intros ((jn, jp), u) ((en, ep), ub) _ (Hn & Hp & _). cbn [fst snd] in *. unfold m_combine, combine_rows.
        assert (Hsat : forall j e, at_ sys j e -> exists x, get s j = Ok x /\ vr x (dot (fst e) w')).
        { intros j e Ha. unfold at_ in Ha. assert (Hj : (j < length sys)%nat) by (apply nth_error_Some; congruence).
          destruct (get_row _ _ A S s _ j Hs) as (x & E & Hx); [rewrite !map_length; auto|]. exists x. split; auto.
          rewrite map_map in Hx. assert (En := at_nth (fun e => dot (fst e) w') sys j e 0 Ha). unfold entry, vec in *. rewrite En in Hx. exact Hx. }
        destruct (Hsat jp ep Hp) as (sp & Esp & Hsp). rewrite Esp. cbn [bind].
        destruct (at_row _ _ _ _ _ _ HS Hn) as (rn & Ern & Hrn). rewrite Ern. cbn [bind].
        destruct (Hsat jn en Hn) as (sn & Esn & Hsn). rewrite Esn. cbn [bind].
        destruct (at_row _ _ _ _ _ _ HS Hp) as (rp & Erp & Hrp). rewrite Erp. cbn [bind].
        assert (Ln := Hsub en (at_in _ _ _ Hn)). assert (Lp := Hsub ep (at_in _ _ _ Hp)).
        apply (rel_bind _ _ rowr _ _ _ (vscale (dot (fst ep) w') (fst en))); [apply row_mul_rel; auto|]. intros x Hx.
        apply (rel_bind _ _ rowr _ _ _ (vscale (dot (fst en) w') (fst ep))); [apply row_mul_rel; auto|]. intros y Hy.
        apply (rel_bind _ _ rowr _ _ _ (vadd (vscale (dot (fst ep) w') (fst en)) (vscale (- dot (fst en) w') (fst ep)))).
        + eapply rel_eq; [apply row_sub_rel; eauto|].
          * rewrite !vscale_length. congruence.
          * rewrite vscale_vscale. replace (-1 * dot (fst en) w') with (- dot (fst en) w') by lia. reflexivity.
        + intros r Hr. apply row_reduce_rel; auto.
      - intros prows Hprows. cbn [rel fst snd].
        assert (Hdz : dims d (map fst zs')).
        { apply Forall_forall. intros r Hr. apply in_map_iff in Hr. destruct Hr as (e & <- & He).
          apply Hsub. clear - Hz He. induction Hz as [|a b l l' H _ IH]; [destruct He|]. destruct He as [<-|He]; auto. eapply at_in; eauto. }
        assert (Hgen : forall (f : list (num A) -> entry -> Prop) l l', Forall2 f l l' -> (forall r e, f r e -> rowr r (fst e)) -> matr l (map fst l')).
        { intros f l l' HF Hf. induction HF; cbn [map]; constructor; auto. }
        apply sysr_app; [|apply sysr_app].
        + constructor; auto.
          * apply (Hgen _ _ _ H1). auto.
          * clear - H2. induction H2; cbn [map]; constructor; auto. eapply br_weaken; eauto.
        + constructor.
          * rewrite map_map. cbn [fst]. change (matr nrows (map fst ng')). apply (Hgen _ _ _ H3). auto.
          * rewrite map_map. cbn [snd]. clear - H4. induction H4; cbn [map]; constructor; auto.
          * apply Forall_forall. intros r Hr. rewrite map_map in Hr. cbn [fst] in Hr. apply in_map_iff in Hr.
            destruct Hr as (e & <- & He). apply filter_In in He. apply Hsub. tauto.
        + constructor.
          * rewrite map_map. cbn [fst]. exact Hprows.
          * rewrite map_map. cbn [snd]. clear - Hpn. induction Hpn as [|q q' l l' Hq _ IH]; cbn [map]; constructor; auto.
            eapply br_weaken; [apply Hq|lia].
          * apply Forall_forall. intros r Hr. rewrite map_map in Hr. cbn [fst] in Hr. apply in_map_iff in Hr.
            destruct Hr as (q & <- & Hq). unfold combine_rows.
            assert (Hen : length (fst (fst (fst q))) = d /\ length (fst (snd (fst q))) = d).
            { clear - Hpn Hq Hsub. induction Hpn as [|a b l l' H _ IH]; [destruct Hq|]. destruct Hq as [<-|Hq]; auto.
              destruct H as (Ha & Hb & _). split; apply Hsub; eapply at_in; eauto. }
            destruct Hen as (He1 & He2). 
            assert (Lr : forall v, length (rnorm v) = length v) by (intros v; unfold rnorm; destruct (1 <? rgcd v); auto; apply map_length).
            rewrite Lr. apply (vadd_length_eq d); rewrite vscale_length; auto.
    Qed.
  End Phase.

  (** [detectBadRow]. *)
  Lemma bad_row_rel d r r' : rowr r r' -> length r' = Datatypes.S d -> m_bad_row A r = Ok (bad_row r').
  Proof.
    intros Hr Hl. unfold m_bad_row, bad_row.
    assert (E : forallb (fun x => a_eqi A x 0) (firstn (length r - 1) r) = forallb (fun x => x =? 0) (removelast r')).
    { rewrite (rowr_len _ _ A S r r' Hr), Hl. replace (Datatypes.S d - 1)%nat with d by lia.
      replace (removelast r') with (firstn d r').
      2:{ rewrite removelast_firstn_len, Hl. reflexivity. }
      assert (H := Forall2_firstn vr d r r' Hr). revert H. generalize (firstn d r) (firstn d r'). clear - S.
      intros l l' H. induction H as [|x y l l' Hx _ IH]; cbn [forallb]; auto. rewrite IH, (vr_eqi _ _ A S _ _ 0 Hx) by auto. reflexivity. }
    rewrite E. clear E. destruct (forallb _ (removelast r')); cbn [andb]; auto.
    destruct (back_ok vr r r' 0 Hr) as (b & Eb & Hb); [intros ->; discriminate|]. rewrite Eb. cbn [bind].
    rewrite (vr_eqi _ _ A S _ _ (-1) Hb) by auto. reflexivity.
  Qed.

  Lemma detect_bad_row_rel d : forall M M', matr M M' -> dims (Datatypes.S d) M' ->
    exists r, m_detect_bad_row A M = Ok r /\ matr r (detect_bad_row M').
  Proof.
    assert (G : forall k M M', (length M <= k)%nat -> matr M M' -> dims (Datatypes.S d) M' ->
      exists r, m_detect_bad_row A M = Ok r /\ matr r (detect_bad_row M')).
    { induction k as [|k IH]; intros M M' Hk H D.
      - destruct H; [|cbn in Hk; lia]. exists []. split; [reflexivity|constructor].
      - destruct H as [|r r' M M' Hr H]; [exists []; split; [reflexivity|constructor]|].
        inversion D as [|? ? D1 D2]; subst. cbn [m_detect_bad_row detect_bad_row].
        rewrite (bad_row_rel d r r') by auto. cbn [bind]. cbn [length] in Hk. destruct (bad_row r').
        + destruct H as [|r2 r2' M M' Hr2 H]; [exists []; split; [reflexivity|constructor]|].
          inversion D2 as [|? ? D3 D4]; subst. cbn [length] in Hk.
          destruct (IH M M') as (x & E & Hx); [lia|auto|auto|]. rewrite E. cbn [bind]. eexists; split; [reflexivity|]. constructor; auto.
        + destruct (IH M M') as (x & E & Hx); [lia|auto|auto|]. rewrite E. cbn [bind]. eexists; split; [reflexivity|]. constructor; auto. }
    intros M M'. apply (G (length M)). auto.
  Qed.

  Lemma detect_bad_row_dims n M : dims n M -> dims n (detect_bad_row M).
  Proof.
    intros H. apply (dims_incl n _ M); auto. clear H.
    assert (G : forall k (M : list vec), (length M <= k)%nat -> incl (detect_bad_row M) M).
    { induction k as [|k IH]; intros N Hk; [destruct N; [intros x []|cbn in Hk; lia]|].
      destruct N as [|r N]; [intros x []|]. cbn [detect_bad_row length] in *. destruct (bad_row r).
      - destruct N as [|r2 N]; [intros x []|]. cbn [length] in Hk. intros x [<-|Hx]; [right; left; auto|].
        right; right. apply (IH N); auto. lia.
      - intros x [<-|Hx]; [left; auto|]. right. apply (IH N); auto. lia. }
    apply (G (length M)). auto.
  Qed.

  (** The loop over the remaining vertices. *)
  Lemma projects_snoc zs d : forall ws i sys w, projects zs d i sys (ws ++ [w]) = project zs d (i + length ws) (projects zs d i sys ws) w.
  Proof.
    induction ws as [|x ws IH]; intros i sys w; cbn [app projects length].
    - rewrite Nat.add_0_r. reflexivity.
    - rewrite IH. f_equal. lia.
  Qed.

  Lemma skipn_cons (l : list vec) k d : (k < length l)%nat -> skipn k l = nth k l d :: skipn (Datatypes.S k) l.
  Proof. revert k; induction l as [|x l IH]; intros [|k] H; cbn [length skipn nth] in *; try lia; auto. apply IH. lia. Qed.

  Lemma phase_loop_rel K d W W' : matr W W' -> dims d W' -> (length W' <= 32 * K)%nat -> (0 < d)%nat ->
    forall k i M R sys, (i + k = length W')%nat -> (d <= i)%nat -> sysr K d i M R sys ->
    rl (fun q s => sysr K d (length W') (fst q) (snd q) s)
      (foldM (fun s i => do v <- get W i; m_projection A order (fst s) (snd s) v i) (M, R) (seq i k))
      (projects (zsort_of order) d i sys (skipn i W')).
  Proof.
    intros HW DW HK Hd. induction k as [|k IH]; intros i M R sys Hi Hdi HS.
    - rewrite skipn_all2 by (unfold vec in *; lia). cbn [seq foldM projects rel fst snd]. replace (length W') with i by lia. exact HS.
    - cbn [seq foldM fst snd]. rewrite (skipn_cons W' i []) by (unfold vec in *; lia). cbn [projects].
      destruct (get_mat _ _ A S W W' i HW) as (w & E & Hw); [lia|]. rewrite E. cbn [bind].
      assert (Hwl : length (nth i W' []) = d) by (apply (dims_in d W'); auto; apply nth_In; lia).
      eapply rel_bind; [apply (projection_rel K d i ltac:(lia) ltac:(lia) M R sys HS w _ Hw Hwl)|].
      intros (M1, R1) HS1. cbn [fst snd] in HS1. apply IH; auto; lia.
  Qed.

  Lemma phase_two_rel K d M M' W W' : matr M M' -> matr W W' -> dims d M' -> dims d W' -> length M' = d -> (0 < d)%nat ->
    (d <= length W')%nat -> (length W' <= 32 * K)%nat ->
    rl matr (m_phase_two A order M W (bs_fixed K))
       (detect_bad_row (map fst (projects (zsort_of order) d d (initial_system M' W') (skipn d W')))).
  Proof.
    intros HM HW DM DW Hl Hd Hlen HK. unfold m_phase_two.
    destruct (back_ok rowr M M' [] HM) as (b & E & Hb); [intros ->; cbn in Hl; lia|]. rewrite E. cbn [bind].
    rewrite (rowr_len _ _ A S _ _ Hb), (dims_last d M') by (auto; intros ->; cbn in Hl; lia).
    eapply rel_bind; [apply (initialize_rel K d M M' W W' _ HM HW DM DW); auto; lia|]. intros R HR. rewrite Hl in HR.
    rewrite (matr_len W W' HW).
    eapply rel_bind; [apply (phase_loop_rel K d W W' HW DW HK Hd (length W' - d) d M R _ ltac:(lia) (le_n _) HR)|].
    intros (M1, R1) HS. cbn [fst snd] in *. destruct d as [|d]; [lia|].
    destruct (detect_bad_row_rel d M1 _ (sy_rows _ _ _ _ _ _ HS) (sy_dims _ _ _ _ _ _ HS)) as (r & Er & Hr).
    rewrite Er. exact Hr.
  Qed.

  (** [phaseTwoDispatch]: the chosen bitset is large enough. *)
  Lemma dispatch_size len : (0 < len)%nat -> exists K, (len <= 32 * K)%nat /\
    forall M W, length W = len -> m_phase_two_dispatch A order M W = m_phase_two A order M W (bs_fixed K).
  Proof.
    intros Hl. unfold m_phase_two_dispatch. 
    assert (Hw := word_end_pos len Hl).
    assert (Hc : (len <= 32 * (1 + (len - 1) / 32))%nat).
    { assert (H := Nat.div_mod (len - 1) 32 ltac:(lia)). assert (H2 := Nat.mod_upper_bound (len - 1) 32 ltac:(lia)). lia. }
    destruct (find (fun k => (1 + (len - 1) / 32 <=? k)%nat) bitset_sizes) as [k|] eqn:F.
    - exists k. split.
      + apply find_some in F. destruct F as (_ & F). apply Nat.leb_le in F. lia.
      + intros M W ->. rewrite Hw. cbn [bind]. rewrite F. reflexivity.
    - exists (1 + (len - 1) / 32)%nat. split; auto. intros M W ->. rewrite Hw. cbn [bind]. rewrite F.
      unfold bs_variable. rewrite Hw. reflexivity.
  Qed.

  (** ** The enumerations *)
  Theorem fme_rel n V V' : matr V V' -> dims n V' -> nonzero n V' ->
    rl matr (m_fme A order V) (fme order n V').
  Proof.
    intros HM HV Hnz. unfold m_fme, fme.
    assert (P := prepare_ok n V' HV). assert (Hpos := nonzero_matrix n V' HV Hnz).
    assert (HWd := W_dims n V' HV).
    eapply rel_bind; [apply (prepare_rel n V V' HM HV Hnz)|]. cbv zeta in *.
    set (p := prepare n V') in *. intros ((M, W), zc) (H1 & H2 & ->).
    set (d := length (p_matrix p)) in *.
    assert (HMd : dims d (p_matrix p)).
    { assert (H := inv_dims _ _ _ (po_inv _ _ _ P)). unfold initial_system in H. rewrite map_map in H. cbn [fst] in H.
      rewrite map_id in H. exact H. }
    assert (Hle := po_len _ _ _ P). fold d in Hle.
    destruct (dispatch_size (length (p_vertices p)) ltac:(lia)) as (K & HK & EK).
    rewrite EK by (apply (matr_len _ _ H2)).
    apply (rel_bind _ _ matr _ _ _ (detect_bad_row (fme_rows order p))).
    - unfold fme_rows. apply phase_two_rel; auto.
    - intros F HF. assert (Hdz := po_dim _ _ _ P). fold d in Hdz.
      apply (reinsert_rel F _ (p_zero p) d); auto.
      + apply detect_bad_row_dims. apply fme_rows_dims; auto.
      + apply (po_desc _ _ _ P).
      + intros c Hc. rewrite (Nat.add_comm d). rewrite Hdz. apply (po_zero _ _ _ P); auto.
  Qed.

  Lemma extract_facets_rel d M M' W W' start : matr M M' -> matr W W' -> dims d M' -> dims d W' ->
    rl matr (m_extract_facets A M W start) (filter (fun row => forallb (fun v => dot row v <=? 0) (skipn start W')) M').
  Proof.
    intros HM HW DM DW. unfold m_extract_facets.
    apply (rel_bind _ _ (Forall2 (fun q r => rowr (fst q) (fst r) /\ snd q = snd r)) _ _ _
      (map (fun row => (row, forallb (fun v => dot row v <=? 0) (skipn start W'))) M')).
    - apply (rel_mapM_in rowr (fun q r => rowr (fst q) (fst r) /\ snd q = snd r)); auto. intros r r' Hin Hr.
      apply (rel_bind _ _ eq _ _ _ (forallb (fun v => dot r' v <=? 0) (skipn start W'))).
      + apply rel_allM. eapply Forall2_impl_in; [apply Forall2_skipn; exact HW|]. intros v v' Hv Hvv. cbn beta.
        apply (rel_bind _ _ vr _ _ _ (dot r' v')).
        * apply dot_rel; auto. rewrite (dims_in d M' _ DM Hin). symmetry. apply (dims_in d W'); auto.
          rewrite <- (firstn_skipn start W'). apply in_app_iff; auto.
        * intros s Hs. rewrite (vr_lei _ _ A S s _ Hs). reflexivity.
      + intros b ->. cbn [rel fst snd]. auto.
    - intros l Hl. cbn [rel].
      assert (E : filter (fun row => forallb (fun v => dot row v <=? 0) (skipn start W')) M' =
                  map fst (filter snd (map (fun row => (row, forallb (fun v => dot row v <=? 0) (skipn start W'))) M'))).
      { clear. induction M' as [|r M' IH]; cbn [filter map fst snd]; auto. destruct (forallb _ _); cbn [map fst]; rewrite IH; reflexivity. }
      rewrite E. revert Hl. generalize (map (fun row => (row, forallb (fun v => dot row v <=? 0) (skipn start W'))) M') as l'. clear.
      intros l' H. induction H as [|q r l l' (H1 & H2) _ IH]; cbn [filter map]; [constructor|].
      rewrite H2. destruct (snd r); cbn [map]; auto. constructor; auto.
  Qed.

  Lemma heuristic_loop_rel K d W W' : matr W W' -> dims d W' -> (length W' <= 32 * K)%nat -> (0 < d)%nat ->
    forall k i M R sys, (i + k = length W')%nat -> (d <= i)%nat -> sysr K d i M R sys ->
    rl (fun r r' => matr r r' /\ dims d r')
      (m_heuristic_loop A order M W R (seq i k)) (heuristic_loop order d i sys (skipn i W')).
  Proof.
    intros HW DW HK Hd. induction k as [|k IH]; intros i M R sys Hi Hdi HS.
    - rewrite skipn_all2 by (unfold vec in *; lia). cbn [seq m_heuristic_loop heuristic_loop rel]. split; apply HS.
    - cbn [seq m_heuristic_loop].
      assert (Hf := extract_facets_rel d M _ W W' i (sy_rows _ _ _ _ _ _ HS) HW (sy_dims _ _ _ _ _ _ HS) DW).
      rewrite (skipn_cons W' i []) in * by (unfold vec in *; lia). cbn [heuristic_loop].
      set (fs := filter _ (map fst sys)) in *.
      assert (Hfd : dims d fs).
      { apply (dims_incl d _ (map fst sys)); [|apply HS]. intros x Hx. apply filter_In in Hx. tauto. }
      eapply rel_bind; [exact Hf|]. intros f Hff.
      destruct d as [|d']; [lia|]. destruct (detect_bad_row_rel d' f fs Hff Hfd) as (r & E & Hr). rewrite E. cbn [bind].
      assert (Hdd := detect_bad_row_dims _ _ Hfd).
      destruct Hr as [|x y r l Hx Hr].
      + destruct (get_mat _ _ A S W W' i HW) as (w & Ew & Hw); [lia|]. rewrite Ew. cbn [bind].
        assert (Hwl : length (nth i W' []) = Datatypes.S d') by (apply (dims_in _ W'); auto; apply nth_In; lia).
        eapply rel_bind; [apply (projection_rel K (Datatypes.S d') i ltac:(lia) ltac:(lia) M R sys HS w _ Hw Hwl)|].
        intros (M1, R1) HS1. cbn [fst snd] in *. apply IH; auto; lia.
      + cbn [rel]. split; auto. constructor; auto.
  Qed.

  Theorem fme_heuristic_rel n V V' : matr V V' -> dims n V' -> nonzero n V' ->
    rl matr (m_fme_heuristic A order V) (fme_heuristic order n V').
  Proof.
    intros HM HV Hnz. unfold m_fme_heuristic, fme_heuristic.
    assert (P := prepare_ok n V' HV). assert (Hpos := nonzero_matrix n V' HV Hnz).
    assert (HWd := W_dims n V' HV).
    eapply rel_bind; [apply (prepare_rel n V V' HM HV Hnz)|]. cbv zeta in *.
    set (p := prepare n V') in *. intros ((M, W), zc) (H1 & H2 & ->).
    set (d := length (p_matrix p)) in *.
    assert (HMd : dims d (p_matrix p)).
    { assert (H := inv_dims _ _ _ (po_inv _ _ _ P)). unfold initial_system in H. rewrite map_map in H. cbn [fst] in H.
      rewrite map_id in H. exact H. }
    assert (Hle := po_len _ _ _ P). fold d in Hle.
    eapply (rel_bind _ _ (fun r r' => matr r r' /\ dims d r')).
    - unfold m_phase_two_heuristic. rewrite (matr_len _ _ H1). fold d. unfold bs_variable.
      rewrite (matr_len _ _ H2), word_end_pos by lia. cbn [bind].
      set (K := (1 + (length (p_vertices p) - 1) / 32)%nat).
      assert (HK : (length (p_vertices p) <= 32 * K)%nat).
      { assert (H := Nat.div_mod (length (p_vertices p) - 1) 32 ltac:(lia)).
        assert (Hm := Nat.mod_upper_bound (length (p_vertices p) - 1) 32 ltac:(lia)). unfold K. lia. }
      eapply rel_bind; [apply (initialize_rel K d M _ W _ _ H1 H2 HMd HWd Hle HK); reflexivity|].
      intros R HR. fold d in HR. apply (heuristic_loop_rel K d W _ H2 HWd HK Hpos (length (p_vertices p) - d) d M R _ ltac:(lia) (le_n _) HR).
    - intros F (HF & HFd). cbn beta. assert (Hdz := po_dim _ _ _ P). fold d in Hdz.
      apply (reinsert_rel F _ (p_zero p) d); auto.
      + apply (po_desc _ _ _ P).
      + intros c Hc. rewrite (Nat.add_comm d). rewrite Hdz. apply (po_zero _ _ _ P); auto.
  Qed.
End Ops.
