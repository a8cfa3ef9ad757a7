(** * FmeReduce: the preparation phase - equations, eliminated columns, initial basis. *)
From Coq Require Import List ZArith NArith Lia Bool Arith Permutation.
From Verif Require Import Spec LinAlg Cone Bits ListUtil FmeCore Gauss FmePure.
Import ListNotations.
Open Scope Z_scope.

(** ** Descending sort *)
Fixpoint desc (l : list nat) : Prop :=
  match l with [] => True | x :: l' => (forall y, In y l' -> (y < x)%nat) /\ desc l' end.

Lemma insert_desc_perm x l : Permutation (insert_desc x l) (x :: l).
Proof.
  induction l as [|y l IH]; cbn [insert_desc]; auto. destruct (y <=? x)%nat; auto.
  rewrite IH. apply perm_swap.
Qed.
Lemma sort_desc_perm l : Permutation (sort_desc l) l.
Proof. induction l as [|x l IH]; cbn [sort_desc fold_right]; auto. rewrite insert_desc_perm. constructor; auto. Qed.

Lemma insert_desc_desc x l : ~ In x l -> desc l -> desc (insert_desc x l).
Proof.
  induction l as [|y l IH]; cbn [insert_desc desc In]; intros Hn Hd.
  - split; auto. intros y [].
  - destruct Hd as (H1 & H2). destruct (Nat.leb_spec y x) as [H|H]; cbn [desc].
    + split; [|split; auto]. intros z [<-|Hz].
      * destruct (Nat.eq_dec y x); [exfalso; apply Hn; left; auto|lia].
      * assert (z < y)%nat by auto. lia.
    + split; [|apply IH; auto]. intros z Hz.
      apply (Permutation_in _ (insert_desc_perm x l)) in Hz. destruct Hz as [<-|Hz]; auto.
Qed.
Lemma sort_desc_desc l : NoDup l -> desc (sort_desc l).
Proof.
  induction 1 as [|x l Hn Hd IH]; cbn [sort_desc fold_right]; [exact I|].
  apply insert_desc_desc; auto. intros Hin. apply Hn. apply (Permutation_in _ (sort_desc_perm l)); auto.
Qed.

Lemma desc_NoDup l : desc l -> NoDup l.
Proof.
  induction l as [|x l IH]; cbn [desc]; intros H; [constructor|]. destruct H as (H1 & H2).
  constructor; auto. intros Hx. specialize (H1 x Hx). lia.
Qed.

Lemma desc_nth l i : desc l -> (i < length l)%nat -> (nth i l 0 + i < nth 0 l 0 + 1)%nat.
Proof.
  revert i. induction l as [|x l IH]; cbn [desc length]; intros i Hd Hi; [lia|]. destruct Hd as (H1 & H2).
  destruct i as [|i]; cbn [nth]; [lia|]. destruct l as [|y l]; [cbn in Hi; lia|].
  assert (Hy := H1 y (or_introl eq_refl)). specialize (IH i H2). cbn [length nth] in *. specialize (IH ltac:(lia)). lia.
Qed.

Lemma desc_lt l i j : desc l -> (i < j)%nat -> (j < length l)%nat -> (nth j l 0 < nth i l 0)%nat.
Proof.
  revert i j. induction l as [|x l IH]; cbn [desc length]; intros i j Hd Hij Hj; [lia|]. destruct Hd as (H1 & H2).
  destruct i as [|i], j as [|j]; cbn [nth]; try lia.
  - apply H1. apply nth_In. lia.
  - apply IH; auto; lia.
Qed.

(** ** Swapping out rows *)
Lemma swap_length {A} (d : A) l i j : length (swap d l i j) = length l.
Proof. unfold swap. rewrite !upd_length. reflexivity. Qed.

Lemma nth_swap {A} (d : A) l i j k : (i < length l)%nat -> (j < length l)%nat ->
  nth k (swap d l i j) d = if (k =? j)%nat then nth i l d else if (k =? i)%nat then nth j l d else nth k l d.
Proof.
  intros Hi Hj. unfold swap. rewrite !nth_upd, !upd_length.
  destruct (Nat.eqb_spec k j) as [->|H1]; cbn [andb].
  - destruct (Nat.ltb_spec j (length l)); [reflexivity|lia].
  - destruct (Nat.eqb_spec k i) as [->|H2]; cbn [andb]; auto.
    destruct (Nat.ltb_spec i (length l)); [reflexivity|lia].
Qed.

Lemma upd_perm {A} (d : A) l i x : (i < length l)%nat -> Permutation (nth i l d :: upd l i x) (x :: l).
Proof.
  revert i; induction l as [|y l IH]; intros [|i]; cbn [length nth upd]; intros H; try lia.
  - apply perm_swap.
  - rewrite perm_swap. rewrite IH by lia. apply perm_swap.
Qed.

Lemma swap_perm {A} (d : A) l i j : (i < length l)%nat -> (j < length l)%nat -> Permutation (swap d l i j) l.
Proof.
  intros Hi Hj. unfold swap.
  assert (H1 := upd_perm d l i (nth j l d) Hi).
  assert (H2 := upd_perm d (upd l i (nth j l d)) j (nth i l d) ltac:(rewrite upd_length; auto)).
  assert (E : nth j (upd l i (nth j l d)) d = nth j l d).
  { rewrite nth_upd. destruct (_ && _); reflexivity. }
  rewrite E in H2. apply (Permutation_cons_inv (a := nth j l d)).
  rewrite H2. rewrite H1. reflexivity.
Qed.

Lemma extract_rows_spec M idx : desc idx -> (forall i, In i idx -> (i < length M)%nat) ->
  fst (extract_rows M idx) = map (fun i => nth i M []) idx /\
  Permutation (fst (extract_rows M idx) ++ snd (extract_rows M idx)) M /\
  length (snd (extract_rows M idx)) = (length M - length idx)%nat.
Proof.
  intros Hd Hb. unfold extract_rows.
  set (step := fun (M0 : list vec) i => swap (A:=vec) [] M0 (nth i idx 0%nat) (length M0 - 1 - i)).
  assert (Hidx : forall i, (i < length idx)%nat -> (nth i idx 0 + i <= length M - 1)%nat).
  { intros i Hi. assert (H := desc_nth idx i Hd Hi).
    assert (H0 : (nth 0 idx 0 < length M)%nat) by (apply Hb, nth_In; lia). lia. }
  assert (Hlen : (length idx <= length M)%nat).
  { destruct (length idx) as [|k] eqn:Ek; [lia|]. specialize (Hidx k ltac:(lia)).
    assert (H0 : (nth 0 idx 0 < length M)%nat) by (apply Hb, nth_In; lia). lia. }
  assert (H : forall k, (k <= length idx)%nat -> let M' := fold_left step (seq 0 k) M in
     length M' = length M /\ Permutation M' M /\
     (forall j, (j < k)%nat -> nth (length M - 1 - j) M' [] = nth (nth j idx 0%nat) M []) /\
     (forall p, (forall j, (j < k)%nat -> (p < nth j idx 0)%nat) -> nth p M' [] = nth p M [])).
  { induction k as [|k IH]; intros Hk; cbn zeta.
    - cbn [seq fold_left]. repeat split; auto. intros j Hj; lia.
    - rewrite seq_S, fold_left_app. cbn [fold_left plus].
      destruct (IH ltac:(lia)) as (L & P & E & U). set (M' := fold_left step (seq 0 k) M) in *.
      assert (Hki := Hidx k ltac:(lia)).
      assert (Hk0 : (nth k idx 0 < length M)%nat) by (apply Hb, nth_In; lia).
      unfold step. rewrite L. split; [rewrite swap_length; auto|]. split; [rewrite swap_perm; auto; lia|].
      split.
      + intros j Hj. rewrite nth_swap by lia.
        destruct (Nat.eqb_spec (length M - 1 - j) (length M - 1 - k)) as [E'|E'].
        * assert (j = k) as -> by lia. apply U. intros j Hj'. apply desc_lt; auto; lia.
        * assert (Hjk : (j < k)%nat) by lia.
          destruct (Nat.eqb_spec (length M - 1 - j) (nth k idx 0%nat)) as [E2|E2].
          -- assert (Hjj := Hidx j ltac:(lia)). assert (Hlt := desc_lt idx j k Hd Hjk ltac:(lia)). lia.
          -- apply E; auto.
      + intros p Hp. assert (Hpk := Hp k ltac:(lia)). rewrite nth_swap by lia.
        destruct (Nat.eqb_spec p (length M - 1 - k)); [lia|].
        destruct (Nat.eqb_spec p (nth k idx 0%nat)); [lia|]. apply U. intros j Hj. apply Hp. lia. }
  destruct (H (length idx) (le_n _)) as (L & P & E & _). clear H.
  set (M' := fold_left step (seq 0 (length idx)) M) in *. cbn [fst snd].
  split; [|split].
  - apply (nth_ext _ _ [] []).
    + rewrite rev_length, skipn_length, map_length. lia.
    + intros j Hj. rewrite rev_length, skipn_length in Hj.
      rewrite rev_nth by (rewrite skipn_length; lia). rewrite skipn_length.
      rewrite (nth_map' _ idx j 0%nat) by lia.
      rewrite <- E by lia. rewrite nth_skipn. f_equal. lia.
  - rewrite <- Permutation_rev, Permutation_app_comm, firstn_skipn. exact P.
  - rewrite firstn_length. lia.
Qed.

(** ** Erasing and reinserting columns *)
Definition er (zc : list nat) (v : vec) : vec := fold_left (fun v c => erase c v) zc v.
Definition ins (zc : list nat) (r : vec) : vec := fold_right (fun c r => insert_at c 0 r) r zc.

Lemma er_length zc v : desc zc -> (forall c, In c zc -> (c < length v)%nat) ->
  length (er zc v) = (length v - length zc)%nat.
Proof.
  revert v; induction zc as [|c zc IH]; cbn [desc er fold_left length]; intros v Hd Hb; [lia|].
  destruct Hd as (H1 & H2). assert (Hc := Hb c (or_introl eq_refl)).
  unfold er in IH. rewrite IH; auto.
  - rewrite erase_length by auto. lia.
  - intros x Hx. rewrite erase_length by auto. specialize (H1 x Hx). lia.
Qed.

Lemma ins_length zc r : length (ins zc r) = (length zc + length r)%nat.
Proof. induction zc as [|c zc IH]; cbn [ins fold_right length]; auto. rewrite insert_at_length. unfold ins in IH. lia. Qed.

Lemma desc_bound zc n : desc zc -> (forall c, In c zc -> (c < n)%nat) -> (length zc <= n)%nat.
Proof.
  revert n; induction zc as [|c zc IH]; cbn [desc length]; intros n Hd Hb; [lia|].
  destruct Hd as (H1 & H2). assert (Hc := Hb c (or_introl eq_refl)). specialize (IH c H2 H1). lia.
Qed.

Lemma dot_ins zc r v : desc zc -> (forall c, In c zc -> (c < length v)%nat) ->
  length v = (length zc + length r)%nat -> dot (ins zc r) v = dot r (er zc v).
Proof.
  revert v; induction zc as [|c zc IH]; cbn [desc er fold_left length ins fold_right]; intros v Hd Hb Hl; [reflexivity|].
  destruct Hd as (H1 & H2). assert (Hc := Hb c (or_introl eq_refl)).
  assert (Hil := ins_length zc r). unfold ins in Hil.
  rewrite dot_insert0 by lia. unfold ins, er in IH. apply IH; auto.
  - intros x Hx. rewrite erase_length by auto. specialize (H1 x Hx). lia.
  - rewrite erase_length by auto. lia.
Qed.

Lemma nth_er zc v c : (forall x, In x zc -> (c < x)%nat) -> nth c (er zc v) 0 = nth c v 0.
Proof.
  revert v; induction zc as [|x zc IH]; cbn [er fold_left]; intros v H; auto.
  unfold er in IH. rewrite IH by (intros; apply H; right; auto).
  rewrite nth_erase. specialize (H x (or_introl eq_refl)). destruct (Nat.ltb_spec c x); [auto|lia].
Qed.

Lemma dot_er zc r v : desc zc -> (forall c, In c zc -> (c < length r)%nat) -> length v = length r ->
  (forall c, In c zc -> nth c r 0 = 0) -> dot (er zc r) (er zc v) = dot r v.
Proof.
  revert r v; induction zc as [|c zc IH]; cbn [desc er fold_left]; intros r v Hd Hb Hl Hz; auto.
  destruct Hd as (H1 & H2). assert (Hc := Hb c (or_introl eq_refl)).
  unfold er in IH. rewrite IH; auto.
  - apply dot_erase; auto. apply Hz; left; auto.
  - intros x Hx. rewrite erase_length by auto. specialize (H1 x Hx). lia.
  - rewrite !erase_length by lia. lia.
  - intros x Hx. rewrite nth_erase. specialize (H1 x Hx). destruct (Nat.ltb_spec x c); [|lia]. apply Hz; right; auto.
Qed.

Lemma eliminate_zero_columns_spec n M V : dims n M ->
  let '(M', V', zc) := eliminate_zero_columns n M V in
  desc zc /\ (forall c, In c zc <-> (c < n)%nat /\ forall r, In r M -> nth c r 0 = 0) /\
  M' = map (er zc) M /\ V' = map (er zc) V.
Proof.
  intros HM. unfold eliminate_zero_columns.
  assert (H : forall k, (k <= n)%nat ->
    let '(M', V', zc) := fold_left zero_col_step (rev (seq (n - k) k)) (M, V, []) in
    desc zc /\ (forall c, In c zc <-> (n - k <= c < n)%nat /\ forall r, In r M -> nth c r 0 = 0) /\
    M' = map (er zc) M /\ V' = map (er zc) V).
  { induction k as [|k IH]; intros Hk.
    - cbn [seq rev fold_left]. split; [exact I|]. split; [intros c; split; [intros []|lia]|].
      unfold er; cbn [fold_left]. rewrite !map_id. auto.
    - replace (seq (n - S k) (S k)) with ((n - S k)%nat :: seq (n - k) k)
        by (cbn [seq]; f_equal; f_equal; lia).
      cbn [rev]. rewrite fold_left_app. cbn [fold_left]. specialize (IH ltac:(lia)).
      destruct (fold_left zero_col_step (rev (seq (n - k) k)) (M, V, [])) as ((M', V'), zc).
      destruct IH as (D & Z & EM & EV). unfold zero_col_step.
      set (col := (n - S k)%nat) in *.
      assert (Hgt : forall x, In x zc -> (col < x)%nat) by (intros x Hx; apply Z in Hx; lia).
      assert (Htest : forallb (fun r => nth col r 0 =? 0) M' = true <-> forall r, In r M -> nth col r 0 = 0).
      { rewrite forallb_forall, EM. split.
        - intros H r Hr. specialize (H (er zc r) (in_map _ _ _ Hr)). apply Z.eqb_eq in H. rewrite nth_er in H; auto.
        - intros H r Hr. apply in_map_iff in Hr. destruct Hr as (r' & <- & Hr). apply Z.eqb_eq. rewrite nth_er; auto. }
      assert (Her : forall (l : list vec), map (erase col) (map (er zc) l) = map (er (zc ++ [col])) l).
      { intros l. rewrite map_map. apply map_ext. intros r. unfold er. rewrite fold_left_app. reflexivity. }
      destruct (forallb (fun r : list BinNums.Z => nth col r 0 =? 0) M').
      + assert (Hz := proj1 Htest eq_refl). split; [|split; [|split]].
        * clear - D Hgt. revert D Hgt. induction zc as [|x zc IH]; cbn [desc app]; intros D Hgt.
          -- split; auto. intros y [].
          -- destruct D as (D1 & D2). split; [|apply IH; auto; intros; apply Hgt; right; auto].
             intros y Hy. apply in_app_iff in Hy. destruct Hy as [Hy|[<-|[]]]; auto. apply Hgt; left; auto.
        * intros c. rewrite in_app_iff. cbn [In]. rewrite Z. split.
          -- intros [(H1 & H2)|[<-|[]]]; split; auto; unfold col in *; lia.
          -- intros (H1 & H2). destruct (Nat.eq_dec c col) as [->|Hne]; auto. left. split; auto. unfold col in Hne. lia.
        * rewrite EM. apply Her.
        * rewrite EV. apply Her.
      + split; [exact D|]. split; [|auto]. intros c. rewrite Z. split.
        * intros (H1 & H2). split; auto. lia.
        * intros (H1 & H2). destruct (Nat.eq_dec c col) as [->|Hne].
          -- apply Htest in H2. discriminate.
          -- split; auto. unfold col in Hne. lia. }
  specialize (H n (le_n _)). rewrite Nat.sub_diag in H.
  destruct (fold_left zero_col_step (rev (seq 0 n)) (M, V, [])) as ((M', V'), zc).
  destruct H as (D & Z & E). split; [exact D|]. split; [|exact E]. intros c. rewrite Z. split; intros (? & ?); split; auto; lia.
Qed.

Lemma reinsert_spec zc M : reinsert_zero_columns zc M = map (ins zc) M.
Proof.
  unfold reinsert_zero_columns. rewrite <- fold_left_rev_right, rev_involutive.
  induction zc as [|c zc IH]; cbn [fold_right].
  - symmetry. apply map_id.
  - rewrite IH, map_map. reflexivity.
Qed.

(** ** Moving the used vertices to the front *)
Lemma take_used_spec V T : desc (rev T) -> (forall i, In i T -> (i < length V)%nat) ->
  exists rest, take_used V T = map (fun i => nth i V []) (rev T) ++ rest /\ Permutation (take_used V T) V.
Proof.
  unfold take_used. intros Hd Hb.
  assert (Hb' : forall i, In i (rev T) -> (i < length V)%nat) by (intros i Hi; apply Hb, in_rev; auto).
  revert Hd Hb'. generalize (rev T) as idx. clear Hb. intros idx.
  assert (H : forall (used W : list vec), desc idx -> (forall i, In i idx -> (i < length W)%nat) ->
     let s := fold_left use_step idx (used, W) in
     fst s = used ++ map (fun i => nth i W []) idx /\ Permutation (fst s ++ snd s) (used ++ W)).
  { induction idx as [|x idx IH]; cbn [desc fold_left]; intros used W Hd Hb; cbn zeta.
    - cbn [fst snd map]. rewrite app_nil_r. auto.
    - destruct Hd as (H1 & H2). assert (Hx := Hb x (or_introl eq_refl)). cbn [fst snd].
      destruct (IH (used ++ [nth x W []]) (erase x W) H2) as (E & P).
      { intros i Hi. rewrite erase_length by auto. specialize (H1 i Hi). lia. }
      unfold use_step at 2. unfold use_step at 3. unfold use_step at 4. cbn [fst snd].
      set (s := fold_left use_step idx _) in *. split.
      + rewrite E. rewrite <- app_assoc. cbn [map app]. f_equal. f_equal. apply map_ext_in. intros i Hi.
        rewrite nth_erase. specialize (H1 i Hi). destruct (Nat.ltb_spec i x); [auto|lia].
      + rewrite P. rewrite <- app_assoc. apply Permutation_app_head. cbn [app]. symmetry. apply erase_perm; auto. }
  intros Hd Hb. destruct (H [] V Hd Hb) as (E & P). cbn [app] in *.
  destruct (fold_left use_step idx ([], V)) as (used, rest). cbn [fst snd] in *. subst used. exists rest; auto.
Qed.
