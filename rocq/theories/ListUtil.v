(** * ListUtil: vector-like list operations (update, erase, insert) and their laws. *)
From Coq Require Import List ZArith Lia Bool Arith Permutation.
From Verif Require Import Spec LinAlg.
Import ListNotations.

(** [v[i] = x] *)
Fixpoint upd {A} (l : list A) (i : nat) (x : A) : list A :=
  match l, i with
  | [], _ => []
  | _ :: l', O => x :: l'
  | y :: l', S i' => y :: upd l' i' x
  end.

(** [v.erase(v.begin() + i)] *)
Fixpoint erase {A} (i : nat) (l : list A) : list A :=
  match l, i with
  | [], _ => []
  | _ :: l', O => l'
  | y :: l', S i' => y :: erase i' l'
  end.

(** [v.insert(v.begin() + i, x)] *)
Fixpoint insert_at {A} (i : nat) (x : A) (l : list A) : list A :=
  match i, l with
  | O, _ => x :: l
  | S i', y :: l' => y :: insert_at i' x l'
  | S _, [] => [x]
  end.

Lemma upd_length {A} (l : list A) i x : length (upd l i x) = length l.
Proof. revert i; induction l as [|y l IH]; intros [|i]; cbn [upd length]; auto. Qed.

Lemma nth_upd {A} (l : list A) i j x d :
  nth j (upd l i x) d = if (j =? i)%nat && (j <? length l)%nat then x else nth j l d.
Proof.
  revert i j; induction l as [|y l IH]; intros [|i] [|j]; cbn [upd nth length]; auto.
  - rewrite andb_false_r; reflexivity.
  - rewrite IH. reflexivity.
Qed.

Lemma nth_upd_same {A} (l : list A) i x d : (i < length l)%nat -> nth i (upd l i x) d = x.
Proof. intros H. rewrite nth_upd, Nat.eqb_refl. destruct (Nat.ltb_spec i (length l)); auto; lia. Qed.

Lemma nth_upd_other {A} (l : list A) i j x d : j <> i -> nth j (upd l i x) d = nth j l d.
Proof. intros H. rewrite nth_upd. destruct (Nat.eqb_spec j i); auto; congruence. Qed.

Lemma erase_length {A} (l : list A) i : (i < length l)%nat -> length (erase i l) = (length l - 1)%nat.
Proof.
  revert i; induction l as [|y l IH]; intros [|i]; cbn [erase length]; intros H; try lia.
  rewrite IH by lia. lia.
Qed.

Lemma insert_at_length {A} (l : list A) i x : length (insert_at i x l) = S (length l).
Proof. revert i; induction l as [|y l IH]; intros [|i]; cbn [insert_at length]; auto. Qed.

Lemma insert_erase {A} (l : list A) i d : (i < length l)%nat -> insert_at i (nth i l d) (erase i l) = l.
Proof.
  revert i; induction l as [|y l IH]; intros [|i]; cbn [erase length insert_at nth]; intros H; try lia; auto.
  f_equal. apply IH. lia.
Qed.

Lemma erase_perm {A} (l : list A) i d : (i < length l)%nat -> Permutation l (nth i l d :: erase i l).
Proof.
  revert i; induction l as [|y l IH]; intros [|i]; cbn [erase length nth]; intros H; try lia; auto.
  rewrite (IH i) at 1 by lia. apply perm_swap.
Qed.

Lemma nth_erase {A} (l : list A) i j d : nth j (erase i l) d = if (j <? i)%nat then nth j l d else nth (S j) l d.
Proof.
  revert i j; induction l as [|y l IH]; intros [|i] [|j]; cbn [erase nth]; auto.
  - destruct (_ <? _)%nat; reflexivity.
  - rewrite IH. change (S j <? S i)%nat with (j <? i)%nat. reflexivity.
Qed.

Open Scope Z_scope.

Lemma dot_insert0 i a v : (i <= length a)%nat -> length v = S (length a) ->
  dot (insert_at i 0 a) v = dot a (erase i v).
Proof.
  revert i v; induction a as [|x a IH]; intros [|i] v Hi Hl; cbn [length] in *.
  - destruct v as [|y v]; cbn [length] in *; [lia|]. cbn [insert_at erase dot]. destruct v; cbn [length dot] in *; lia.
  - lia.
  - destruct v as [|y v]; cbn [length] in *; [lia|]. cbn [insert_at erase dot]. cbn [dot]. lia.
  - destruct v as [|y v]; cbn [length] in *; [lia|]. cbn [insert_at erase dot]. rewrite IH by lia. lia.
Qed.

Lemma dot_erase i a v : (i < length a)%nat -> length v = length a -> nth i a 0 = 0 ->
  dot (erase i a) (erase i v) = dot a v.
Proof.
  intros Hi Hl Hz. rewrite <- (dot_insert0 i (erase i a)).
  - rewrite <- Hz at 1. rewrite insert_erase by auto. reflexivity.
  - rewrite erase_length by auto. lia.
  - rewrite erase_length by auto. lia.
Qed.

Lemma dot_nth_sum a v : length a = length v ->
  dot a v = fold_right Z.add 0 (map (fun j => nth j a 0 * nth j v 0) (seq 0 (length a))).
Proof.
  revert v; induction a as [|x a IH]; intros [|y v]; cbn [length]; intros H; try discriminate; auto.
  cbn [seq map fold_right dot nth]. rewrite <- seq_shift, map_map. cbn [nth]. rewrite IH by lia. reflexivity.
Qed.

Lemma nth_vadd a b j : length a = length b -> nth j (vadd a b) 0 = nth j a 0 + nth j b 0.
Proof.
  revert b j; induction a as [|x a IH]; intros [|y b] [|j]; cbn [length vadd nth]; intros H; try discriminate; auto.
Qed.

Lemma nth_vscale k a j : nth j (vscale k a) 0 = k * nth j a 0.
Proof.
  unfold vscale. replace 0 with (k * 0) at 1 by lia. apply map_nth.
Qed.

Lemma nth_vzero n j : nth j (vzero n) 0 = 0.
Proof. unfold vzero. revert j; induction n as [|n IH]; intros [|j]; cbn [repeat nth]; auto. Qed.

Lemma vec_ext_nth n a b : length a = n -> length b = n -> (forall j, (j < n)%nat -> nth j a 0 = nth j b 0) -> a = b.
Proof. intros Ha Hb H. apply (nth_ext a b 0 0); [congruence|]. intros j Hj. apply H. lia. Qed.

Lemma vec_nz n a : length a = n -> a <> vzero n -> exists j, (j < n)%nat /\ nth j a 0 <> 0.
Proof.
  intros Hl Hn.
  destruct (Forall_Exists_dec (fun j => nth j a 0 = 0) (fun j => Z.eq_dec (nth j a 0) 0) (seq 0 n)) as [H|H].
  - exfalso; apply Hn. apply (vec_ext_nth n); auto using vzero_length.
    intros j Hj. rewrite nth_vzero. rewrite Forall_forall in H. apply H. apply in_seq; lia.
  - apply Exists_exists in H. destruct H as (j & Hj & Hz). apply in_seq in Hj. exists j; split; auto; lia.
Qed.

(** Unit vectors *)
Definition unit_vec (n i : nat) (c : Z) : vec := upd (vzero n) i c.

Lemma unit_vec_length n i c : length (unit_vec n i c) = n.
Proof. unfold unit_vec. rewrite upd_length. apply vzero_length. Qed.

Lemma dot_upd a i x v : (i < length a)%nat -> length v = length a ->
  dot (upd a i x) v = dot a v + (x - nth i a 0) * nth i v 0.
Proof.
  revert i v; induction a as [|y a IH]; intros [|i] [|z v]; cbn [length]; intros Hi Hl; try lia;
    cbn [upd dot nth]; [lia|]. rewrite IH by lia. lia.
Qed.

Lemma dot_unit n i c v : (i < n)%nat -> length v = n -> dot (unit_vec n i c) v = c * nth i v 0.
Proof.
  intros Hi Hl. unfold unit_vec. rewrite dot_upd by (rewrite vzero_length; auto).
  rewrite dot_vzero_l, nth_vzero. lia.
Qed.

(** ** Independent families of full size *)
Lemma independent_of_kernel n V : dims n V -> length V = n ->
  (forall x, length x = n -> vanishes V x -> x = vzero n) -> independent n V.
Proof.
  intros HV Hl Hk cs Hcs E. apply Forall_forall. intros c Hc.
  destruct (Z.eq_dec c 0) as [|Hnz]; auto. exfalso.
  apply In_nth with (d := 0) in Hc. destruct Hc as (e & He & Hce).
  assert (Hel : (e < length V)%nat) by lia.
  destruct (underdetermined n (erase e V)) as (y & Hy & Hyz & Hys).
  { eapply dims_incl; [|exact HV]. intros v Hv.
    apply (Permutation_in v (Permutation_sym (erase_perm V e [] Hel))). right; auto. }
  { rewrite erase_length by auto. lia. }
  assert (Hdot : dot (lincomb n cs V) y = 0) by (rewrite E; apply dot_vzero_l).
  rewrite dot_lincomb_l in Hdot by auto.
  assert (Hsplit : forall (cs : list Z) (V : list vec) e, length cs = length V -> (e < length V)%nat ->
     (forall v, In v (erase e V) -> dot v y = 0) ->
     dot cs (map (fun v => dot v y) V) = nth e cs 0 * dot (nth e V []) y).
  { clear. intros cs V; revert cs; induction V as [|v V IH]; intros [|c cs] e Hl He Hz; cbn [length] in *; try lia.
    destruct e as [|e]; cbn [map dot nth erase] in *.
    - assert (Hzero : dot cs (map (fun v => dot v y) V) = 0); [|lia].
      clear - Hz. revert V Hz; induction cs as [|c cs IH]; intros [|v V] Hz; cbn [map dot]; auto.
      rewrite IH by (intros; apply Hz; right; auto). rewrite (Hz v (or_introl eq_refl)). lia.
    - rewrite (IH cs e); try lia.
      + rewrite (Hz v); [lia|left; auto].
      + intros u Hu. apply Hz. right; auto. }
  rewrite (Hsplit cs V e) in Hdot; auto.
  apply Hyz. apply Hk; auto. intros v Hv.
  apply (Permutation_in v (erase_perm V e [] Hel)) in Hv. rewrite dot_comm.
  destruct Hv as [<-|Hv]; [nia|auto].
Qed.

(** Columns of a list of vectors. *)
Definition colv (j : nat) (M : list vec) : vec := map (fun r => nth j r 0) M.

Lemma colv_length j M : length (colv j M) = length M.
Proof. apply map_length. Qed.

Lemma nth_lincomb n cs V j : dims n V -> nth j (lincomb n cs V) 0 = dot (colv j V) cs.
Proof.
  intros HV; revert cs; induction HV as [|v V Hv HV IH]; intros [|c cs]; cbn [lincomb colv map dot];
    try apply nth_vzero.
  rewrite nth_vadd, nth_vscale by (rewrite vscale_length, lincomb_length; auto).
  rewrite IH. unfold colv. lia.
Qed.

Lemma kernel_of_independent n V : dims n V -> length V = n -> independent n V ->
  forall x, length x = n -> vanishes V x -> x = vzero n.
Proof.
  intros HV Hl Hi x Hx Hv.
  destruct (list_eq_dec Z.eq_dec x (vzero n)) as [|Hne]; auto. exfalso.
  destruct (vec_nz n x Hx Hne) as (i & Hin & Hxi).
  destruct (underdetermined n (map (fun j => colv j V) (erase i (seq 0 n)))) as (c & Hc & Hcz & Hcs).
  { apply Forall_forall. intros e He. apply in_map_iff in He. destruct He as (j & <- & _). rewrite colv_length; auto. }
  { rewrite map_length, erase_length; rewrite seq_length; lia. }
  assert (Hw : forall j, (j < n)%nat -> j <> i -> nth j (lincomb n c V) 0 = 0).
  { intros j Hj Hji. rewrite nth_lincomb by auto. apply Hcs. apply in_map_iff. exists j; split; auto.
    assert (Hp := erase_perm (seq 0 n) i 0%nat). rewrite seq_length in Hp. specialize (Hp Hin).
    assert (Hj' : In j (seq 0 n)) by (apply in_seq; lia).
    apply (Permutation_in _ Hp) in Hj'. destruct Hj' as [E|Hj']; auto. rewrite seq_nth in E by auto. cbn in E; lia. }
  assert (Hlw : length (lincomb n c V) = n) by (apply lincomb_length; auto).
  assert (Hxw : dot (lincomb n c V) x = 0).
  { rewrite dot_lincomb_l by auto. clear - Hv. revert c; induction V as [|v V IH]; intros [|c0 c]; cbn [map dot]; auto.
    rewrite IH by (intros u Hu; apply Hv; right; auto). rewrite (dot_comm v x), (Hv v (or_introl eq_refl)). lia. }
  assert (Hone : forall m w x, length w = m -> length x = m -> (forall j, (j < m)%nat -> j <> i -> nth j w 0 = 0) ->
     dot w x = nth i w 0 * nth i x 0).
  { clear. revert i. intros i m; revert i; induction m as [|m IH]; intros i w x Hw Hx Hz.
    - destruct w, x; cbn [length] in *; try lia. destruct i; reflexivity.
    - destruct w as [|a w], x as [|b x]; cbn [length] in *; try lia. cbn [dot].
      destruct i as [|i].
      + cbn [nth]. rewrite (IH (S m)); try lia.
        * rewrite (nth_overflow w), (nth_overflow x) by lia. lia.
        * intros j Hj _. apply (Hz (S j)); lia.
      + cbn [nth]. rewrite (IH i); try lia.
        * assert (a = 0) by (apply (Hz 0%nat); lia). subst a. lia.
        * intros j Hj Hji. apply (Hz (S j)); lia. }
  rewrite (Hone n) in Hxw by auto.
  assert (Hwz : lincomb n c V = vzero n).
  { apply (vec_ext_nth n); auto using vzero_length. intros j Hj. rewrite nth_vzero.
    destruct (Nat.eq_dec j i) as [->|]; [nia|auto]. }
  apply Hcz. specialize (Hi c ltac:(lia) Hwz).
  apply (vec_ext_nth n); auto using vzero_length. intros j Hj. rewrite nth_vzero.
  rewrite Forall_forall in Hi. apply Hi. apply nth_In. lia.
Qed.

Lemma span_of_independent n V : dims n V -> length V = n -> independent n V ->
  forall x, length x = n -> in_span n V x.
Proof.
  intros HV Hl Hi x Hx.
  destruct (underdetermined (S n) (map (fun j => nth j x 0 :: colv j V) (seq 0 n))) as (c & Hc & Hcz & Hcs).
  { apply Forall_forall. intros e He. apply in_map_iff in He. destruct He as (j & <- & _).
    cbn [length]. rewrite colv_length; auto. }
  { rewrite map_length, seq_length. lia. }
  destruct c as [|k c]; cbn [length] in Hc; [lia|].
  assert (Hj : forall j, (j < n)%nat -> nth j x 0 * k + nth j (lincomb n c V) 0 = 0).
  { intros j Hj. rewrite nth_lincomb by auto. apply (Hcs (nth j x 0 :: colv j V)).
    apply in_map_iff. exists j; split; auto. apply in_seq; lia. }
  assert (Hlw : length (lincomb n c V) = n) by (apply lincomb_length; auto).
  destruct (Z.eq_dec k 0) as [->|Hk].
  - exfalso. assert (Hz : lincomb n c V = vzero n).
    { apply (vec_ext_nth n); auto using vzero_length. intros j Hjn. rewrite nth_vzero. specialize (Hj j Hjn). lia. }
    apply Hcz. specialize (Hi c ltac:(lia) Hz).
    apply (vec_ext_nth (S n)); cbn [length]; rewrite ?vzero_length; auto; try lia.
    intros [|j] Hjn; rewrite nth_vzero; cbn [nth]; auto.
    rewrite Forall_forall in Hi. apply Hi. apply nth_In. lia.
  - exists (Z.abs k), (vscale (- Z.sgn k) c). split; [lia|]. split; [rewrite vscale_length; lia|].
    apply (vec_ext_nth n).
    + rewrite vscale_length; auto.
    + apply lincomb_length; auto.
    + intros j Hjn. specialize (Hj j Hjn). rewrite nth_vscale, nth_lincomb, dot_vscale_r by auto.
      rewrite nth_lincomb in Hj by auto. pose proof (Z.abs_sgn k). nia.
Qed.

Lemma nth_skipn {A} (l : list A) k j d : nth j (skipn k l) d = nth (k + j) l d.
Proof.
  revert l; induction k as [|k IH]; intros [|x l]; cbn [skipn plus nth]; auto. destruct j; reflexivity.
Qed.

Lemma nth_map' {A B} (f : A -> B) l j d d' : (j < length l)%nat -> nth j (map f l) d' = f (nth j l d).
Proof.
  revert j; induction l as [|x l IH]; intros [|j]; cbn [length map nth]; intros H; try lia; auto. apply IH; lia.
Qed.
