(** * ApplyTheorems: what applying a map to a row computes. *)
From Coq Require Import List ZArith Arith Lia Bool.
From Verif Require Import Base Spec LinAlg ListUtil FmeCore ArithModel SafeIntModel Refine IntTypes FmeTheorems ClassesModel.
Import ListNotations.
Open Scope Z_scope.

(** The value of the image [c1*x_k1 + c2*x_k2 + ...] at [x], and the point whose coordinates are the values of the images. *)
Definition image_value (im : image) (x : vec) : Z := fold_right (fun tm s => snd tm * nth (fst tm) x 0 + s) 0 im.
Definition substitute (m : lmap) (x : vec) : vec := map (fun im => image_value im x) m.
(** A map in dimension [n]: one image per coordinate, whose terms refer to existing coordinates and have [int] factors. *)
Definition map_in (n : nat) (m : lmap) : Prop :=
  length m = n /\ Forall (Forall (fun tm : term => (fst tm < n)%nat /\ fits 32 (snd tm) = true)) m.

Definition pstep (tg : tag) (r : vec) (i : nat) (acc : vec) (tm : term) : vec :=
  let '(s, d) := match tg with Facet_tag => (i, fst tm) | Vertex_tag => (fst tm, i) end in
  upd acc d (nth d acc 0 + snd tm * nth s r 0).
Definition praw (tg : tag) (m : lmap) (r : vec) : vec :=
  fold_left (fun acc i => fold_left (pstep tg r i) (nth i m []) acc) (seq 0 (length m)) (vzero (length r)).

Lemma pstep_length tg r i acc tm : length (pstep tg r i acc tm) = length acc.
Proof. unfold pstep. destruct tg; apply upd_length. Qed.
Lemma pfold_length tg r i im acc : length (fold_left (pstep tg r i) im acc) = length acc.
Proof. revert acc. induction im as [|tm im IH]; intros acc; cbn [fold_left]; auto. rewrite IH. apply pstep_length. Qed.
Lemma praw_length tg m r : length (praw tg m r) = length r.
Proof.
  unfold praw. assert (H : forall l acc, length (fold_left (fun acc i => fold_left (pstep tg r i) (nth i m []) acc) l acc) = length acc).
  { induction l as [|i l IH]; intros acc; cbn [fold_left]; auto. rewrite IH. apply pfold_length. }
  rewrite H. apply vzero_length.
Qed.

Definition sumf {X} (f : X -> Z) (l : list X) : Z := fold_right (fun i s => f i + s) 0 l.
Lemma sumf_ext {X} (f g : X -> Z) l : (forall i, In i l -> f i = g i) -> sumf f l = sumf g l.
Proof. induction l as [|x l IH]; intros H; cbn [sumf fold_right]; auto. fold (sumf f l). fold (sumf g l). rewrite H by (left; auto). rewrite IH; auto. intros; apply H; right; auto. Qed.
Lemma sumf_map {X Y} (f : Y -> Z) (g : X -> Y) l : sumf f (map g l) = sumf (fun x => f (g x)) l.
Proof. induction l as [|x l IH]; cbn [map sumf fold_right]; auto. fold (sumf f (map g l)). rewrite IH. reflexivity. Qed.
Lemma sumf_scale {X} k (f : X -> Z) l : sumf (fun x => k * f x) l = k * sumf f l.
Proof. induction l as [|x l IH]; cbn [sumf fold_right]; [lia|]. fold (sumf (fun x => k * f x) l). fold (sumf f l). rewrite IH. lia. Qed.
Lemma sum_dot (a b : vec) n : length a = n -> length b = n -> sumf (fun i => nth i a 0 * nth i b 0) (seq 0 n) = dot a b.
Proof.
  revert a b. induction n as [|n IH]; intros [|x a] [|y b] Ha Hb; try discriminate; auto.
  cbn [seq sumf fold_right dot]. fold (sumf (fun i => nth i (x :: a) 0 * nth i (y :: b) 0) (seq 1 n)).
  rewrite <- seq_shift, sumf_map. cbn [nth]. f_equal. apply IH; cbn [length] in *; lia.
Qed.

Lemma image_value_sum im x : image_value im x = sumf (fun tm => snd tm * nth (fst tm) x 0) im.
Proof. reflexivity. Qed.

Section Dot.
  Variables (n : nat) (m : lmap) (r x : vec).
  Hypothesis Hm : map_in n m.
  Hypothesis Hr : length r = n.
  Hypothesis Hx : length x = n.

  Lemma map_terms i tm : In tm (nth i m []) -> (fst tm < n)%nat /\ fits 32 (snd tm) = true.
  Proof.
    intros H. destruct (nth_in_or_default i m []) as [Hi|E]; [|rewrite E in H; destruct H].
    destruct Hm as (_ & Hf). rewrite Forall_forall in Hf. specialize (Hf _ Hi). rewrite Forall_forall in Hf. auto.
  Qed.

  Definition weight (tg : tag) (i : nat) (tm : term) : Z :=
    match tg with
    | Facet_tag => snd tm * nth i r 0 * nth (fst tm) x 0
    | Vertex_tag => snd tm * nth (fst tm) r 0 * nth i x 0
    end.
  Lemma pstep_dot tg i acc tm : (i < n)%nat -> (fst tm < n)%nat -> length acc = n ->
    dot (pstep tg r i acc tm) x = dot acc x + weight tg i tm.
  Proof. intros Hi Ht Ha. unfold pstep, weight. destruct tg; rewrite dot_upd by congruence; lia. Qed.
  Lemma pfold_dot tg i im acc : (i < n)%nat -> (forall tm, In tm im -> (fst tm < n)%nat) -> length acc = n ->
    dot (fold_left (pstep tg r i) im acc) x = dot acc x + sumf (weight tg i) im.
  Proof.
    intros Hi. revert acc. induction im as [|tm im IH]; intros acc H Ha; cbn [fold_left sumf fold_right]; [lia|].
    fold (sumf (weight tg i) im). rewrite IH by (try rewrite pstep_length; auto; intros; apply H; right; auto).
    rewrite pstep_dot by (auto; apply H; left; auto). lia.
  Qed.
  Lemma praw_dot tg : dot (praw tg m r) x = sumf (fun i => sumf (weight tg i) (nth i m [])) (seq 0 n).
  Proof.
    unfold praw. rewrite Hr. rewrite (proj1 Hm).
    assert (H : forall l acc, (forall i, In i l -> (i < n)%nat) -> length acc = n ->
      dot (fold_left (fun acc i => fold_left (pstep tg r i) (nth i m []) acc) l acc) x = dot acc x + sumf (fun i => sumf (weight tg i) (nth i m [])) l).
    { induction l as [|i l IH]; intros acc Hl Ha; cbn [fold_left]; [cbn [sumf fold_right]; lia|].
      rewrite IH by (try rewrite pfold_length; auto; intros; apply Hl; right; auto).
      rewrite pfold_dot by (auto; try (apply Hl; left; auto); intros tm Htm; apply (map_terms i tm Htm)).
      cbn [sumf fold_right]. fold (sumf (fun i => sumf (weight tg i) (nth i m [])) l). lia. }
    rewrite H; [rewrite dot_vzero_l; lia|intros i Hi; apply in_seq in Hi; lia|apply vzero_length].
  Qed.
  Lemma substitute_length (y : vec) : length (substitute m y) = n.
  Proof. unfold substitute. rewrite map_length. apply Hm. Qed.
  Lemma nth_substitute i y : nth i (substitute m y) 0 = image_value (nth i m []) y.
  Proof. unfold substitute. change 0 with (image_value [] y) at 1. apply map_nth. Qed.

  Lemma facet_dot : dot (praw Facet_tag m r) x = dot r (substitute m x).
  Proof.
    rewrite praw_dot, <- (sum_dot r (substitute m x) n Hr (substitute_length x)). apply sumf_ext. intros i _.
    rewrite nth_substitute, image_value_sum, <- sumf_scale. apply sumf_ext. intros tm _. unfold weight. lia.
  Qed.
  Lemma vertex_dot : dot (praw Vertex_tag m r) x = dot (substitute m r) x.
  Proof.
    rewrite praw_dot, <- (sum_dot (substitute m r) x n (substitute_length r) Hx). apply sumf_ext. intros i _.
    rewrite nth_substitute, image_value_sum, Z.mul_comm, <- sumf_scale. apply sumf_ext. intros tm _. unfold weight. lia.
  Qed.
End Dot.

Lemma dot_ext n (a b : vec) : length a = n -> length b = n -> (forall x, length x = n -> dot a x = dot b x) -> a = b.
Proof.
  revert a b. induction n as [|n IH]; intros [|x a] [|y b] Ha Hb H; try discriminate; auto. f_equal.
  - specialize (H (1 :: vzero n)). cbn [length dot] in H. rewrite !dot_vzero_r, vzero_length in H. specialize (H eq_refl). lia.
  - apply IH; cbn [length] in *; try lia. intros z Hz. specialize (H (0 :: z)). cbn [length dot] in H. specialize (H ltac:(lia)). lia.
Qed.
Lemma vertex_raw n m r : map_in n m -> length r = n -> praw Vertex_tag m r = substitute m r.
Proof.
  intros Hm Hr. apply (dot_ext n); [rewrite praw_length; auto|apply substitute_length; auto|]. intros x Hx. apply (vertex_dot n); auto.
Qed.

(** ** Refinement *)
Section Ops.
  Variables (allowT allowU : bool) (A : Arith) (S : Sound allowT allowU A).
  Notation rl := (rel allowT allowU).
  Notation vr := (vr S).
  Notation rowr := (rowr S).

  Lemma apply_term_rel tg input input' acc acc' i tm n : rowr input input' -> rowr acc acc' -> length input' = n -> length acc' = n ->
    (i < n)%nat -> (fst tm < n)%nat -> fits 32 (snd tm) = true ->
    rl rowr (m_apply_term A tg input acc i tm) (pstep tg input' i acc' tm).
  Proof.
    intros Hi Ha Li La Hin Htm Hf. unfold m_apply_term, pstep.
    assert (G : forall s d, (s < n)%nat -> (d < n)%nat -> rl rowr
      (do x <- get input s; do p <- a_mul A (a_lit A (snd tm)) x; do y <- get acc d; do z <- a_add A y p; set acc d z)
      (upd acc' d (nth d acc' 0 + snd tm * nth s input' 0))).
    { intros s d Hs Hd. destruct (get_ok vr input input' s 0 Hi) as (x & Ex & Hx); [lia|]. rewrite Ex. cbn [bind].
      eapply rel_bind; [exact (vr_mul _ _ _ S _ _ _ _ (vr_int _ _ _ S _ Hf) Hx)|]. intros p Hp.
      destruct (get_ok vr acc acc' d 0 Ha) as (y & Ey & Hy); [lia|]. rewrite Ey. cbn [bind].
      eapply rel_bind; [exact (vr_add _ _ _ S _ _ _ _ Hy Hp)|]. intros z Hz.
      destruct (set_ok vr acc acc' d z _ Ha ltac:(lia) Hz) as (q & Eq & Hq). rewrite Eq. exact Hq. }
    destruct tg; apply G; auto.
  Qed.

  Lemma apply_rel tg m input input' n : map_in n m -> rowr input input' -> length input' = n ->
    rl rowr (m_apply A tg m input) (rnorm (praw tg m input')).
  Proof.
    intros Hm Hi Li. unfold m_apply. eapply rel_bind; [|intros x Hx; apply row_reduce_rel; exact Hx].
    unfold m_apply_raw, praw.
    assert (Hl : length input = length input') by (apply (rowr_len _ _ _ S); auto).
    assert (G : rl (fun a b => rowr a b /\ length b = n)
      (foldM (fun acc i => do entry <- get m i; foldM (fun acc' tm => m_apply_term A tg input acc' i tm) acc entry) (repeat (a_lit A 0) (length input)) (seq 0 (length m)))
      (fold_left (fun acc i => fold_left (pstep tg input' i) (nth i m []) acc) (seq 0 (length m)) (vzero (length input')))).
    { apply rel_foldM_same.
      - intros i acc acc' Hin (Ha & La). apply in_seq in Hin. assert (Hin' : (i < n)%nat) by (destruct Hm; lia).
        assert (E : get m i = Ok (nth i m [])).
        { unfold get. rewrite (nth_error_nth' m []) by lia. reflexivity. }
        rewrite E. cbn [bind].
        apply rel_foldM_same; [|auto]. intros tm a b Htm (Hab & Lb). destruct (map_terms n m Hm i tm Htm) as (H1 & H2).
        eapply rel_impl; [exact (apply_term_rel tg input input' a b i tm n Hi Hab Li Lb Hin' H1 H2)|].
        intros q Hq. split; auto. rewrite pstep_length. auto.
      - split; [|rewrite vzero_length; auto]. rewrite Hl. unfold vzero.
        generalize (length input'). clear -S. intros k. induction k as [|k IH]; cbn [repeat]; constructor; [apply vr_lit; auto|exact IH]. }
    eapply rel_impl; [exact G|]. intros q (Hq & _). exact Hq.
  Qed.
End Ops.

Lemma apply_outcome t tg n m (r : vec) : t <> INT16 -> map_in n m -> length r = n -> Forall (representable t) r ->
  outcome t (do x <- m_apply (arith t) tg m r; Ok [x]) [rnorm (praw tg m r)].
Proof.
  intros Ht Hm Hr Hrep. apply (outcome_of t Ht). eapply rel_bind; [exact (apply_rel _ _ _ (sound_type t Ht) tg m r r n Hm (vec_rel t Ht r Hrep) Hr)|].
  intros x Hx. constructor; auto.
Qed.
Lemma apply_result t tg n m (r y : vec) : t <> INT16 -> map_in n m -> length r = n -> Forall (representable t) r ->
  m_apply (arith t) tg m r = Ok y -> y = rnorm (praw tg m r) /\ Forall (representable t) y.
Proof.
  intros Ht Hm Hr Hrep E. assert (H := apply_rel _ _ _ (sound_type t Ht) tg m r r n Hm (vec_rel t Ht r Hrep) Hr). rewrite E in H. cbn [rel] in H.
  apply rel_vec in H. exact H.
Qed.
Lemma apply_exact tg n m (r : vec) : map_in n m -> length r = n -> m_apply (arith EXACT) tg m r = Ok (rnorm (praw tg m r)).
Proof.
  intros Hm Hr. assert (Ht : EXACT <> INT16) by discriminate.
  assert (Hrep : Forall (representable EXACT) r) by (apply Forall_forall; cbn; auto).
  assert (H := apply_rel _ _ _ (sound_type EXACT Ht) tg m r r n Hm (vec_rel EXACT Ht r Hrep) Hr).
  match type of H with (rel _ _ _ ?m _) => destruct m as [y| |] end; cbn [rel may_throw may_be_undefined] in H; try discriminate.
  apply rel_vec in H. destruct H as (<- & _). reflexivity.
Qed.
