(** * LinAlg: elementary facts about integer vectors. *)
From Coq Require Import List ZArith Lia Bool Permutation.
From Verif Require Import Spec.
Import ListNotations.
Open Scope Z_scope.

Lemma dot_comm a b : dot a b = dot b a.
Proof. revert b; induction a as [|x a IH]; intros [|y b]; simpl; auto. rewrite IH; lia. Qed.

Lemma vscale_length k a : length (vscale k a) = length a.
Proof. unfold vscale; apply map_length. Qed.

Lemma vadd_length a b : length (vadd a b) = Nat.min (length a) (length b).
Proof. revert b; induction a as [|x a IH]; intros [|y b]; simpl; auto. Qed.

Lemma vadd_length_eq n a b : length a = n -> length b = n -> length (vadd a b) = n.
Proof. intros Ha Hb; rewrite vadd_length; lia. Qed.

Lemma vzero_length n : length (vzero n) = n.
Proof. apply repeat_length. Qed.

Lemma dot_vzero_l n a : dot (vzero n) a = 0.
Proof. unfold vzero; revert a; induction n as [|n IH]; intros [|x a]; cbn [repeat dot]; auto. rewrite IH; lia. Qed.

Lemma dot_vzero_r n a : dot a (vzero n) = 0.
Proof. rewrite dot_comm; apply dot_vzero_l. Qed.

Lemma dot_vscale_l k a b : dot (vscale k a) b = k * dot a b.
Proof. revert b; induction a as [|x a IH]; intros [|y b]; cbn [vscale map dot]; try lia.
  unfold vscale in IH. rewrite IH; lia. Qed.

Lemma dot_vscale_r k a b : dot a (vscale k b) = k * dot a b.
Proof. rewrite dot_comm, dot_vscale_l, dot_comm; reflexivity. Qed.

Lemma dot_vadd_l a b c : length a = length b -> dot (vadd a b) c = dot a c + dot b c.
Proof.
  revert b c; induction a as [|x a IH]; intros [|y b] [|z c]; cbn [length vadd dot]; intros H; try lia.
  rewrite IH by lia. lia.
Qed.

Lemma dot_vadd_r a b c : length b = length c -> dot a (vadd b c) = dot a b + dot a c.
Proof. intros H; rewrite dot_comm, dot_vadd_l by exact H. rewrite (dot_comm b), (dot_comm c); reflexivity. Qed.

Lemma vec_ext n a b : length a = n -> length b = n ->
  (forall c, length c = n -> dot a c = dot b c) -> a = b.
Proof.
  revert a b; induction n as [|n IH]; intros a b Ha Hb H.
  - destruct a, b; simpl in *; try discriminate; reflexivity.
  - destruct a as [|x a], b as [|y b]; simpl in Ha, Hb; try discriminate.
    f_equal.
    + specialize (H (1 :: vzero n)). cbn [dot length] in H. rewrite !dot_vzero_r, vzero_length in H.
      specialize (H eq_refl). lia.
    + apply IH; try lia. intros c Hc. specialize (H (0 :: c)). cbn [dot length] in H.
      specialize (H (f_equal S Hc)). lia.
Qed.

Lemma vscale_vscale k l a : vscale k (vscale l a) = vscale (k * l) a.
Proof. unfold vscale; rewrite map_map; apply map_ext; intros; lia. Qed.

Lemma vscale_1 a : vscale 1 a = a.
Proof. unfold vscale. rewrite <- (map_id a) at 2. apply map_ext; intros; lia. Qed.

Lemma vscale_0 a : vscale 0 a = vzero (length a).
Proof. induction a as [|x a IH]; cbn [vscale map length]; auto. unfold vzero; cbn [repeat]. f_equal; try lia. exact IH. Qed.

Lemma vscale_vzero k n : vscale k (vzero n) = vzero n.
Proof. unfold vzero, vscale; induction n as [|n IH]; cbn [repeat map]; auto. f_equal; try lia; auto. Qed.

Lemma vscale_vadd k a b : vscale k (vadd a b) = vadd (vscale k a) (vscale k b).
Proof. revert b; induction a as [|x a IH]; intros [|y b]; cbn [vscale vadd map]; auto.
  f_equal; [lia|apply IH]. Qed.

Lemma vadd_comm a b : vadd a b = vadd b a.
Proof. revert b; induction a as [|x a IH]; intros [|y b]; cbn [vadd]; auto. f_equal; auto; lia. Qed.

Lemma vadd_assoc a b c : vadd a (vadd b c) = vadd (vadd a b) c.
Proof. revert b c; induction a as [|x a IH]; intros [|y b] [|z c]; cbn [vadd]; auto. f_equal; auto; lia. Qed.

Lemma vadd_vzero_r n a : length a = n -> vadd a (vzero n) = a.
Proof. intros <-; unfold vzero; induction a as [|x a IH]; cbn [length repeat vadd]; auto. f_equal; auto; lia. Qed.

Lemma vadd_vzero_l n a : length a = n -> vadd (vzero n) a = a.
Proof. rewrite vadd_comm; apply vadd_vzero_r. Qed.

Lemma vscale_inj k a b : k <> 0 -> vscale k a = vscale k b -> a = b.
Proof.
  intros Hk; revert b; induction a as [|x a IH]; intros [|y b]; cbn [vscale map]; intros H; try discriminate; auto.
  injection H as H1 H2. f_equal; [nia|apply IH; exact H2].
Qed.

Lemma lincomb_length n cs vs : dims n vs -> length (lincomb n cs vs) = n.
Proof.
  intros H; revert cs; induction H as [|v vs Hv Hvs IH]; intros [|c cs]; cbn [lincomb];
    try apply vzero_length.
  rewrite vadd_length, vscale_length, IH; lia.
Qed.

Lemma dot_lincomb_l n cs vs x : dims n vs ->
  dot (lincomb n cs vs) x = dot cs (map (fun v => dot v x) vs).
Proof.
  intros H; revert cs; induction H as [|v vs Hv Hvs IH]; intros [|c cs]; cbn [lincomb dot map];
    try apply dot_vzero_l.
  rewrite dot_vadd_l, dot_vscale_l, IH; auto.
  rewrite vscale_length, lincomb_length; auto.
Qed.

Lemma dims_in n V v : dims n V -> In v V -> length v = n.
Proof. unfold dims; rewrite Forall_forall; auto. Qed.

Lemma dims_app n A B : dims n (A ++ B) <-> dims n A /\ dims n B.
Proof. apply Forall_app. Qed.

Lemma dims_incl n A B : incl A B -> dims n B -> dims n A.
Proof. unfold dims; rewrite !Forall_forall; auto. Qed.

(** Fewer homogeneous equations than unknowns have a non-trivial integer solution. *)
Lemma underdetermined (d : nat) (E : list vec) :
  dims d E -> (length E < d)%nat ->
  exists y, length y = d /\ y <> vzero d /\ forall e, In e E -> dot e y = 0.
Proof.
  revert E; induction d as [|d IH]; intros E HE Hlen; [lia|].
  destruct (Forall_Exists_dec (fun e => hd 0 e = 0) (fun e => Z.eq_dec (hd 0 e) 0) E) as [Hall|Hex].
  - exists (1 :: vzero d). split; [cbn [length]; rewrite vzero_length; reflexivity|].
    split; [unfold vzero; cbn [repeat]; discriminate|].
    intros e He. rewrite Forall_forall in Hall. specialize (Hall e He).
    destruct e as [|x e]; cbn [hd dot] in *; [reflexivity|]. rewrite dot_vzero_r; lia.
  - apply Exists_exists in Hex. destruct Hex as (e0 & He0 & Hh).
    apply in_split in He0. destruct He0 as (E1 & E2 & ->).
    destruct e0 as [|h t0]; [cbn [hd] in Hh; lia|]. cbn [hd] in Hh.
    set (F := map (fun e => vadd (vscale h (tl e)) (vscale (- hd 0 e) t0)) (E1 ++ E2)).
    assert (Ht0 : length t0 = d).
    { apply dims_in with (v := h :: t0) in HE; [cbn [length] in HE; lia|apply in_elt]. }
    assert (HE' : dims (S d) (E1 ++ E2)).
    { eapply dims_incl; [|exact HE]. intros e; rewrite !in_app_iff; cbn [In]; tauto. }
    destruct (IH F) as (y & Hy & Hnz & Hsol).
    + apply Forall_forall. intros f Hf. unfold F in Hf. apply in_map_iff in Hf.
      destruct Hf as (e & <- & He). pose proof (dims_in _ _ _ HE' He) as Hl.
      destruct e as [|x e]; cbn [length tl] in *; [lia|].
      apply vadd_length_eq; rewrite vscale_length; lia.
    + unfold F; rewrite map_length. rewrite app_length in *. cbn [length] in Hlen. lia.
    + exists ((- dot t0 y) :: vscale h y). split; [cbn [length]; rewrite vscale_length; lia|]. split.
      * intros Heq. unfold vzero in Heq. cbn [repeat] in Heq. injection Heq as _ Heq.
        fold (vzero d) in Heq. apply Hnz. rewrite <- (vscale_vzero h d) in Heq.
        apply vscale_inj in Heq; auto.
      * intros e He.
        assert (Hc : e = h :: t0 \/ In e (E1 ++ E2)).
        { rewrite in_app_iff in *; cbn [In] in He; intuition. }
        destruct Hc as [->|Hc].
        -- cbn [dot]. rewrite dot_vscale_r. lia.
        -- pose proof (dims_in _ _ _ HE' Hc) as Hl.
           destruct e as [|x e]; cbn [length] in Hl; [lia|].
           assert (Hf := Hsol (vadd (vscale h e) (vscale (- x) t0))).
           rewrite dot_vadd_l, !dot_vscale_l in Hf by (rewrite !vscale_length; lia).
           cbn [dot]. rewrite dot_vscale_r.
           assert (h * dot e y + - x * dot t0 y = 0); [|lia].
           apply Hf. unfold F. apply in_map_iff. exists (x :: e); auto.
Qed.
