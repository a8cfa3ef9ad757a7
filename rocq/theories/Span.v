(** * Span: closure properties of the rational linear span. *)
From Coq Require Import List ZArith Arith Lia.
From Verif Require Import Spec LinAlg Cone ListUtil.
Import ListNotations.
Open Scope Z_scope.

Lemma span_zero n V : dims n V -> in_span n V (vzero n).
Proof.
  intros HV. exists 1, (repeat 0 (length V)). split; [lia|]. split; [apply repeat_length|].
  rewrite lincomb_repeat0, vscale_vzero; auto.
Qed.

Lemma span_scale n V x k : in_span n V x -> in_span n V (vscale k x).
Proof.
  intros (m & cs & Hm & Hl & E). exists m, (vscale k cs). split; auto. split; [rewrite vscale_length; auto|].
  rewrite lincomb_vscale, <- E, !vscale_vscale. f_equal. lia.
Qed.

Lemma span_add n V x y : dims n V -> in_span n V x -> in_span n V y -> in_span n V (vadd x y).
Proof.
  intros HV (m & cs & Hm & Hl & E) (k & ds & Hk & Hl' & E').
  exists (m * k), (vadd (vscale k cs) (vscale m ds)). split; [nia|].
  split; [rewrite vadd_length, !vscale_length; lia|].
  rewrite lincomb_vadd by (rewrite ?vscale_length; auto).
  rewrite !lincomb_vscale, <- E, <- E', !vscale_vscale, vscale_vadd. f_equal; f_equal; lia.
Qed.

Lemma span_div n V x k : k <> 0 -> in_span n V (vscale k x) -> in_span n V x.
Proof.
  intros Hk (m & cs & Hm & Hl & E). rewrite vscale_vscale in E.
  exists (m * Z.abs k), (vscale (Z.sgn k) cs). split; [nia|]. split; [rewrite vscale_length; auto|].
  rewrite lincomb_vscale, <- E, vscale_vscale. f_equal. pose proof (Z.sgn_abs k). nia.
Qed.

Lemma span_in n V x : dims n V -> In x V -> in_span n V x.
Proof.
  intros HV Hx. destruct (lincomb_unit n V x 1 HV Hx ltac:(lia)) as (cs & Hl & _ & E).
  exists 1, cs. split; [lia|]. split; auto.
Qed.

Lemma span_lincomb n V W cs : dims n V -> dims n W -> (forall v, In v V -> in_span n W v) -> in_span n W (lincomb n cs V).
Proof.
  intros HV HW H. revert cs. induction HV as [|v V Hv HV IH]; intros [|c cs]; cbn [lincomb]; try (apply span_zero; auto).
  apply span_add; auto.
  - apply span_scale. apply H. left; auto.
  - apply IH. intros u Hu. apply H. right; auto.
Qed.

Lemma span_trans n V W x : dims n V -> dims n W -> (forall v, In v V -> in_span n W v) -> in_span n V x -> in_span n W x.
Proof.
  intros HV HW H (k & cs & Hk & Hl & E). apply (span_div n W x k); [lia|]. rewrite E. apply span_lincomb; auto.
Qed.

Lemma span_incl n V W x : dims n W -> incl V W -> in_span n V x -> in_span n W x.
Proof.
  intros HW Hi. apply span_trans; auto.
  - apply (dims_incl n V W); auto.
  - intros v Hv. apply span_in; auto.
Qed.

Lemma span_vanishes n V x v : dims n V -> in_span n V x -> (forall e, In e V -> dot e v = 0) -> dot x v = 0.
Proof.
  intros HV (k & cs & Hk & Hl & E) H.
  assert (E1 : k * dot x v = dot cs (map (fun e => dot e v) V)) by (rewrite <- dot_vscale_l, E, dot_lincomb_l; auto).
  assert (H0 : dot cs (map (fun e => dot e v) V) = 0); [|nia].
  clear - H. revert cs. induction V as [|e V IH]; intros [|c cs]; cbn [map dot]; auto.
  rewrite (H e) by (left; auto). rewrite IH; [lia|]. intros u Hu. apply H. right; auto.
Qed.

Lemma lincomb_app n cs ds V W : length cs = length V -> dims n V -> dims n W ->
  lincomb n (cs ++ ds) (V ++ W) = vadd (lincomb n cs V) (lincomb n ds W).
Proof.
  intros Hl HV HW. revert cs Hl. induction HV as [|v V Hv HV IH]; intros [|c cs] Hl; cbn [length] in *; try lia; cbn [app lincomb].
  - rewrite vadd_vzero_l; auto. apply lincomb_length; auto.
  - rewrite IH by lia. rewrite vadd_assoc. auto.
Qed.

(** Adding a vector outside the span keeps independence. *)
Lemma independent_snoc n B r : dims n B -> length r = n -> independent n B -> ~ in_span n B r -> independent n (B ++ [r]).
Proof.
  intros HB Hr Hi Hns cs Hl Hz. rewrite app_length in Hl. cbn [length] in Hl.
  destruct (@exists_last _ cs) as (ds & c & ->); [destruct cs; [cbn in Hl; lia|discriminate]|].
  rewrite app_length in Hl. cbn [length] in Hl.
  rewrite lincomb_app in Hz; auto; [|lia|constructor; auto].
  cbn [lincomb] in Hz. rewrite vadd_vzero_r in Hz by (rewrite vscale_length; auto).
  assert (Hc : c = 0).
  { destruct (Z.eq_dec c 0) as [|Hc]; auto. exfalso. apply Hns. apply (span_div n B r c); auto.
    exists 1, (vscale (-1) ds). split; [lia|]. split; [rewrite vscale_length; lia|].
    rewrite lincomb_vscale, vscale_1. apply (vec_ext n).
    - rewrite vscale_length; auto.
    - rewrite vscale_length. apply lincomb_length; auto.
    - intros x Hx. assert (H := f_equal (fun u => dot u x) Hz). cbn beta in H.
      rewrite dot_vzero_l, dot_vadd_l in H by (rewrite vscale_length, lincomb_length; auto).
      rewrite !dot_vscale_l in *. lia. }
  subst c. apply Forall_app. split; [|constructor; auto].
  apply Hi; [lia|]. rewrite vscale_0, Hr in Hz. rewrite vadd_vzero_r in Hz; auto. apply lincomb_length; auto.
Qed.

(** Vectors with a private non-zero coordinate each are independent. *)
Lemma independent_private n V : dims n V ->
  (forall i, (i < length V)%nat -> exists z, nth z (nth i V []) 0 <> 0 /\
      forall j, (j < length V)%nat -> j <> i -> nth z (nth j V []) 0 = 0) ->
  independent n V.
Proof.
  intros HV H cs Hl Hz. apply Forall_forall. intros c Hc. destruct (In_nth cs c 0 Hc) as (i & Hi & <-).
  destruct (H i) as (z & Hz1 & Hz2); [lia|].
  assert (E := f_equal (fun u => nth z u 0) Hz). cbn beta in E. rewrite nth_lincomb, nth_vzero in E by auto.
  assert (E2 : dot (colv z V) cs = nth z (nth i V []) 0 * nth i cs 0).
  { clear - Hl Hi Hz2. revert cs i Hl Hi Hz2. induction V as [|v V IH]; intros [|c cs] i Hl Hi Hz2; cbn [length] in *; try lia.
    unfold colv. cbn [map]. cbn [dot]. fold (colv z V). destruct i as [|i]; cbn [nth].
    - assert (E : dot (colv z V) cs = 0); [|lia].
      clear IH Hi. assert (Hall : forall v', In v' V -> nth z v' 0 = 0).
      { intros v' Hv'. destruct (In_nth V v' [] Hv') as (j & Hj & <-). apply (Hz2 (Datatypes.S j)); lia. }
      clear - Hall. revert cs. induction V as [|v V IH]; intros [|c cs]; cbn [colv map dot]; auto.
      rewrite (Hall v) by (left; auto). fold (colv z V). rewrite IH; [lia|]. intros; apply Hall; right; auto.
    - rewrite (IH cs i); try lia.
      + assert (Hv : nth z v 0 = 0) by (apply (Hz2 0%nat); lia). rewrite Hv. lia.
      + intros j Hj Hji. apply (Hz2 (Datatypes.S j)); lia. }
  nia.
Qed.
