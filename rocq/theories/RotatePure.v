(** * RotatePure: rotating a facet around a ridge, over the integers. *)
From Coq Require Import List ZArith Arith Lia Bool.
From Verif Require Import Spec LinAlg ListUtil Cone FmeCore Adjacency.
Import ListNotations.
Open Scope Z_scope.

(** The first vertex that is best: [m_extremal] over the integers. *)
Fixpoint extremal (better : Z -> Z -> bool) (a best : vec) (vs : list vec) : vec :=
  match vs with
  | [] => best
  | v :: vs' => if better (- dot a v) (- dot a best) then extremal better a v vs' else extremal better a best vs'
  end.
Definition extremal_of (better : Z -> Z -> bool) (V : list vec) (a : vec) : vec :=
  match V with [] => [] | v :: vs => extremal better a v vs end.
Definition nearest (V : list vec) (a : vec) : vec := extremal_of (fun d e => e >? d) V a.
Definition furthest (V : list vec) (a : vec) : vec := extremal_of (fun d e => d >? e) V a.

Lemma extremal_in better a best vs : extremal better a best vs = best \/ In (extremal better a best vs) vs.
Proof.
  revert best. induction vs as [|v vs IH]; intros best; cbn [extremal]; auto.
  destruct (better _ _).
  - destruct (IH v) as [E|E]; [rewrite E; right; left; auto|right; right; auto].
  - destruct (IH best) as [E|E]; auto. right; right; auto.
Qed.
Lemma extremal_of_in better V a : V <> [] -> In (extremal_of better V a) V.
Proof.
  destruct V as [|v vs]; [congruence|]. intros _. cbn [extremal_of]. destruct (extremal_in better a v vs) as [E|E].
  - rewrite E. left; auto.
  - right; auto.
Qed.
Lemma nearest_best a vs : forall best,
  dot a best <= dot a (extremal (fun d e => e >? d) a best vs) /\ forall v, In v vs -> dot a v <= dot a (extremal (fun d e => e >? d) a best vs).
Proof.
  induction vs as [|u vs IH]; intros best; cbn [extremal]; [split; [lia|intros v []]|].
  destruct (- dot a best >? - dot a u) eqn:E.
  - apply Z.gtb_lt in E. destruct (IH u) as (I1 & I2). split; [lia|]. intros v [<-|Hv]; auto.
  - assert (- dot a best <= - dot a u) by (destruct (Z.gtb_spec (- dot a best) (- dot a u)); [discriminate|lia]).
    destruct (IH best) as (I1 & I2). split; [lia|]. intros v [<-|Hv]; [lia|auto].
Qed.
Lemma furthest_best a vs : forall best,
  dot a (extremal (fun d e => d >? e) a best vs) <= dot a best /\ forall v, In v vs -> dot a (extremal (fun d e => d >? e) a best vs) <= dot a v.
Proof.
  induction vs as [|u vs IH]; intros best; cbn [extremal]; [split; [lia|intros v []]|].
  destruct (- dot a u >? - dot a best) eqn:E.
  - apply Z.gtb_lt in E. destruct (IH u) as (I1 & I2). split; [lia|]. intros v [<-|Hv]; auto.
  - assert (- dot a u <= - dot a best) by (destruct (Z.gtb_spec (- dot a u) (- dot a best)); [discriminate|lia]).
    destruct (IH best) as (I1 & I2). split; [lia|]. intros v [<-|Hv]; [lia|auto].
Qed.
Lemma nearest_max V a v : In v V -> dot a v <= dot a (nearest V a).
Proof.
  destruct V as [|u vs]; [intros []|]. unfold nearest. cbn [extremal_of]. destruct (nearest_best a vs u) as (I1 & I2).
  intros [<-|Hv]; auto.
Qed.
Lemma furthest_min V a v : In v V -> dot a (furthest V a) <= dot a v.
Proof.
  destruct V as [|u vs]; [intros []|]. unfold furthest. cbn [extremal_of]. destruct (furthest_best a vs u) as (I1 & I2).
  intros [<-|Hv]; auto.
Qed.

(** One step: [d_f * ridge - d_r * facet] with the distances of [w], reduced. *)
Definition rotate_step (f r w : vec) : vec :=
  let df := - dot f w in
  let dr := - dot r w in
  let g := Z.gcd df dr in
  let d := if g >? 1 then (Z.quot df g, Z.quot dr g) else (df, dr) in
  rnorm (vadd (vscale (fst d) r) (vscale (-1) (vscale (snd d) f))).
Fixpoint rotate_loop (fuel : nat) (V : list vec) (f r w : vec) : vec :=
  match fuel with
  | O => r
  | S fuel' =>
      let r' := rotate_step f r w in
      let w' := nearest V r' in
      if dot r' w' =? 0 then r' else rotate_loop fuel' V f r' w'
  end.
Definition rotate (V : list vec) (f r : vec) : vec := rotate_loop (length V + 1) V f r (furthest V f).

Lemma rotate_step_length n f r w : length f = n -> length r = n -> length (rotate_step f r w) = n.
Proof. intros Hf Hr. unfold rotate_step. rewrite rnorm_length. apply vadd_length_eq; rewrite !vscale_length; auto. Qed.

Lemma rotate_step_spec n f r w : length f = n -> length r = n -> dot f w < 0 ->
  exists k, 0 < k /\ forall v, k * dot (rotate_step f r w) v = - dot f w * dot r v + dot r w * dot f v.
Proof.
  intros Hf Hr Hw. unfold rotate_step.
  set (df := - dot f w). set (dr := - dot r w). set (g := Z.gcd df dr).
  assert (Hd : exists c, 0 < c /\ df = c * fst (if g >? 1 then (Z.quot df g, Z.quot dr g) else (df, dr)) /\
    dr = c * snd (if g >? 1 then (Z.quot df g, Z.quot dr g) else (df, dr))).
  { destruct (g >? 1) eqn:E; cbn [fst snd].
    - apply Z.gtb_lt in E. exists g. split; [lia|].
      destruct (Z.gcd_divide_l df dr) as (x & Hx). destruct (Z.gcd_divide_r df dr) as (y & Hy). fold g in Hx, Hy.
      assert (Ex : Z.quot df g = x) by (rewrite Hx; apply Z.quot_mul; lia).
      assert (Ey : Z.quot dr g = y) by (rewrite Hy; apply Z.quot_mul; lia). rewrite Ex, Ey. lia.
    - exists 1. lia. }
  destruct Hd as (c & Hc & H1 & H2). destruct (if g >? 1 then _ else _) as [x y]. cbn [fst snd] in *.
  set (s := vadd (vscale x r) (vscale (-1) (vscale y f))). exists (c * rfac s). assert (P := rfac_pos s). split; [nia|].
  intros v. replace (c * rfac s * dot (rnorm s) v) with (c * (rfac s * dot (rnorm s) v)) by ring.
  rewrite <- dot_rnorm. unfold s. rewrite dot_vadd_l, !dot_vscale_l by (rewrite !vscale_length; lia).
  replace (- dot f w) with df by reflexivity. replace (dot r w) with (- dr) by (unfold dr; lia).
  rewrite H1 at 1. rewrite H2 at 1. ring.
Qed.

Lemma rotate_step_primitive n f r w v : length f = n -> length r = n -> dot f w < 0 -> dot f v = 0 -> dot r v <> 0 ->
  primitive (rotate_step f r w).
Proof.
  intros Hf Hr Hw E Hv. destruct (rotate_step_spec n f r w Hf Hr Hw) as (k & Hk & H). specialize (H v). rewrite E in H.
  unfold rotate_step in *. set (s := vadd _ _) in *. clearbody s. apply rnorm_primitive. intros Hz.
  assert (Hd : dot s v = 0) by (rewrite Hz; apply dot_vzero_l). rewrite dot_rnorm in Hd. assert (P := rfac_pos s).
  assert (E0 : dot (rnorm s) v = 0) by nia. rewrite E0 in H. nia.
Qed.

Section Rotate.
  Variables (n : nat) (V : list vec) (f : vec).
  Hypothesis HV : dims n V.
  Hypothesis Hf : length f = n.
  Hypothesis Hfv : valid V f.

  Definition npos (r : vec) : nat := length (filter (fun v => 0 <? dot r v) V).

  (** [r'] is [r] rotated around the intersection with [f]. *)
  Definition turned (r r' : vec) : Prop :=
    length r' = n /\ exists k al be, 0 < k /\ 0 < al /\ forall v, length v = n -> k * dot r' v = al * dot r v + be * dot f v.

  Lemma turned_trans r s t : turned r s -> turned s t -> turned r t.
  Proof.
    intros (_ & k & a & b & Hk & Ha & H) (Hl & k' & a' & b' & Hk' & Ha' & H'). split; auto.
    exists (k * k'), (a * a'), (a' * b + k * b'). split; [nia|]. split; [nia|]. intros v Hv.
    specialize (H v Hv). specialize (H' v Hv).
    replace (k * k' * dot t v) with (k * (k' * dot t v)) by ring. rewrite H'.
    replace (k * (a' * dot s v + b' * dot f v)) with (a' * (k * dot s v) + k * b' * dot f v) by ring. rewrite H. ring.
  Qed.
  Lemma turned_valid r r' : valid (tight V f) r -> turned r r' -> valid (tight V f) r'.
  Proof.
    intros Hr (_ & k & a & b & Hk & Ha & H) v Hv. specialize (Hr v Hv). apply in_tight in Hv. destruct Hv as (Hv & E).
    specialize (H v (dims_in _ _ _ HV Hv)). rewrite E in H. nia.
  Qed.
  Lemma turned_nz r r' : nz (tight V f) r -> turned r r' -> nz (tight V f) r'.
  Proof.
    intros (v & Hv & Hne) (_ & k & a & b & Hk & Ha & H). exists v. split; auto. apply in_tight in Hv. destruct Hv as (Hv & E).
    specialize (H v (dims_in _ _ _ HV Hv)). rewrite E in H. nia.
  Qed.

  Lemma step_turned r w : length r = n -> dot f w < 0 -> turned r (rotate_step f r w).
  Proof.
    intros Hr Hw. split; [apply rotate_step_length; auto|]. destruct (rotate_step_spec n f r w Hf Hr Hw) as (k & Hk & H).
    exists k, (- dot f w), (dot r w). split; auto. split; [lia|]. auto.
  Qed.
  Lemma step_zero r w : length r = n -> dot f w < 0 -> dot (rotate_step f r w) w = 0.
  Proof. intros Hr Hw. destruct (rotate_step_spec n f r w Hf Hr Hw) as (k & Hk & H). specialize (H w). nia. Qed.
  Lemma step_npos r w : length r = n -> In w V -> dot f w < 0 -> 0 < dot r w -> (npos (rotate_step f r w) < npos r)%nat.
  Proof.
    intros Hr Hw Hfw Hrw. assert (Hz := step_zero r w Hr Hfw). destruct (rotate_step_spec n f r w Hf Hr Hfw) as (k & Hk & H).
    unfold npos. apply (filter_length_lt _ _ V w); auto.
    - intros v Hv Hp. apply Z.ltb_lt in Hp. apply Z.ltb_lt. specialize (H v). specialize (Hfv v Hv).
      destruct (Z_lt_ge_dec 0 (dot r v)); auto. nia.
    - rewrite Hz. reflexivity.
    - apply Z.ltb_lt; auto.
  Qed.
  Lemma npos_le r w : In w V -> dot r w = 0 -> (npos r < length V)%nat.
  Proof.
    intros Hw E. unfold npos.
    assert (H : (length (filter (fun v => (0 <? dot r v)%Z) V) < length (filter (fun _ => true) V))%nat).
    { apply (filter_length_lt _ _ V w); auto. rewrite E. reflexivity. }
    assert (E2 : filter (fun _ : vec => true) V = V) by (clear; induction V as [|x l IH]; cbn [filter]; [auto|f_equal; auto]).
    rewrite E2 in H. exact H.
  Qed.

  (** Facts about a state after a step with [w]. *)
  Lemma after r w : length r = n -> valid (tight V f) r -> nz (tight V f) r -> In w V -> dot f w < 0 ->
    let r' := rotate_step f r w in let w' := nearest V r' in
    length r' = n /\ valid (tight V f) r' /\ nz (tight V f) r' /\ primitive r' /\ In w' V /\ 0 <= dot r' w' /\
    (dot r' w' = 0 -> valid V r') /\ (0 < dot r' w' -> dot f w' < 0).
  Proof.
    intros Hr Hval Hnz Hw Hfw r' w'. assert (T := step_turned r w Hr Hfw). fold r' in T.
    assert (Hv' := turned_valid r r' Hval T). assert (Hz := step_zero r w Hr Hfw). fold r' in Hz.
    assert (HVne : V <> []) by (intros ->; destruct Hw).
    assert (Hw' : In w' V) by (apply extremal_of_in; auto).
    assert (Hmax : forall v, In v V -> dot r' v <= dot r' w') by (intros; apply nearest_max; auto).
    split; [apply T|]. split; [exact Hv'|]. split; [apply (turned_nz r); auto|]. split.
    { destruct Hnz as (v & Hv & Hne). apply in_tight in Hv. apply (rotate_step_primitive n f r w v); tauto. }
    split; auto. split; [specialize (Hmax w Hw); lia|]. split.
    - intros E v Hv. specialize (Hmax v Hv). lia.
    - intros Hp. assert (H1 := Hfv w' Hw'). destruct (Z.eq_dec (dot f w') 0) as [E|]; [|lia].
      assert (dot r' w' <= 0); [|lia]. apply Hv'. apply in_tight; auto.
  Qed.

  Lemma rotate_loop_ok fuel : forall r w, length r = n -> valid (tight V f) r -> nz (tight V f) r -> In w V -> dot f w < 0 ->
    0 < dot r w -> (npos r <= fuel)%nat ->
    let g := rotate_loop fuel V f r w in turned r g /\ valid V g /\ primitive g /\ exists u, In u V /\ dot g u = 0 /\ dot f u < 0.
  Proof.
    induction fuel as [|fuel IH]; intros r w Hr Hval Hnz Hw Hfw Hrw Hn.
    - exfalso. unfold npos in Hn. assert (Hin : In w (filter (fun v => 0 <? dot r v) V)) by (apply filter_In; split; auto; apply Z.ltb_lt; auto).
      destruct (filter _ V); [destruct Hin|cbn in Hn; lia].
    - cbn [rotate_loop]. destruct (after r w Hr Hval Hnz Hw Hfw) as (Hl' & Hv' & Hz' & Hp' & Hw' & Hge & H0 & Hlt).
      assert (T := step_turned r w Hr Hfw). assert (Hzw := step_zero r w Hr Hfw). assert (Hc := step_npos r w Hr Hw Hfw Hrw).
      destruct (Z.eqb_spec (dot (rotate_step f r w) (nearest V (rotate_step f r w))) 0) as [E|Hne].
      + split; auto. split; auto. split; auto. exists w. auto.
      + destruct (IH (rotate_step f r w) (nearest V (rotate_step f r w))) as (G1 & G2); auto; try lia.
        split; auto. apply (turned_trans r (rotate_step f r w)); auto.
  Qed.

  Lemma rotate_loop_first fuel r w : length r = n -> valid (tight V f) r -> nz (tight V f) r -> In w V -> dot f w < 0 ->
    (length V <= fuel)%nat ->
    let g := rotate_loop fuel V f r w in turned r g /\ valid V g /\ primitive g /\ exists u, In u V /\ dot g u = 0 /\ dot f u < 0.
  Proof.
    intros Hr Hval Hnz Hw Hfw Hn. destruct fuel as [|fuel]; [destruct V; [destruct Hw|cbn in Hn; lia]|].
    cbn [rotate_loop]. destruct (after r w Hr Hval Hnz Hw Hfw) as (Hl' & Hv' & Hz' & Hp' & Hw' & Hge & H0 & Hlt).
    assert (T := step_turned r w Hr Hfw). assert (Hzw := step_zero r w Hr Hfw). assert (Hc := npos_le (rotate_step f r w) w Hw Hzw).
    destruct (Z.eqb_spec (dot (rotate_step f r w) (nearest V (rotate_step f r w))) 0) as [E|Hne].
    - split; auto. split; auto. split; auto. exists w. auto.
    - destruct (rotate_loop_ok fuel (rotate_step f r w) (nearest V (rotate_step f r w))) as (G1 & G2); auto; try lia.
      split; auto. apply (turned_trans r (rotate_step f r w)); auto.
  Qed.

  Lemma furthest_off : (exists v, In v V /\ dot f v < 0) -> In (furthest V f) V /\ dot f (furthest V f) < 0.
  Proof.
    intros (v & Hv & Hn). split; [apply extremal_of_in; intros ->; destruct Hv|]. assert (H := furthest_min V f v Hv). lia.
  Qed.

  Theorem rotate_ok r : length r = n -> valid (tight V f) r -> nz (tight V f) r -> (exists v, In v V /\ dot f v < 0) ->
    rotates n V f r (rotate V f r) /\ primitive (rotate V f r).
  Proof.
    intros Hr Hval Hnz Hex. destruct (furthest_off Hex) as (Hw & Hfw).
    destruct (rotate_loop_first (length V + 1) r (furthest V f)) as (T & Hv & Hp & Hu); auto; [lia|].
    split; auto. destruct T as (Hl & T). split; auto.
  Qed.
End Rotate.
