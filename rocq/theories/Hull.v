(** * Hull: polyhedra in rational coordinates, and how homogenised integer rows represent them. *)
From Coq Require Import List ZArith QArith Arith Bool Lia Lqa.
From Verif Require Import Base Spec LinAlg ListUtil.
Import ListNotations.
Open Scope Q_scope.

(** ** Specification *)
(** Coordinate [j] of the sum of [c * v]. *)
Fixpoint comb (cs : list Q) (vs : list (list Q)) (j : nat) : Q :=
  match cs, vs with
  | c :: cs', v :: vs' => c * nth j v 0 + comb cs' vs' j
  | _, _ => 0
  end.
Definition sumQ (cs : list Q) : Q := fold_right Qplus 0 cs.
(** [p] (with [n] coordinates) is a convex combination of the points plus a non-negative combination of the rays. *)
Definition hull (n : nat) (points rays : list (list Q)) (p : list Q) : Prop :=
  exists mus nus, length mus = length points /\ length nus = length rays /\ Forall (Qle 0) mus /\ Forall (Qle 0) nus /\ sumQ mus == 1 /\
    forall j, (j < n)%nat -> comb mus points j + comb nus rays j == nth j p 0.
(** The point or ray that a row (x_1, ..., x_n, l) stands for: the point x / l if l is not zero, otherwise the ray x. *)
Definition is_point (row : vec) : bool := negb (Z.eqb (last row 0%Z) 0).
Definition point_of_row (row : vec) : list Q := map (fun x => inject_Z x / inject_Z (last row 0%Z)) (removelast row).
Definition ray_of_row (row : vec) : list Q := map inject_Z (removelast row).
Definition points_of (V : list vec) : list (list Q) := map point_of_row (filter is_point V).
Definition rays_of (V : list vec) : list (list Q) := map ray_of_row (filter (fun r => negb (is_point r)) V).
(** Equality of points. *)
Definition same_point (p q : list Q) : Prop := Forall2 Qeq p q.

(** ** Homogeneous combinations *)
Fixpoint hcomb (cs : list Q) (V : list vec) (j : nat) : Q :=
  match cs, V with
  | c :: cs', v :: V' => c * inject_Z (nth j v 0%Z) + hcomb cs' V' j
  | _, _ => 0
  end.
Definition homogeneous (n : nat) (V : list vec) : Prop := Forall (fun v => length v = S n /\ (0 <= nth n v 0)%Z) V.

Lemma row_split n (v : vec) : length v = S n -> exists xs b, v = xs ++ [b] /\ length xs = n /\ nth n v 0%Z = b /\ last v 0%Z = b /\ removelast v = xs.
Proof.
  intros H. destruct (exists_last (l := v)) as (xs & b & ->); [destruct v; discriminate|]. rewrite app_length in H. cbn in H. exists xs, b. split; auto. split; [lia|].
  assert (L : length xs = n) by lia. split; [rewrite app_nth2 by lia; rewrite L, Nat.sub_diag; reflexivity|]. split; [apply last_last|apply removelast_last].
Qed.
Lemma nth_map_default {A B} (f : A -> B) l j d d' : (j < length l)%nat -> nth j (map f l) d = f (nth j l d').
Proof. intros H. rewrite (nth_indep _ d (f d')) by (rewrite map_length; auto). apply map_nth. Qed.
Lemma point_coordinate n v j : length v = S n -> (j < n)%nat -> nth j (point_of_row v) 0 = inject_Z (nth j v 0%Z) / inject_Z (nth n v 0%Z).
Proof.
  intros Hl Hj. destruct (row_split n v Hl) as (xs & b & E & Hx & Hn & Hb & Hr). unfold point_of_row. rewrite Hr, Hb, Hn.
  rewrite (nth_map_default _ _ _ _ 0%Z) by lia. rewrite E, app_nth1 by lia. reflexivity.
Qed.
Lemma ray_coordinate n v j : length v = S n -> (j < n)%nat -> nth j (ray_of_row v) 0 = inject_Z (nth j v 0%Z).
Proof.
  intros Hl Hj. destruct (row_split n v Hl) as (xs & b & E & Hx & Hn & Hb & Hr). unfold ray_of_row. rewrite Hr.
  rewrite (nth_map_default _ _ _ _ 0%Z) by lia. rewrite E, app_nth1 by lia. reflexivity.
Qed.
Lemma inject_pos b : (0 < b)%Z -> 0 < inject_Z b.
Proof. intros H. change 0 with (inject_Z 0). rewrite <- Zlt_Qlt. auto. Qed.
Lemma is_point_spec n v : length v = S n -> (0 <= nth n v 0)%Z -> if is_point v then (0 < nth n v 0)%Z else nth n v 0%Z = 0%Z.
Proof.
  intros Hl Hn. destruct (row_split n v Hl) as (xs & b & E & Hx & Hn' & Hb & Hr). unfold is_point. rewrite Hb, Hn' in *. destruct (Z.eqb_spec b 0); cbn [negb]; lia.
Qed.
Lemma hcomb_hull n V : homogeneous n V -> forall cs, length cs = length V -> Forall (Qle 0) cs ->
  exists mus nus, length mus = length (points_of V) /\ length nus = length (rays_of V) /\ Forall (Qle 0) mus /\ Forall (Qle 0) nus /\ sumQ mus == hcomb cs V n /\
    forall j, (j < n)%nat -> comb mus (points_of V) j + comb nus (rays_of V) j == hcomb cs V j.
Proof.
  unfold points_of, rays_of. induction 1 as [|v V [Hl Hb] HV IH]; intros [|c cs] Hlen HC; try discriminate.
  - exists [], []. repeat split; auto; try constructor.
  - apply Forall_cons_iff in HC as [Hc HC]. cbn [length] in Hlen. destruct (IH cs ltac:(lia) HC) as (mus & nus & H1 & H2 & H3 & H4 & H5 & H6). clear IH.
    assert (K := is_point_spec n v Hl Hb). cbn [filter]. destruct (is_point v); cbn [negb].
    + assert (P := inject_pos _ K). exists (c * inject_Z (nth n v 0%Z) :: mus), nus. cbn [map length sumQ fold_right hcomb comb]. fold (sumQ mus). split; [lia|]. split; auto.
      split; [constructor; auto; apply Qmult_le_0_compat; auto; apply Qlt_le_weak; auto|]. split; auto. split; [rewrite H5; reflexivity|].
      intros j Hj. rewrite <- (H6 j Hj), (point_coordinate n) by auto. field. intros E. rewrite E in P. discriminate P.
    + exists mus, (c :: nus). cbn [map length sumQ fold_right hcomb comb]. fold (sumQ mus). split; auto. split; [lia|]. split; auto. split; [constructor; auto|].
      split; [rewrite H5, K; change (inject_Z 0) with 0; ring|]. intros j Hj. rewrite <- (H6 j Hj), (ray_coordinate n) by auto. ring.
Qed.
Lemma hull_hcomb n V : homogeneous n V -> forall mus nus, length mus = length (points_of V) -> length nus = length (rays_of V) -> Forall (Qle 0) mus -> Forall (Qle 0) nus ->
  exists cs, length cs = length V /\ Forall (Qle 0) cs /\ sumQ mus == hcomb cs V n /\ forall j, (j < n)%nat -> comb mus (points_of V) j + comb nus (rays_of V) j == hcomb cs V j.
Proof.
  unfold points_of, rays_of. induction 1 as [|v V [Hl Hb] HV IH]; intros mus nus H1 H2 H3 H4.
  - exists []. destruct mus; [|discriminate]. destruct nus; [|discriminate]. repeat split; auto; intros; reflexivity.
  - assert (K := is_point_spec n v Hl Hb). cbn [filter] in *. destruct (is_point v); cbn [negb map length] in *.
    + assert (P := inject_pos _ K). destruct mus as [|mu mus]; [discriminate|]. cbn [length] in H1. apply Forall_cons_iff in H3 as [Hm H3].
      destruct (IH mus nus ltac:(lia) H2 H3 H4) as (cs & C1 & C2 & C3 & C4). exists (mu / inject_Z (nth n v 0%Z) :: cs). cbn [length hcomb sumQ fold_right comb]. fold (sumQ mus).
      assert (N : ~ inject_Z (nth n v 0%Z) == 0) by (intros E; rewrite E in P; discriminate P).
      split; [lia|]. split; [constructor; auto; apply Qle_shift_div_l; auto; rewrite Qmult_0_l; auto|]. split; [rewrite C3; field; auto|].
      intros j Hj. rewrite <- (C4 j Hj), (point_coordinate n) by auto. field. auto.
    + destruct nus as [|nu nus]; [discriminate|]. cbn [length] in H2. apply Forall_cons_iff in H4 as [Hm H4].
      destruct (IH mus nus H1 ltac:(lia) H3 H4) as (cs & C1 & C2 & C3 & C4). exists (nu :: cs). cbn [length hcomb sumQ fold_right comb].
      split; [lia|]. split; [constructor; auto|]. split; [rewrite C3, K; change (inject_Z 0) with 0; ring|]. intros j Hj. rewrite <- (C4 j Hj), (ray_coordinate n) by auto. ring.
Qed.
(** The hull of the points and rays of [V], in homogeneous coordinates. *)
Lemma hull_homogeneous n V p : homogeneous n V ->
  (hull n (points_of V) (rays_of V) p <-> exists cs, length cs = length V /\ Forall (Qle 0) cs /\ hcomb cs V n == 1 /\ forall j, (j < n)%nat -> hcomb cs V j == nth j p 0).
Proof.
  intros HV. split.
  - intros (mus & nus & H1 & H2 & H3 & H4 & H5 & H6). destruct (hull_hcomb n V HV mus nus H1 H2 H3 H4) as (cs & C1 & C2 & C3 & C4). exists cs. split; auto. split; auto. split; [rewrite <- C3; auto|].
    intros j Hj. rewrite <- (C4 j Hj). auto.
  - intros (cs & C1 & C2 & C3 & C4). destruct (hcomb_hull n V HV cs C1 C2) as (mus & nus & H1 & H2 & H3 & H4 & H5 & H6). exists mus, nus. repeat (split; auto); [rewrite H5; auto|].
    intros j Hj. rewrite (H6 j Hj). auto.
Qed.

(** ** Common denominators *)
Lemma common_denominator (cs : list Q) : exists (d : Z) (zs : list Z), (0 < d)%Z /\ Forall2 (fun c z => c * inject_Z d == inject_Z z) cs zs.
Proof.
  induction cs as [|[a b] cs (d & zs & Hd & H)].
  - exists 1%Z, []. split; [lia|constructor].
  - exists (Z.pos b * d)%Z, ((a * d)%Z :: map (Z.mul (Z.pos b)) zs). split; [lia|]. constructor.
    + unfold Qeq, Qmult, inject_Z. cbn [Qnum Qden]. rewrite Pos.mul_1_r. ring.
    + clear - H. induction H as [|c z cs zs Hc _ IH]; cbn [map]; constructor; auto. rewrite !inject_Z_mult, <- Hc. ring.
Qed.
Lemma hcomb_clear cs zs d V j n : dims n V -> Forall2 (fun c z => c * inject_Z d == inject_Z z) cs zs ->
  hcomb cs V j * inject_Z d == inject_Z (nth j (lincomb n zs V) 0%Z).
Proof.
  intros HV H. rewrite nth_lincomb by auto. revert V HV. induction H as [|c z cs zs Hc _ IH]; intros [|v V] HV; cbn [hcomb colv map dot]; try (change (inject_Z 0) with 0; ring).
  apply Forall_cons_iff in HV as [Hv HV]. rewrite inject_Z_plus, inject_Z_mult, <- (IH V HV), <- Hc. fold (colv j V). ring.
Qed.
Lemma hcomb_scale cs V j k : hcomb (map (fun c => c * k) cs) V j == hcomb cs V j * k.
Proof. revert V. induction cs as [|c cs IH]; intros [|v V]; cbn [map hcomb]; try ring. rewrite IH. ring. Qed.
Lemma inject_eq a b : inject_Z a == inject_Z b -> a = b.
Proof. unfold Qeq. cbn. lia. Qed.
(** The point (x_1, ..., x_n) / l is in the hull of the points and rays of [V] exactly if (x_1, ..., x_n, l) is in the cone of [V]. *)
Lemma hull_in_cone n V xs l p : homogeneous n V -> length xs = n -> (0 < l)%Z -> Forall2 (fun q x => q * inject_Z l == inject_Z x) p xs ->
  (hull n (points_of V) (rays_of V) p <-> in_cone (S n) V (xs ++ [l])).
Proof.
  intros HV Hx Hl Hp. assert (P := inject_pos l Hl). assert (HV' : dims (S n) V) by (eapply Forall_impl; [|exact HV]; cbn; tauto).
  assert (Hpj : forall j, (j < n)%nat -> nth j p 0 * inject_Z l == inject_Z (nth j xs 0%Z)).
  { clear - Hp Hx. revert n Hx. induction Hp as [|q x p xs E _ IH]; intros n Hx j Hj; cbn [length] in Hx; [lia|]. destruct j as [|j]; cbn [nth]; auto. apply (IH (n - 1)%nat); lia. }
  assert (Nl : ~ inject_Z l == 0) by (intros E; rewrite E in P; discriminate P).
  rewrite hull_homogeneous by auto. split.
  - intros (cs & C1 & C2 & C3 & C4). destruct (common_denominator cs) as (d & zs & Hd & HZ). assert (Pd := inject_pos d Hd).
    exists d, (map (Z.mul l) zs). split; auto. split; [rewrite map_length, <- C1; clear - HZ; induction HZ; cbn; auto|]. split.
    + clear - C2 HZ Hl Hd Pd. induction HZ as [|c z cs zs Hc _ IH]; cbn [map]; constructor; apply Forall_cons_iff in C2 as [C C2]; auto.
      assert (0 <= inject_Z z) by (rewrite <- Hc; apply Qmult_le_0_compat; auto; apply Qlt_le_weak; auto). change 0 with (inject_Z 0) in H. rewrite <- Zle_Qle in H. nia.
    + assert (HZ' : Forall2 (fun c z => c * inject_Z (d * l) == inject_Z z) cs (map (Z.mul l) zs)).
      { clear - HZ. induction HZ as [|c z cs zs Hc _ IH]; cbn [map]; constructor; auto. rewrite !inject_Z_mult, <- Hc. ring. }
      apply (vec_ext_nth (S n)); [rewrite vscale_length, app_length; cbn; lia|apply lincomb_length; auto|]. intros j Hj. apply inject_eq. rewrite nth_vscale, <- (hcomb_clear cs _ (d * l) V j (S n)) by auto.
      rewrite !inject_Z_mult. destruct (Nat.eq_dec j n) as [->|Hne].
      * rewrite C3, app_nth2 by lia. rewrite Hx, Nat.sub_diag. cbn [nth]. ring.
      * rewrite C4, app_nth1 by lia. rewrite <- Hpj by lia. ring.
  - intros (k & cs & Hk & C1 & C2 & C3). assert (Pk := inject_pos k Hk). assert (Nk : ~ inject_Z k == 0) by (intros E; rewrite E in Pk; discriminate Pk).
    set (w := / (inject_Z k * inject_Z l)). assert (Hw : 0 < w) by (unfold w; apply Qinv_lt_0_compat; apply Qmult_lt_0_compat; auto).
    assert (HQ : forall j, (j <= n)%nat -> hcomb (map inject_Z cs) V j == inject_Z (k * nth j (xs ++ [l]) 0%Z)).
    { intros j Hj. assert (E : hcomb (map inject_Z cs) V j * inject_Z 1 == inject_Z (nth j (lincomb (S n) cs V) 0%Z)).
      { apply hcomb_clear; auto. clear. induction cs; cbn; constructor; auto. change (inject_Z 1) with 1. ring. }
      rewrite <- C3, nth_vscale in E. rewrite <- E. change (inject_Z 1) with 1. ring. }
    exists (map (fun c => c * w) (map inject_Z cs)). split; [rewrite !map_length; auto|]. split; [|split].
    + rewrite !Forall_map. eapply Forall_impl; [|exact C2]. cbn. intros c Hc. apply Qmult_le_0_compat; [change 0 with (inject_Z 0); rewrite <- Zle_Qle; auto|apply Qlt_le_weak; auto].
    + rewrite hcomb_scale, HQ by lia. rewrite app_nth2 by lia. rewrite Hx, Nat.sub_diag. cbn [nth]. rewrite inject_Z_mult. unfold w. field. auto.
    + intros j Hj. rewrite hcomb_scale, HQ by lia. rewrite app_nth1 by lia. rewrite inject_Z_mult, <- Hpj by auto. unfold w. field. auto.
Qed.

(** Equal points and rays have the same hull. *)
Lemma same_nth p q j : same_point p q -> nth j p 0 == nth j q 0.
Proof. intros H. revert j. induction H as [|x y p q Hxy _ IH]; intros [|j]; cbn; auto; reflexivity. Qed.
Lemma comb_same cs vs ws j : Forall2 same_point vs ws -> comb cs vs j == comb cs ws j.
Proof. intros H. revert cs. induction H as [|v w vs ws Hvw _ IH]; intros [|c cs]; cbn; try reflexivity. rewrite IH, (same_nth v w j Hvw). reflexivity. Qed.
Lemma forall2_length {A B} (R : A -> B -> Prop) l m : Forall2 R l m -> length l = length m.
Proof. induction 1; cbn; auto. Qed.
Lemma hull_same n points rays points' rays' p : Forall2 same_point points points' -> Forall2 same_point rays rays' -> hull n points rays p -> hull n points' rays' p.
Proof.
  intros HP HR (mus & nus & H1 & H2 & H3 & H4 & H5 & H6). exists mus, nus. rewrite <- (forall2_length _ _ _ HP), <- (forall2_length _ _ _ HR). repeat (split; auto). intros j Hj. rewrite <- (H6 j Hj).
  rewrite (comb_same mus points points' j HP), (comb_same nus rays rays' j HR). reflexivity.
Qed.
Lemma same_sym p q : same_point p q -> same_point q p.
Proof. induction 1; constructor; auto. symmetry; auto. Qed.
Lemma same_all_sym ps qs : Forall2 same_point ps qs -> Forall2 same_point qs ps.
Proof. induction 1; constructor; auto using same_sym. Qed.
