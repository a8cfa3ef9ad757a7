(** * Corners: the vertices and extreme directions of a polyhedron in rational coordinates, and the extreme rays of its homogenisation. *)
From Coq Require Import List ZArith QArith Arith Bool Lia Lqa.
From Verif Require Import Base Spec LinAlg ListUtil ConstraintModel PropertiesConstraints Hull.
Import ListNotations.
Open Scope Z_scope.

(** ** Specification *)
(** A system of inequalities, and its solutions. *)
Definition solves (A : list vec) (p : list Q) : Prop := forall a, In a A -> row_holds Inequality a p.
(** [p] lies between [q] and [r]. *)
Definition between (c : Q) (q r p : list Q) : Prop := forall j, (nth j p 0 == c * nth j q 0 + (1 - c) * nth j r 0)%Q.
(** A vertex: a solution that does not lie between two others. *)
Definition corner (n : nat) (A : list vec) (p : list Q) : Prop :=
  length p = n /\ solves A p /\
  forall q r c, length q = n -> length r = n -> solves A q -> solves A r -> (0 < c)%Q -> (c < 1)%Q -> between c q r p -> same_point q p.
(** The linear part of a row at a direction, and the directions in which solutions can be moved without end. *)
Fixpoint linear (row : vec) (d : list Q) : Q :=
  match row, d with
  | a :: row', x :: d' => (inject_Z a * x + linear row' d')%Q
  | _, _ => 0%Q
  end.
Definition recedes (A : list vec) (d : list Q) : Prop := forall a, In a A -> (linear a d <= 0)%Q.
(** An extreme direction: one that is not the sum of two that are not multiples of it. *)
Definition extreme_direction (n : nat) (A : list vec) (d : list Q) : Prop :=
  length d = n /\ recedes A d /\ (exists j, ~ (nth j d 0 == 0)%Q) /\
  forall u v, length u = n -> length v = n -> recedes A u -> recedes A v -> (forall j, (nth j d 0 == nth j u 0 + nth j v 0)%Q) ->
    exists s, (0 <= s)%Q /\ forall j, (nth j u 0 == s * nth j d 0)%Q.

(** ** Rows and rational points *)
Lemma affine_dot row p xs l : Forall2 (fun q x => q * inject_Z l == inject_Z x)%Q p xs -> length row = S (length xs) -> (affine row p * inject_Z l == inject_Z (dot row (xs ++ [l])))%Q.
Proof.
  intros H. revert row. induction H as [|q x p xs Hq _ IH]; intros [|a row] Hl; cbn [length] in Hl; try discriminate.
  - destruct row; [|discriminate]. cbn [app affine dot]. rewrite Z.add_0_r, inject_Z_mult. ring.
  - cbn [app affine dot]. rewrite inject_Z_plus, inject_Z_mult, <- (IH row ltac:(lia)), <- Hq. ring.
Qed.
Lemma row_holds_dot type row p xs l : 0 < l -> Forall2 (fun q x => q * inject_Z l == inject_Z x)%Q p xs -> length row = S (length xs) ->
  (row_holds type row p <-> match type with Equation => dot row (xs ++ [l]) = 0 | Inequality => dot row (xs ++ [l]) <= 0 end).
Proof.
  intros Hl H Hlen. assert (E := affine_dot row p xs l H Hlen). assert (P := inject_pos l Hl). destruct type; cbn [row_holds].
  - split; intros K.
    + apply inject_eq. rewrite <- E, K. change (inject_Z 0) with 0%Q. ring.
    + rewrite K in E. change (inject_Z 0) with 0%Q in E. apply Qmult_integral in E as [E|E]; auto. rewrite E in P. discriminate P.
  - rewrite Zle_Qle, <- E. change (inject_Z 0) with 0%Q. split; intros K.
    + setoid_replace 0%Q with (0 * inject_Z l)%Q by ring. apply Qmult_le_compat_r; auto. apply Qlt_le_weak; auto.
    + apply (Qmult_le_r _ _ (inject_Z l)); auto.
Qed.
Lemma clear_point (p : list Q) : exists l xs, 0 < l /\ Forall2 (fun q x => q * inject_Z l == inject_Z x)%Q p xs.
Proof. destruct (common_denominator p) as (d & zs & H1 & H2). eauto. Qed.
Lemma solution_rows n (A : list vec) p xs l : dims (S n) A -> length xs = n -> 0 < l -> Forall2 (fun q x => q * inject_Z l == inject_Z x)%Q p xs ->
  ((forall a, In a A -> row_holds Inequality a p) <-> solution (S n) A (xs ++ [l])).
Proof.
  intros HA Hx Hl HX. unfold solution. rewrite app_length. cbn [length]. split.
  - intros K. split; [lia|]. intros a Ha. apply (row_holds_dot Inequality a p xs l); auto. rewrite Hx. apply (dims_in (S n) A); auto.
  - intros [_ K] a Ha. apply (row_holds_dot Inequality a p xs l); auto. rewrite Hx. apply (dims_in (S n) A); auto.
Qed.

Lemma linear_dot row p xs l : Forall2 (fun q x => q * inject_Z l == inject_Z x)%Q p xs -> length row = S (length xs) -> (linear row p * inject_Z l == inject_Z (dot row (xs ++ [0%Z])))%Q.
Proof.
  intros H. revert row. induction H as [|q x p xs Hq _ IH]; intros [|a row] Hl; cbn [length] in Hl; try discriminate.
  - destruct row; [|discriminate]. cbn [app linear dot]. rewrite Z.add_0_r, Z.mul_0_r. change (inject_Z 0) with 0%Q. ring.
  - cbn [app linear dot]. rewrite inject_Z_plus, inject_Z_mult, <- (IH row ltac:(lia)), <- Hq. ring.
Qed.
Lemma recedes_rows n (A : list vec) d xs l : dims (S n) A -> length xs = n -> 0 < l -> Forall2 (fun q x => q * inject_Z l == inject_Z x)%Q d xs ->
  (recedes A d <-> solution (S n) A (xs ++ [0])).
Proof.
  intros HA Hx Hl HX. unfold solution. rewrite app_length. cbn [length]. assert (P := inject_pos l Hl).
  assert (K : forall a, In a A -> ((linear a d <= 0)%Q <-> dot a (xs ++ [0]) <= 0)).
  { intros a Ha. assert (E := linear_dot a d xs l HX ltac:(rewrite Hx; apply (dims_in (S n) A); auto)). rewrite Zle_Qle, <- E. change (inject_Z 0) with 0%Q. split; intros K.
    - setoid_replace 0%Q with (0 * inject_Z l)%Q by ring. apply Qmult_le_compat_r; auto. apply Qlt_le_weak; auto.
    - apply (Qmult_le_r _ _ (inject_Z l)); auto. }
  split; [intros H; split; [lia|]|intros [_ H]]; intros a Ha; apply (K a Ha); auto.
Qed.
(** Coordinates of a vector and of the point or direction that it stands for. *)
Lemma cleared_nth p xs l j : Forall2 (fun q x => q * inject_Z l == inject_Z x)%Q p xs -> (nth j p 0 * inject_Z l == inject_Z (nth j xs 0%Z))%Q.
Proof. intros H. revert j. induction H as [|q x p xs E _ IH]; intros [|j]; cbn [nth]; auto; change (inject_Z 0) with 0%Q; ring. Qed.
Lemma over l xs : l <> 0 -> Forall2 (fun q x => q * inject_Z l == inject_Z x)%Q (map (fun x => inject_Z x / inject_Z l)%Q xs) xs.
Proof. intros Hl. assert (N : ~ (inject_Z l == 0)%Q) by (change 0%Q with (inject_Z 0); intros K; apply inject_eq in K; lia). induction xs as [|x xs IH]; cbn [map]; constructor; auto. field; auto. Qed.
Lemma same_nth_all n p q : length p = n -> length q = n -> (forall j, (nth j p 0 == nth j q 0)%Q) -> same_point p q.
Proof.
  revert p q. induction n as [|n IH]; intros [|x p] [|y q] Hp Hq H; cbn in *; try lia; constructor.
  - exact (H 0%nat).
  - apply IH; try lia. intros j. exact (H (S j)).
Qed.

(** ** Vertices and extreme rays *)
Lemma solution_last n A y : In (unit_vec (S n) n (-1)) A -> solution (S n) A y -> exists ys a, y = ys ++ [a] /\ length ys = n /\ 0 <= a.
Proof.
  intros HU [Hl H]. destruct (row_split n y Hl) as (ys & a & -> & H1 & H2 & _). exists ys, a. split; auto. split; auto. specialize (H _ HU). rewrite dot_unit in H by (auto; lia). lia.
Qed.
Lemma solution_plus n A x y : dims n A -> solution n A x -> solution n A y -> solution n A (vadd x y).
Proof. intros HA [L1 H1] [L2 H2]. split; [apply vadd_length_eq; auto|]. intros a Ha. rewrite dot_vadd_r by (try congruence). specialize (H1 a Ha). specialize (H2 a Ha). lia. Qed.
Lemma solution_times n A k x : 0 <= k -> solution n A x -> solution n A (vscale k x).
Proof. intros Hk [L H]. split; [rewrite vscale_length; auto|]. intros a Ha. rewrite dot_vscale_r. specialize (H a Ha). nia. Qed.

Lemma nth_over l xs j : l <> 0 -> (nth j (map (fun x => inject_Z x / inject_Z l)%Q xs) 0 == inject_Z (nth j xs 0%Z) / inject_Z l)%Q.
Proof.
  intros Hl. assert (N : ~ (inject_Z l == 0)%Q) by (change 0%Q with (inject_Z 0); intros K; apply inject_eq in K; lia).
  rewrite <- (cleared_nth _ _ l j (over l xs Hl)). field. auto.
Qed.
Lemma inject_zero l : 0 < l -> ~ (inject_Z l == 0)%Q.
Proof. intros Hl K. change 0%Q with (inject_Z 0) in K. apply inject_eq in K. lia. Qed.
Lemma nth_snoc n (xs : list Z) l j : length xs = n -> nth j (xs ++ [l]) 0 = if (j =? n)%nat then l else nth j xs 0.
Proof.
  intros Hx. destruct (Nat.eqb_spec j n) as [->|Hj]; [rewrite app_nth2, Hx, Nat.sub_diag by lia; reflexivity|]. destruct (Nat.lt_ge_cases j n); [apply app_nth1; lia|].
  rewrite !nth_overflow; auto; [lia|rewrite app_length; cbn; lia].
Qed.
Lemma corner_extreme n A p xs l : dims (S n) A -> In (unit_vec (S n) n (-1)) A -> length xs = n -> 0 < l -> Forall2 (fun q x => q * inject_Z l == inject_Z x)%Q p xs ->
  (corner n A p <-> extreme_ray (S n) A (xs ++ [l])).
Proof.
  intros HA HU Hx Hl HX. assert (Hp : length p = n) by (rewrite (forall2_length _ _ _ HX); auto). assert (HS := solution_rows n A p xs l HA Hx Hl HX). split.
  - intros (_ & Hs & Hc). assert (Hsol := proj1 HS Hs). split; [auto|]. split.
    { intros E. assert (K := f_equal (fun u => nth n u 0) E). cbn beta in K. rewrite nth_vzero, (nth_snoc n), Nat.eqb_refl in K by auto. lia. }
    intros k y z Hk Hy Hz E. destruct (solution_last n A y HU Hy) as (ys & a & -> & Hys & Ha). destruct (solution_last n A z HU Hz) as (zs & b & -> & Hzs & Hb).
    assert (Ej : forall j, k * nth j (xs ++ [l]) 0 = nth j (ys ++ [a]) 0 + nth j (zs ++ [b]) 0).
    { intros j. rewrite <- nth_vscale, E. apply nth_vadd. rewrite !app_length, Hys, Hzs. reflexivity. }
    assert (El := Ej n). rewrite !(nth_snoc n), Nat.eqb_refl in El by auto.
    set (y1 := vadd ys (vscale k xs)). set (z1 := vadd zs (vscale k xs)). set (a1 := a + k * l). set (b1 := b + k * l).
    assert (Ly : length y1 = n) by (apply vadd_length_eq; auto; rewrite vscale_length; auto). assert (Lz : length z1 = n) by (apply vadd_length_eq; auto; rewrite vscale_length; auto).
    assert (Ha1 : 0 < a1) by (unfold a1; nia). assert (Hb1 : 0 < b1) by (unfold b1; nia).
    assert (Sy : solution (S n) A (y1 ++ [a1])).
    { assert (K : y1 ++ [a1] = vadd (ys ++ [a]) (vscale k (xs ++ [l]))).
      { unfold y1, a1. clear - Hys Hx. revert ys xs Hys Hx. induction n as [|n IH]; intros [|u ys] [|v xs] H1 H2; cbn in *; try lia; auto. f_equal. apply IH; lia. }
      rewrite K. apply solution_plus; auto. apply solution_times; auto. lia. }
    assert (Sz : solution (S n) A (z1 ++ [b1])).
    { assert (K : z1 ++ [b1] = vadd (zs ++ [b]) (vscale k (xs ++ [l]))).
      { unfold z1, b1. clear - Hzs Hx. revert zs xs Hzs Hx. induction n as [|n IH]; intros [|u ys] [|v xs] H1 H2; cbn in *; try lia; auto. f_equal. apply IH; lia. }
      rewrite K. apply solution_plus; auto. apply solution_times; auto. lia. }
    set (q := map (fun x => inject_Z x / inject_Z a1)%Q y1). set (r := map (fun x => inject_Z x / inject_Z b1)%Q z1).
    assert (OQ := over a1 y1 ltac:(lia)). assert (OR := over b1 z1 ltac:(lia)). fold q in OQ. fold r in OR.
    assert (Pa := inject_zero a1 Ha1). assert (Pb := inject_zero b1 Hb1). assert (Pl := inject_zero l Hl). assert (Pk := inject_zero (3 * (k * l)) ltac:(nia)). assert (PK := inject_pos (3 * (k * l)) ltac:(nia)).
    assert (Hsum : a1 + b1 = 3 * (k * l)) by (unfold a1, b1; lia).
    assert (S1 : (inject_Z a1 + inject_Z b1 == inject_Z (3 * (k * l)))%Q) by (rewrite <- inject_Z_plus, Hsum; reflexivity).
    assert (Sj : forall j, nth j y1 0 + nth j z1 0 = 3 * (k * nth j xs 0)).
    { intros j. unfold y1, z1. rewrite !nth_vadd, !nth_vscale by (rewrite vscale_length; congruence). specialize (Ej j). rewrite !(nth_snoc n) in Ej by auto. destruct (Nat.eqb_spec j n) as [Ejn|]; [|lia].
      rewrite !nth_overflow by lia. lia. }
    assert (HQ : same_point q p).
    { apply (Hc q r (inject_Z a1 / inject_Z (3 * (k * l)))%Q).
      - unfold q. rewrite map_length; auto.
      - unfold r. rewrite map_length; auto.
      - exact (proj2 (solution_rows n A q y1 a1 HA Ly Ha1 OQ) Sy).
      - exact (proj2 (solution_rows n A r z1 b1 HA Lz Hb1 OR) Sz).
      - apply Qlt_shift_div_l; auto. setoid_replace (0 * inject_Z (3 * (k * l)))%Q with 0%Q by ring. apply inject_pos; auto.
      - apply Qlt_shift_div_r; auto. rewrite <- S1. setoid_replace (1 * (inject_Z a1 + inject_Z b1))%Q with (inject_Z a1 + inject_Z b1)%Q by ring. assert (PB := inject_pos b1 Hb1). lra.
      - intros j. apply (Qmult_inj_r _ _ (inject_Z (3 * (k * l)))); auto.
        assert (C1 := cleared_nth _ _ _ j HX). assert (C2 := cleared_nth _ _ _ j OQ). assert (C3 := cleared_nth _ _ _ j OR).
        transitivity (inject_Z (3 * (k * nth j xs 0))); [rewrite !inject_Z_mult, <- C1; ring|]. rewrite <- Sj, inject_Z_plus, <- C2, <- C3.
        setoid_replace ((inject_Z a1 / inject_Z (3 * (k * l)) * nth j q 0 + (1 - inject_Z a1 / inject_Z (3 * (k * l))) * nth j r 0) * inject_Z (3 * (k * l)))%Q
          with (inject_Z a1 * nth j q 0 + (inject_Z (3 * (k * l)) - inject_Z a1) * nth j r 0)%Q by (field; auto). rewrite <- S1. ring. }
    exists l, a. split; [lia|]. split; [lia|]. apply (vec_ext_nth (S n)); try (rewrite vscale_length, app_length; cbn; lia). intros j Hj. rewrite !nth_vscale, !(nth_snoc n) by auto.
    destruct (Nat.eqb_spec j n); [lia|]. assert (C1 := cleared_nth _ _ _ j HX). assert (C2 := cleared_nth _ _ _ j OQ). rewrite (same_nth q p j HQ) in C2.
    assert (K : (inject_Z (nth j y1 0%Z) * inject_Z l == inject_Z (nth j xs 0%Z) * inject_Z a1)%Q) by (rewrite <- C1, <- C2; ring). rewrite <- !inject_Z_mult in K. apply inject_eq in K.
    unfold y1, a1 in K. rewrite nth_vadd, nth_vscale in K by (rewrite vscale_length; congruence). nia.
  - intros (Hsol & _ & He). split; auto. split; [exact (proj2 HS Hsol)|]. intros q r c Lq Lr Hq Hr Hc0 Hc1 HB.
    destruct (clear_point q) as (m & ys & Hm & HY). destruct (clear_point r) as (k & zs & Hk & HZ).
    assert (Ly : length ys = n) by (rewrite <- (forall2_length _ _ _ HY); auto). assert (Lz : length zs = n) by (rewrite <- (forall2_length _ _ _ HZ); auto).
    assert (Sy := proj1 (solution_rows n A q ys m HA Ly Hm HY) Hq). assert (Sz := proj1 (solution_rows n A r zs k HA Lz Hk HZ) Hr).
    destruct c as [u w]. assert (Hu : 0 < u) by (unfold Qlt in Hc0; cbn in Hc0; lia). assert (Huw : u < Z.pos w) by (unfold Qlt in Hc1; cbn in Hc1; lia). set (W := Z.pos w) in *.
    assert (EC : (u # w == inject_Z u / inject_Z W)%Q) by apply Qmake_Qdiv. assert (HW : 0 < W) by lia.
    assert (Pl := inject_zero l Hl). assert (Pm := inject_zero m Hm). assert (Pk := inject_zero k Hk). assert (PW := inject_zero W HW).
    destruct (He (W * m * k) (vscale (u * l * k) (ys ++ [m])) (vscale ((W - u) * l * m) (zs ++ [k]))) as (M & T & HM & HT & EM).
    { nia. }
    { apply solution_times; auto. nia. }
    { apply solution_times; auto. nia. }
    { apply (vec_ext_nth (S n)); [rewrite vscale_length, app_length; cbn; lia|apply vadd_length_eq; rewrite vscale_length, app_length; cbn; lia|]. intros j Hj.
      rewrite nth_vadd by (rewrite !vscale_length, !app_length; cbn; lia). rewrite !nth_vscale, !(nth_snoc n) by auto. destruct (Nat.eqb_spec j n); [ring|].
      apply inject_eq. rewrite inject_Z_plus, !inject_Z_mult. rewrite <- (cleared_nth _ _ _ j HX), <- (cleared_nth _ _ _ j HY), <- (cleared_nth _ _ _ j HZ). rewrite (HB j), EC.
      unfold Zminus. rewrite inject_Z_plus, inject_Z_opp. field. auto. }
    apply (same_nth_all n); auto. intros j. assert (Em : forall i, M * (u * l * k * nth i (ys ++ [m]) 0) = T * nth i (xs ++ [l]) 0) by (intros i; rewrite <- !nth_vscale, EM; reflexivity).
    assert (E0 := Em n). rewrite !(nth_snoc n), Nat.eqb_refl in E0 by auto. assert (ET : T = M * u * k * m) by nia.
    destruct (Nat.lt_ge_cases j n) as [Hj|Hj]; [|rewrite !nth_overflow by lia; reflexivity].
    specialize (Em j). rewrite !(nth_snoc n) in Em by auto. destruct (Nat.eqb_spec j n); [lia|]. subst T.
    assert (K : nth j ys 0 * l = nth j xs 0 * m). { assert (M * u * k > 0) by nia. nia. }
    apply (Qmult_inj_r _ _ (inject_Z m * inject_Z l)); [intros Z0; apply Qmult_integral in Z0; tauto|].
    transitivity (inject_Z (nth j ys 0 * l)); [rewrite inject_Z_mult, <- (cleared_nth _ _ _ j HY); ring|]. rewrite K, inject_Z_mult, <- (cleared_nth _ _ _ j HX). ring.
Qed.
Lemma direction_extreme n A d xs l : dims (S n) A -> In (unit_vec (S n) n (-1)) A -> length xs = n -> 0 < l -> Forall2 (fun q x => q * inject_Z l == inject_Z x)%Q d xs ->
  (extreme_direction n A d <-> extreme_ray (S n) A (xs ++ [0])).
Proof.
  intros HA HU Hx Hl HX. assert (Hd : length d = n) by (rewrite (forall2_length _ _ _ HX); auto). assert (HS := recedes_rows n A d xs l HA Hx Hl HX). assert (Pl := inject_zero l Hl). split.
  - intros (_ & Hs & (j0 & Hj0) & Hc). assert (Hsol := proj1 HS Hs). split; [auto|]. split.
    { intros E. apply Hj0. apply (Qmult_inj_r _ _ (inject_Z l)); auto. rewrite (cleared_nth _ _ _ j0 HX). assert (K := f_equal (fun u => nth j0 u 0) E). cbn beta in K. rewrite nth_vzero, (nth_snoc n) in K by auto.
      destruct (Nat.eqb_spec j0 n) as [->|]; [rewrite nth_overflow by lia|rewrite K]; change (inject_Z 0) with 0%Q; ring. }
    intros k y z Hk Hy Hz E. destruct (solution_last n A y HU Hy) as (ys & a & -> & Hys & Ha). destruct (solution_last n A z HU Hz) as (zs & b & -> & Hzs & Hb).
    assert (Ej : forall j, k * nth j (xs ++ [0]) 0 = nth j (ys ++ [a]) 0 + nth j (zs ++ [b]) 0).
    { intros j. rewrite <- nth_vscale, E. apply nth_vadd. rewrite !app_length, Hys, Hzs. reflexivity. }
    assert (El := Ej n). rewrite !(nth_snoc n), Nat.eqb_refl in El by auto. assert (a = 0) by lia. assert (b = 0) by lia. subst a b. assert (Hkl : 0 < k * l) by nia. assert (Pk := inject_zero (k * l) Hkl).
    set (u := map (fun x => inject_Z x / inject_Z (k * l))%Q ys). set (v := map (fun x => inject_Z x / inject_Z (k * l))%Q zs).
    assert (OU := over (k * l) ys ltac:(lia)). assert (OV := over (k * l) zs ltac:(lia)). fold u in OU. fold v in OV.
    destruct (Hc u v) as (s & Hs0 & Hsj).
    + unfold u. rewrite map_length; auto.
    + unfold v. rewrite map_length; auto.
    + exact (proj2 (recedes_rows n A u ys (k * l) HA Hys Hkl OU) Hy).
    + exact (proj2 (recedes_rows n A v zs (k * l) HA Hzs Hkl OV) Hz).
    + intros j. apply (Qmult_inj_r _ _ (inject_Z (k * l))); auto. setoid_replace ((nth j u 0 + nth j v 0) * inject_Z (k * l))%Q with (nth j u 0 * inject_Z (k * l) + nth j v 0 * inject_Z (k * l))%Q by ring.
      rewrite (cleared_nth _ _ _ j OU), (cleared_nth _ _ _ j OV), <- inject_Z_plus. specialize (Ej j). rewrite !(nth_snoc n) in Ej by auto.
      destruct (Nat.eqb_spec j n) as [Ejn|]; [rewrite !nth_overflow by lia; change (inject_Z (0 + 0)) with 0%Q; ring|]. rewrite <- Ej, !inject_Z_mult, <- (cleared_nth _ _ _ j HX). ring.
    + destruct s as [su sw]. assert (ES := Qmake_Qdiv su sw). assert (Psw := inject_zero (Z.pos sw) ltac:(lia)). exists (Z.pos sw), (su * k). split; [lia|]. split; [unfold Qle in Hs0; cbn in Hs0; nia|].
      apply (vec_ext_nth (S n)); try (rewrite vscale_length, app_length; cbn; lia). intros j Hj. rewrite !nth_vscale, !(nth_snoc n) by auto. destruct (Nat.eqb_spec j n); [ring|].
      apply inject_eq. rewrite !inject_Z_mult, <- (cleared_nth _ _ _ j HX), <- (cleared_nth _ _ _ j OU), (Hsj j), ES, inject_Z_mult. field. auto.
  - intros (Hsol & Hnz & He). split; auto. split; [apply HS; auto|]. split.
    { destruct (existsb (fun j => negb (nth j xs 0 =? 0)) (seq 0 n)) eqn:EX.
      - apply existsb_exists in EX as (j & _ & Hj). exists j. intros K. apply negb_true_iff, Z.eqb_neq in Hj. apply Hj. apply inject_eq. rewrite <- (cleared_nth _ _ _ j HX), K. change (inject_Z 0) with 0%Q. ring.
      - exfalso. apply Hnz. apply (vec_ext_nth (S n)); [rewrite app_length; cbn; lia|apply vzero_length|]. intros j Hj. rewrite nth_vzero, (nth_snoc n) by auto. destruct (Nat.eqb_spec j n); auto.
        destruct (Z.eq_dec (nth j xs 0) 0); auto. assert (existsb (fun j => negb (nth j xs 0 =? 0)) (seq 0 n) = true) by (apply existsb_exists; exists j; split; [apply in_seq; lia|apply negb_true_iff, Z.eqb_neq; auto]). congruence. }
    intros u v Lu Lv Hu Hv HB. destruct (clear_point u) as (m & ys & Hm & HY). destruct (clear_point v) as (k & zs & Hk & HZ).
    assert (Ly : length ys = n) by (rewrite <- (forall2_length _ _ _ HY); auto). assert (Lz : length zs = n) by (rewrite <- (forall2_length _ _ _ HZ); auto).
    assert (Sy := proj1 (recedes_rows n A u ys m HA Ly Hm HY) Hu). assert (Sz := proj1 (recedes_rows n A v zs k HA Lz Hk HZ) Hv).
    assert (Pm := inject_zero m Hm). assert (Pk := inject_zero k Hk).
    destruct (He (m * k) (vscale (l * k) (ys ++ [0])) (vscale (l * m) (zs ++ [0]))) as (M & T & HM & HT & EM).
    { nia. }
    { apply solution_times; auto. nia. }
    { apply solution_times; auto. nia. }
    { apply (vec_ext_nth (S n)); [rewrite vscale_length, app_length; cbn; lia|apply vadd_length_eq; rewrite vscale_length, app_length; cbn; lia|]. intros j Hj.
      rewrite nth_vadd by (rewrite !vscale_length, !app_length; cbn; lia). rewrite !nth_vscale, !(nth_snoc n) by auto. destruct (Nat.eqb_spec j n); [ring|].
      apply inject_eq. rewrite inject_Z_plus, !inject_Z_mult. rewrite <- (cleared_nth _ _ _ j HX), <- (cleared_nth _ _ _ j HY), <- (cleared_nth _ _ _ j HZ). rewrite (HB j). ring. }
    assert (PM := inject_pos M HM). assert (Pmk := inject_pos (m * k) ltac:(nia)). assert (NM := inject_zero M HM).
    exists (inject_Z T / (inject_Z M * inject_Z (m * k)))%Q. split.
    { apply Qle_shift_div_l; [apply Qmult_lt_0_compat; auto|]. setoid_replace (0 * (inject_Z M * inject_Z (m * k)))%Q with 0%Q by ring. change 0%Q with (inject_Z 0). rewrite <- Zle_Qle. auto. }
    intros j. destruct (Nat.lt_ge_cases j n) as [Hj|Hj]; [|rewrite !nth_overflow by lia; ring].
    assert (Em : M * (l * k * nth j (ys ++ [0]) 0) = T * nth j (xs ++ [0]) 0) by (rewrite <- !nth_vscale, EM; reflexivity). rewrite !(nth_snoc n) in Em by auto. destruct (Nat.eqb_spec j n); [lia|].
    assert (Eq : (inject_Z (M * (l * k * nth j ys 0%Z)) == inject_Z (T * nth j xs 0%Z))%Q) by (rewrite Em; reflexivity). rewrite !inject_Z_mult, <- (cleared_nth _ _ _ j HX), <- (cleared_nth _ _ _ j HY) in Eq.
    rewrite inject_Z_mult. apply (Qmult_inj_r _ _ (inject_Z M * inject_Z m * inject_Z k * inject_Z l)); [intros Z0; repeat (apply Qmult_integral in Z0 as [Z0|Z0]); tauto|].
    transitivity (inject_Z T * (nth j d 0 * inject_Z l))%Q; [rewrite <- Eq; ring|field; auto].
Qed.
