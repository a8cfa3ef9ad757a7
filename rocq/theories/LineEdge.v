(** * LineEdge: the ridges that the elimination drops, for polyhedra that may contain lines. *)
From Coq Require Import List ZArith QArith Arith Bool Lia Lqa.
From Verif Require Import Base Spec LinAlg ListUtil FmeTheorems Adjacency ConstraintModel PropertiesConstraints Hull Corners VertexEdge Lines.
Import ListNotations.
Open Scope Z_scope.

(** ** Specification *)
(** [q] lies on the line through [p] and [r], up to lines in the set of solutions. *)
Definition on_flat_line (A : list vec) (p r q : list Q) : Prop := exists s, forall a, In a A -> (linear a q == linear a p + s * (linear a r - linear a p))%Q.
(** The segment from [p] to [r] is part of an edge, up to lines in the set of solutions. *)
Definition part_of_flat_edge (n : nat) (A : list vec) (p r : list Q) : Prop :=
  length p = n /\ length r = n /\ solves A p /\ solves A r /\ ~ alike A p r /\
  forall m x y c d, length m = n -> length x = n -> length y = n -> solves A x -> solves A y -> (0 < c)%Q -> (c < 1)%Q -> (0 < d)%Q -> (d < 1)%Q ->
    between c p r m -> between d x y m -> on_flat_line A p r x.
Definition flat_outwards (n : nat) (A : list vec) (p : list Q) : Prop :=
  flat_corner n A p /\ exists r t, (1 < t)%Q /\ (forall j, (nth j r 0 == t * nth j p 0)%Q) /\ part_of_flat_edge n A p r.
(** The last coordinate that occurs in the inequalities. *)
Definition last_used (n : nat) (A : list vec) (k : nat) : Prop := (k < n)%nat /\ (exists a, In a A /\ nth k a 0 <> 0) /\ forall c a, (k < c < n)%nat -> In a A -> nth c a 0 = 0.
Definition flat_origin (n : nat) (A : list vec) (p : list Q) : Prop :=
  flat_corner n A p /\ (forall j, (nth j p 0 == 0)%Q) /\ exists k r t, last_used n A k /\ (0 < t)%Q /\ (forall j, (nth j r 0 == if (j =? k)%nat then - t else 0)%Q) /\ part_of_flat_edge n A p r.
Definition no_hidden_flat_edge (n : nat) (A : list vec) : Prop := forall p, ~ flat_outwards n A p /\ ~ flat_origin n A p.

(** ** Edges of the homogenised cone *)
Lemma edge_flat N A f r : dims N A -> facet N A f -> facet N (tight A f) r -> forall k K y z, solution N A y -> solution N A z -> vadd (vscale K f) (vscale k r) = vadd y z ->
    exists a b c, 0 < a /\ forall v, In v A -> a * dot y v = b * dot f v + c * dot r v.
Proof.
  intros HA Ff Fr k K y z [Ly Hy] [Lz Hz] E. assert (Lf := proj1 Ff). assert (Lr := proj1 Fr).
  assert (Hz0 : forall v, In v (tight A f) -> dot r v = 0 -> dot y v = 0).
  { intros v Hv Er. apply in_tight in Hv as [Hv Ef]. assert (E1 := f_equal (fun u => dot u v) E). cbn beta in E1.
    rewrite !dot_vadd_l, !dot_vscale_l, Ef, Er in E1 by (rewrite ?vscale_length; congruence). specialize (Hy v Hv). specialize (Hz v Hv). rewrite dot_comm in Hy, Hz. lia. }
  destruct (facet_form N (tight A f) r y Fr Ly Hz0) as (k1 & s1 & Hk1 & E1).
  set (w := vadd (vscale k1 y) (vscale (- s1) r)). assert (Lw : length w = N) by (unfold w; rewrite vadd_length, !vscale_length; lia).
  destruct (facet_form N A f w Ff Lw) as (k2 & s2 & Hk2 & E2).
  { intros v Hv Ef. unfold w. rewrite dot_vadd_l, !dot_vscale_l by (rewrite !vscale_length; congruence). rewrite (E1 v (proj2 (in_tight A f v) (conj Hv Ef))). lia. }
  exists (k2 * k1), s2, (k2 * s1). split; [nia|]. intros v Hv. specialize (E2 v Hv). unfold w in E2. rewrite dot_vadd_l, !dot_vscale_l in E2 by (rewrite !vscale_length; congruence). rewrite <- E2. ring.
Qed.

Notation clears l := (Forall2 (fun q x => q * inject_Z l == inject_Z x)%Q).
(** ** In coordinates *)
Section Points.
  Variables (n : nat) (A : list vec).
  Hypothesis HA : dims (S n) A.
  Hypothesis HU : In (unit_vec (S n) n (-1)) A.
  Notation U := (unit_vec (S n) n (-1)).

  Lemma affine_linear a : forall p, length a = S (length p) -> (affine a p == linear a p + inject_Z (nth (length p) a 0%Z))%Q.
  Proof.
    clear. induction a as [|x a IH]; intros p Hl; cbn [length] in Hl; [lia|]. destruct p as [|y p]; cbn [length] in *.
    - destruct a; [|discriminate]. cbn. ring.
    - cbn [affine linear nth]. rewrite IH by lia. ring.
  Qed.
  Lemma flat_line_affine p r q : length p = n -> length r = n -> length q = n -> (exists s, forall a, In a A -> (affine a q == affine a p + s * (affine a r - affine a p))%Q) -> on_flat_line A p r q.
  Proof.
    intros Hp Hr Hq (s & H). exists s. intros a Ha. specialize (H a Ha). assert (La := dims_in (S n) A a HA Ha).
    rewrite !affine_linear in H by congruence. rewrite Hp, Hr, Hq in H. clear - H. generalize dependent (inject_Z (nth n a 0)). intros u H.
    assert (E : (linear a q == linear a q + u - u)%Q) by ring. rewrite E, H. ring.
  Qed.
  Lemma edge_flat_part xs l r : length xs = n -> 0 < l -> facet (S n) A (xs ++ [l]) -> facet (S n) (tight A (xs ++ [l])) r ->
    exists K0, 0 <= K0 /\ forall K, K0 <= K -> 0 < K * l + nth n r 0 /\ part_of_flat_edge n A (point_of xs l) (towards n xs l r K).
  Proof.
    intros Hx Hl Ff Fr. set (f := xs ++ [l]) in *. assert (Lr := proj1 Fr). assert (Lf : length f = S n) by (unfold f; rewrite app_length; cbn; lia).
    destruct (edge_solution (S n) A f r Ff Fr) as (K0 & HK0 & HK). exists (K0 + Z.abs (nth n r 0) + 1). split; [lia|]. intros K HKK. split; [nia|].
    set (M := K * l + nth n r 0). assert (HM : 0 < M) by (unfold M; nia). set (q := towards n xs l r K).
    assert (Lq : length q = n) by (unfold q, towards; rewrite map_length, seq_length; auto).
    assert (Lp : length (point_of xs l) = n) by (unfold point_of; rewrite map_length; auto).
    set (ws := map (fun j => K * nth j xs 0 + nth j r 0) (seq 0 n)). assert (Lw : length ws = n) by (unfold ws; rewrite map_length, seq_length; auto).
    assert (EW : vadd (vscale K f) r = ws ++ [M]).
    { apply (vec_ext_nth (S n)); [rewrite vadd_length, vscale_length; lia|rewrite app_length; cbn; lia|]. intros j Hj. rewrite nth_vadd, nth_vscale by (rewrite vscale_length; congruence). unfold f. rewrite !(nth_snoc n) by auto.
      destruct (Nat.eqb_spec j n) as [E|E]; [rewrite E; reflexivity|]. unfold ws. rewrite (nth_map_seq _ n j 0 ltac:(lia)). reflexivity. }
    assert (OQ : clears M q ws).
    { unfold q, towards, ws. rewrite <- (map_map (fun j => K * nth j xs 0 + nth j r 0) (fun z => inject_Z z / inject_Z M)%Q). apply over. lia. }
    assert (OP : clears l (point_of xs l) xs) by (apply over; lia).
    assert (Pl := inject_zero l Hl). assert (PM := inject_zero M HM).
    assert (Ap : forall a, In a A -> (affine a (point_of xs l) == inject_Z (dot f a) / inject_Z l)%Q).
    { intros a Ha. assert (E := affine_dot a _ _ l OP ltac:(rewrite Hx; apply (dims_in (S n) A); auto)). rewrite dot_comm in E. fold f in E. rewrite <- E. field. auto. }
    assert (Aq : forall a, In a A -> (affine a q == (inject_Z K * inject_Z (dot f a) + inject_Z (dot r a)) / inject_Z M)%Q).
    { intros a Ha. assert (E := affine_dot a _ _ M OQ ltac:(rewrite Lw; apply (dims_in (S n) A); auto)). rewrite dot_comm, <- EW, dot_vadd_l, dot_vscale_l, inject_Z_plus, inject_Z_mult in E by (rewrite vscale_length; congruence). rewrite <- E. field. auto. }
    split; auto. split; auto. split; [|split; [|split]].
    - refine (proj2 (solution_rows n A _ xs l HA Hx Hl OP) _). apply facet_solution. auto.
    - assert (T : solution (S n) A (ws ++ [M])) by (rewrite <- EW; apply HK; lia). exact (proj2 (solution_rows n A q ws M HA Lw HM OQ) T).
    - intros E. apply (alike_rows n A HA _ _ xs ws l M) in E; auto. apply (proj1 (proj2 (proj2 Fr))). intros v Hv. apply in_tight in Hv as [Hv Ef]. specialize (E v Hv).
      rewrite dot_vadd_l in E by (rewrite !vscale_length, !app_length; cbn; lia). rewrite !dot_vscale_l, <- EW, dot_vadd_l, dot_vscale_l in E by (rewrite vscale_length; congruence). fold f in E. rewrite Ef in E. nia.
    - intros m x y c d Lm Lx Ly Sx Sy Hc0 Hc1 Hd0 Hd1 HB HD. 
      destruct (clear_point x) as (mx & us & Hmx & HX). destruct (clear_point y) as (my & vs & Hmy & HY).
      assert (Lu : length us = n) by (rewrite <- (forall2_length _ _ _ HX); auto). assert (Lv : length vs = n) by (rewrite <- (forall2_length _ _ _ HY); auto).
      assert (Tx := proj1 (solution_rows n A x us mx HA Lu Hmx HX) Sx). assert (Ty := proj1 (solution_rows n A y vs my HA Lv Hmy HY) Sy).
      destruct c as [cu cw]. destruct d as [du dw]. unfold Qlt in Hc0, Hc1, Hd0, Hd1. cbn in Hc0, Hc1, Hd0, Hd1. set (CW := Z.pos cw) in *. set (DW := Z.pos dw) in *.
      assert (EC : (cu # cw == inject_Z cu / inject_Z CW)%Q) by apply Qmake_Qdiv. assert (ED : (du # dw == inject_Z du / inject_Z DW)%Q) by apply Qmake_Qdiv.
      assert (Hcu : 0 < cu < CW) by lia. assert (Hdu : 0 < du < DW) by lia. assert (HCW : 0 < CW) by lia. assert (HDW : 0 < DW) by lia.
      assert (Pmx := inject_zero mx Hmx). assert (Pmy := inject_zero my Hmy). assert (PC := inject_zero CW HCW). assert (PD := inject_zero DW HDW).
      destruct (edge_flat (S n) A f r HA Ff Fr (DW * mx * my * ((CW - cu) * l)) (DW * mx * my * (cu * M + (CW - cu) * l * K)) (vscale (CW * l * M * du * my) (us ++ [mx])) (vscale (CW * l * M * (DW - du) * mx) (vs ++ [my]))) as (a & b & e & Ha & E).
      { apply solution_times; auto. nia. }
      { apply solution_times; auto. nia. }
      { apply (vec_ext_nth (S n)); [rewrite vadd_length, !vscale_length; lia|rewrite vadd_length, !vscale_length, !app_length; cbn; lia|]. intros j Hj.
        rewrite !nth_vadd by (rewrite !vscale_length, ?app_length; cbn; lia). rewrite !nth_vscale. unfold f. rewrite !(nth_snoc n) by auto. destruct (Nat.eqb_spec j n) as [E|E].
        - rewrite E. unfold M. ring.
        - assert (HBj := HB j). rewrite (HD j), EC, ED in HBj. unfold point_of in HBj. rewrite (nth_over l xs j) in HBj by lia.
          assert (Qj := cleared_nth _ _ _ j OQ). assert (Wj : nth j ws 0 = K * nth j xs 0 + nth j r 0) by (unfold ws; rewrite (nth_map_seq _ n j 0 ltac:(lia)); reflexivity). rewrite Wj in Qj.
          apply inject_eq. 
          transitivity (inject_Z DW * inject_Z mx * inject_Z my * (inject_Z cu * inject_Z M * inject_Z (nth j xs 0%Z) + (inject_Z CW - inject_Z cu) * inject_Z l * inject_Z (K * nth j xs 0%Z + nth j r 0%Z)))%Q.
          { unfold Zminus. repeat rewrite ?inject_Z_plus, ?inject_Z_mult, ?inject_Z_opp. ring. }
          rewrite <- Qj.
          transitivity (inject_Z DW * inject_Z mx * inject_Z my * inject_Z CW * inject_Z l * inject_Z M * (inject_Z cu / inject_Z CW * (inject_Z (nth j xs 0%Z) / inject_Z l) + (1 - inject_Z cu / inject_Z CW) * nth j q 0))%Q.
          { field. auto. }
          rewrite <- HBj. unfold Zminus. repeat rewrite ?inject_Z_plus, ?inject_Z_mult, ?inject_Z_opp. rewrite <- (cleared_nth _ _ _ j HX), <- (cleared_nth _ _ _ j HY). field. auto. }
      set (B := a * (CW * l * M * du * my)) in *. assert (HBp : 0 < B) by (unfold B; assert (0 < CW * l * M * du * my) by (repeat apply Z.mul_pos_pos; lia); nia).
      assert (EB : forall v, In v A -> B * dot (us ++ [mx]) v = b * dot f v + e * dot r v) by (intros v Hv; rewrite <- (E v Hv), dot_vscale_l; unfold B; ring).
      assert (EN : B * mx = b * l + e * nth n r 0).
      { assert (E0 := EB U HU). rewrite !(dot_comm _ U), !dot_unit in E0 by (try lia; unfold f; rewrite ?app_length; cbn; lia). unfold f in E0. rewrite !(nth_snoc n), Nat.eqb_refl in E0 by auto. lia. }
      assert (PB := inject_zero B HBp). apply flat_line_affine; auto. exists (inject_Z e * inject_Z M / (inject_Z B * inject_Z mx))%Q. intros v Hv. rewrite (Ap v Hv), (Aq v Hv).
      assert (Ex := affine_dot v x us mx HX ltac:(rewrite Lu; apply (dims_in (S n) A); auto)). rewrite dot_comm in Ex.
      assert (EB' : (inject_Z B * inject_Z (dot (us ++ [mx]) v) == inject_Z b * inject_Z (dot f v) + inject_Z e * inject_Z (dot r v))%Q) by (rewrite <- !inject_Z_mult, <- inject_Z_plus, (EB v Hv); reflexivity).
      assert (EN' : (inject_Z B * inject_Z mx == inject_Z b * inject_Z l + inject_Z e * inject_Z (nth n r 0%Z))%Q) by (rewrite <- !inject_Z_mult, <- inject_Z_plus, EN; reflexivity).
      assert (EM : (inject_Z M == inject_Z K * inject_Z l + inject_Z (nth n r 0%Z))%Q) by (unfold M; rewrite inject_Z_plus, inject_Z_mult; reflexivity).
      assert (X : (affine v x == (inject_Z b * inject_Z (dot f v) + inject_Z e * inject_Z (dot r v)) / (inject_Z B * inject_Z mx))%Q).
      { rewrite <- EB', <- Ex. field. auto. }
      rewrite X. assert (PBm : ~ (inject_Z B * inject_Z mx == 0)%Q) by (intros K1; apply Qmult_integral in K1 as [K1|K1]; auto).
      rewrite EN' in *. clear - Pl PM PBm EM. rewrite EM in *. field. auto.
  Qed.

  Lemma facet_flat_point xs l : length xs = n -> 0 < l -> facet (S n) A (xs ++ [l]) -> flat_corner n A (point_of xs l).
  Proof. intros Hx Hl Ff. apply (facet_corner n A HA HU (point_of xs l) xs l); auto. apply over. lia. Qed.

  (** No hidden edge: the elimination drops no ridge. *)
  Hypothesis HE : no_hidden_flat_edge n A.
  Lemma flat_no_outwards f : facet (S n) A f -> ~ facet (S n) (tight A f) U.
  Proof.
    intros Ff Fr. destruct (solution_last n A f HU (facet_solution n A f Ff)) as (xs & l & -> & Hx & Hl0).
    assert (Hl : 0 < l).
    { destruct (Z.eq_dec l 0) as [->|]; [|lia]. exfalso. assert (T : In U (tight A (xs ++ [0]))).
      { apply in_tight. split; auto. rewrite dot_comm, dot_unit by (rewrite ?app_length; cbn; lia). rewrite (nth_snoc n), Nat.eqb_refl by auto. lia. }
      assert (K := proj1 (proj2 Fr) U T). rewrite dot_unit in K by (rewrite ?unit_vec_length; lia). unfold unit_vec in K. rewrite nth_upd, vzero_length, Nat.eqb_refl in K. destruct (Nat.ltb_spec n (S n)); [|lia]. cbn in K. lia. }
    destruct (edge_flat_part xs l U Hx Hl Ff Fr) as (K0 & HK0 & HK). destruct (HK (K0 + 1) ltac:(lia)) as (HM & P). apply (proj1 (HE (point_of xs l))). split; [apply facet_flat_point; auto|].
    assert (EU : nth n U 0 = -1) by (unfold unit_vec; rewrite nth_upd, vzero_length, Nat.eqb_refl; destruct (Nat.ltb_spec n (S n)); [reflexivity|lia]). rewrite EU in *.
    set (K := K0 + 1) in *. set (M := K * l + -1) in *. assert (PM := inject_zero M HM). assert (Pl := inject_zero l Hl). exists (towards n xs l U K), (inject_Z (K * l) / inject_Z M)%Q. split; [|split; auto].
    - apply Qlt_shift_div_l; [apply inject_pos; auto|]. rewrite Qmult_1_l, <- Zlt_Qlt. unfold M. lia.
    - intros j. destruct (Nat.lt_ge_cases j n) as [Hj|Hj].
      + unfold towards. rewrite (nth_map_seq _ n j _ Hj). unfold point_of. rewrite nth_over by lia. rewrite EU. fold M. assert (E0 : nth j U 0 = 0) by (unfold unit_vec; rewrite nth_upd, nth_vzero; destruct (Nat.eqb_spec j n); [lia|reflexivity]). rewrite E0, Z.add_0_r, !inject_Z_mult. field. auto.
      + rewrite !nth_overflow; [ring|unfold point_of; rewrite map_length; lia|unfold towards; rewrite map_length, seq_length; lia].
  Qed.
  (** The origin: the printed row has no other entry than the last one. *)
  Lemma flat_no_downwards f k : facet (S n) A f -> (forall j, (j < n)%nat -> nth j f 0 = 0) -> last_used n A k -> ~ facet (S n) (tight A f) (unit_vec (S n) k (-1)).
  Proof.
    intros Ff H0 Hk Fr. destruct (solution_last n A f HU (facet_solution n A f Ff)) as (xs & l & -> & Hx & Hl0). assert (Hkn := proj1 Hk).
    assert (X0 : forall j, nth j xs 0 = 0).
    { intros j. destruct (Nat.lt_ge_cases j n) as [Hj|Hj]; [|apply nth_overflow; lia]. specialize (H0 j Hj). rewrite (nth_snoc n) in H0 by auto. destruct (Nat.eqb_spec j n); [lia|]. auto. }
    assert (Hl : 0 < l).
    { destruct (Z.eq_dec l 0) as [->|]; [|lia]. exfalso. apply (proj1 (proj2 (proj2 Ff))). intros v Hv. assert (Z0 : xs ++ [0] = vzero (S n)); [|rewrite Z0; apply dot_vzero_l].
      apply (vec_ext_nth (S n)); [rewrite app_length; cbn; lia|apply vzero_length|]. intros j _. rewrite nth_vzero, (nth_snoc n), X0 by auto. destruct (j =? n)%nat; reflexivity. }
    destruct (edge_flat_part xs l _ Hx Hl Ff Fr) as (K0 & HK0 & HK). destruct (HK (K0 + 1) ltac:(lia)) as (HM & P). apply (proj2 (HE (point_of xs l))).
    assert (P0 : forall j, (nth j (point_of xs l) 0 == 0)%Q) by (intros j; unfold point_of; rewrite nth_over, X0 by lia; change (inject_Z 0) with 0%Q; field; apply inject_zero; auto).
    split; [apply facet_flat_point; auto|]. split; auto.
    assert (E0 : forall j, nth j (unit_vec (S n) k (-1)) 0 = if (j =? k)%nat then -1 else 0).
    { intros j. unfold unit_vec. rewrite nth_upd, nth_vzero, vzero_length. destruct (Nat.eqb_spec j k); [destruct (Nat.ltb_spec j (S n)); [reflexivity|lia]|reflexivity]. }
    assert (EU : nth n (unit_vec (S n) k (-1)) 0 = 0) by (rewrite E0; destruct (Nat.eqb_spec n k); [lia|reflexivity]). rewrite EU, Z.add_0_r in *.
    set (K := K0 + 1) in *. assert (PM := inject_zero (K * l) HM). exists k, (towards n xs l (unit_vec (S n) k (-1)) K), (1 / inject_Z (K * l))%Q. split; auto. split; [|split; auto].
    - apply Qlt_shift_div_l; [apply inject_pos; auto|]. rewrite Qmult_0_l. reflexivity.
    - intros j. destruct (Nat.lt_ge_cases j n) as [Hj|Hj].
      + unfold towards. rewrite (nth_map_seq _ n j _ Hj), EU, X0, E0, Z.add_0_r, Z.mul_0_r, Z.add_0_l. destruct (Nat.eqb_spec j k).
        * change (inject_Z (-1)) with (- (1))%Q. field. auto.
        * change (inject_Z 0) with 0%Q. field. auto.
      + rewrite nth_overflow by (unfold towards; rewrite map_length, seq_length; lia). destruct (Nat.eqb_spec j k); [lia|reflexivity].
  Qed.
End Points.
