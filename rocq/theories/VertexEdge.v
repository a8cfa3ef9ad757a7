(** * VertexEdge: the ridges that the elimination drops are edges leaving a vertex straight away from the origin, or the origin along the last axis. *)
From Coq Require Import List ZArith QArith Arith Bool Lia Lqa.
From Verif Require Import Base Spec LinAlg ListUtil FmeTheorems Adjacency ConstraintModel PropertiesConstraints Hull Corners.
Import ListNotations.
Open Scope Z_scope.

(** ** Specification *)
(** [q] lies on the line through [p] and [r]. *)
Definition on_line (p r q : list Q) : Prop := exists s, forall j, (nth j q 0 == nth j p 0 + s * (nth j r 0 - nth j p 0))%Q.
(** The segment from [p] to [r] is part of an edge of the set [sol]: whoever passes through a point inside of it and stays in the set goes along it. *)
Definition part_of_edge (n : nat) (sol : list Q -> Prop) (p r : list Q) : Prop :=
  length p = n /\ length r = n /\ sol p /\ sol r /\ ~ same_point p r /\
  forall m x y c d, length m = n -> length x = n -> length y = n -> sol x -> sol y -> (0 < c)%Q -> (c < 1)%Q -> (0 < d)%Q -> (d < 1)%Q ->
    between c p r m -> between d x y m -> on_line p r x.
Definition vertex_in (n : nat) (sol : list Q -> Prop) (p : list Q) : Prop :=
  length p = n /\ sol p /\ forall q r c, length q = n -> length r = n -> sol q -> sol r -> (0 < c)%Q -> (c < 1)%Q -> between c q r p -> same_point q p.
(** An edge leaves the vertex [p] straight away from the origin. *)
Definition leaves_outwards (n : nat) (sol : list Q -> Prop) (p : list Q) : Prop :=
  vertex_in n sol p /\ exists r t, (1 < t)%Q /\ (forall j, (nth j r 0 == t * nth j p 0)%Q) /\ part_of_edge n sol p r.
(** The origin is a vertex, and an edge leaves it against the last axis. *)
Definition leaves_origin (n : nat) (sol : list Q -> Prop) (p : list Q) : Prop :=
  vertex_in n sol p /\ (forall j, (nth j p 0 == 0)%Q) /\ exists r t, (0 < t)%Q /\ (forall j, (nth j r 0 == if (S j =? n)%nat then - t else 0)%Q) /\ part_of_edge n sol p r.
Definition no_hidden_edge (n : nat) (sol : list Q -> Prop) : Prop := forall p, ~ leaves_outwards n sol p /\ ~ leaves_origin n sol p.

(** ** Edges of the homogenised cone *)
Section Edge.
  Variables (N : nat) (A : list vec).
  Hypothesis HA : dims N A.
  Hypothesis HP : forall x, length x = N -> vanishes A x -> x = vzero N.
  Variables f r : vec.
  Hypothesis Ff : facet N A f.
  Hypothesis Fr : facet N (tight A f) r.

  Lemma edge_solution : exists K0, 0 <= K0 /\ forall K, K0 <= K -> solution N A (vadd (vscale K f) r).
  Proof.
    assert (Lf := proj1 Ff). assert (Lr := proj1 Fr). assert (Vf := proj1 (proj2 Ff)). assert (Vr := proj1 (proj2 Fr)).
    assert (H : forall B, incl B A -> exists K0, 0 <= K0 /\ forall K, K0 <= K -> forall a, In a B -> K * dot f a + dot r a <= 0).
    { induction B as [|a B IH]; intros HB; [exists 0; split; [lia|intros K _ a []]|].
      destruct IH as (K0 & HK0 & IH); [intros x Hx; apply HB; right; auto|]. assert (Ha : In a A) by (apply HB; left; auto). specialize (Vf a Ha).
      destruct (Z.eq_dec (dot f a) 0) as [E|E].
      - exists K0. split; auto. intros K HK x [<-|Hx]; auto. specialize (Vr a (proj2 (in_tight A f a) (conj Ha E))). rewrite E. lia.
      - exists (Z.max K0 (Z.abs (dot r a))). split; [lia|]. intros K HK x [<-|Hx]; [|apply IH; auto; lia]. nia. }
    destruct (H A (incl_refl A)) as (K0 & HK0 & HK). exists K0. split; auto. intros K HKK. split; [rewrite vadd_length, vscale_length; lia|].
    intros a Ha. rewrite dot_comm, dot_vadd_l, dot_vscale_l by (rewrite vscale_length; congruence). apply HK; auto.
  Qed.
  Lemma edge_along k K y z : solution N A y -> solution N A z -> vadd (vscale K f) (vscale k r) = vadd y z ->
    exists a b c, 0 < a /\ vscale a y = vadd (vscale b f) (vscale c r).
  Proof.
    intros [Ly Hy] [Lz Hz] E. assert (Lf := proj1 Ff). assert (Lr := proj1 Fr).
    assert (Hz0 : forall v, In v (tight A f) -> dot r v = 0 -> dot y v = 0).
    { intros v Hv Er. apply in_tight in Hv as [Hv Ef]. assert (E1 := f_equal (fun u => dot u v) E). cbn beta in E1.
      rewrite !dot_vadd_l, !dot_vscale_l, Ef, Er in E1 by (rewrite ?vscale_length; congruence). specialize (Hy v Hv). specialize (Hz v Hv). rewrite dot_comm in Hy, Hz. lia. }
    destruct (facet_form N (tight A f) r y Fr Ly Hz0) as (k1 & s1 & Hk1 & E1).
    set (w := vadd (vscale k1 y) (vscale (- s1) r)). assert (Lw : length w = N) by (unfold w; rewrite vadd_length, !vscale_length; lia).
    destruct (facet_form N A f w Ff Lw) as (k2 & s2 & Hk2 & E2).
    { intros v Hv Ef. unfold w. rewrite dot_vadd_l, !dot_vscale_l by (rewrite !vscale_length; congruence). rewrite (E1 v (proj2 (in_tight A f v) (conj Hv Ef))). lia. }
    exists (k2 * k1), s2, (k2 * s1). split; [nia|].
    assert (Q : vadd (vscale k2 w) (vscale (- s2) f) = vzero N).
    { apply HP; [rewrite vadd_length, !vscale_length; lia|]. intros v Hv. rewrite dot_vadd_l, !dot_vscale_l by (rewrite !vscale_length; congruence). specialize (E2 v Hv). lia. }
    apply (vec_ext_nth N); [rewrite vscale_length; auto|rewrite vadd_length, !vscale_length; lia|]. intros j _. assert (Qj := f_equal (fun u => nth j u 0) Q). cbn beta in Qj. rewrite nth_vzero in Qj. unfold w in Qj.
    rewrite nth_vadd in Qj by (rewrite !vscale_length, vadd_length, !vscale_length; lia). rewrite !nth_vscale in Qj. rewrite nth_vadd in Qj by (rewrite !vscale_length; congruence). rewrite !nth_vscale in Qj.
    rewrite nth_vadd by (rewrite !vscale_length; congruence). rewrite !nth_vscale. nia.
  Qed.
End Edge.

(** ** In coordinates *)
Lemma nth_map_seq {B} (g : nat -> B) n j d : (j < n)%nat -> nth j (map g (seq 0 n)) d = g j.
Proof. intros H. rewrite (nth_indep _ d (g 0%nat)) by (rewrite map_length, seq_length; lia). rewrite map_nth, seq_nth by lia. reflexivity. Qed.
Section Points.
  Variables (n : nat) (A : list vec).
  Hypothesis HA : dims (S n) A.
  Hypothesis HU : In (unit_vec (S n) n (-1)) A.
  Hypothesis HP : forall x, length x = S n -> vanishes A x -> x = vzero (S n).
  Notation U := (unit_vec (S n) n (-1)).

  Lemma snoc_dot_unit k c (xs : vec) l : length xs = n -> (k < n)%nat -> dot (unit_vec (S n) k c) (xs ++ [l]) = c * nth k xs 0.
  Proof. intros Hx Hk. rewrite dot_unit by (rewrite ?app_length; cbn; lia). rewrite (nth_snoc n xs l k Hx). destruct (Nat.eqb_spec k n); [lia|reflexivity]. Qed.
  Lemma vertex_corner p : vertex_in n (solves A) p <-> corner n A p.
  Proof. split; intros H; exact H. Qed.

  (** A facet with positive last entry, and a ridge of it: the segment from its vertex towards the ridge is part of an edge. *)
  Lemma edge_points xs l (r : vec) : length xs = n -> 0 < l -> facet (S n) A (xs ++ [l]) -> facet (S n) (tight A (xs ++ [l])) r ->
    exists K0, forall K, K0 <= K -> 0 < K * l + nth n r 0 /\
      let M := K * l + nth n r 0 in
      let q := map (fun j => inject_Z (K * nth j xs 0%Z + nth j r 0%Z) / inject_Z M)%Q (seq 0 n) in
      length q = n /\ solves A q /\
      forall m x y c d, length m = n -> length x = n -> length y = n -> solves A x -> solves A y -> (0 < c)%Q -> (c < 1)%Q -> (0 < d)%Q -> (d < 1)%Q ->
        between c (map (fun z => inject_Z z / inject_Z l)%Q xs) q m -> between d x y m ->
        exists a b c, 0 < a /\ a = b * l + c * nth n r 0 /\ forall j, (j < n)%nat -> (inject_Z a * nth j x 0 == inject_Z (b * nth j xs 0%Z + c * nth j r 0%Z))%Q.
  Proof.
    intros Hx Hl Ff Fr. set (f := xs ++ [l]) in *. assert (Lr := proj1 Fr). assert (Lf : length f = S n) by (unfold f; rewrite app_length; cbn; lia).
    destruct (edge_solution (S n) A f r Ff Fr) as (K0 & HK0 & HK). exists (K0 + Z.abs (nth n r 0) + 1). intros K HKK. split; [nia|]. intros M q.
    assert (HM : 0 < M) by (unfold M; nia).
    assert (Lq : length q = n) by (unfold q; rewrite map_length, seq_length; auto).
    set (ws := map (fun j => K * nth j xs 0 + nth j r 0) (seq 0 n)). assert (Lw : length ws = n) by (unfold ws; rewrite map_length, seq_length; auto).
    assert (EW : vadd (vscale K f) r = ws ++ [M]).
    { apply (vec_ext_nth (S n)); [rewrite vadd_length, vscale_length; lia|rewrite app_length; cbn; lia|]. intros j Hj. rewrite nth_vadd, nth_vscale by (rewrite vscale_length; congruence). unfold f. rewrite !(nth_snoc n) by auto.
      destruct (Nat.eqb_spec j n) as [E|E]; [rewrite E; reflexivity|]. unfold ws. rewrite (nth_map_seq _ n j 0 ltac:(lia)). reflexivity. }
    assert (OQ : Forall2 (fun q x => q * inject_Z M == inject_Z x)%Q q ws).
    { unfold q, ws. rewrite <- (map_map (fun j => K * nth j xs 0 + nth j r 0) (fun z => inject_Z z / inject_Z M)%Q). apply over. lia. }
    split; auto. split.
    - assert (T : solution (S n) A (ws ++ [M])) by (rewrite <- EW; apply HK; lia). exact (proj2 (solution_rows n A q ws M HA Lw HM OQ) T).
    - intros m x y c d Lm Lx Ly Sx Sy Hc0 Hc1 Hd0 Hd1 HB HD. 
      destruct (clear_point x) as (mx & us & Hmx & HX). destruct (clear_point y) as (my & vs & Hmy & HY).
      assert (Lu : length us = n) by (rewrite <- (forall2_length _ _ _ HX); auto). assert (Lv : length vs = n) by (rewrite <- (forall2_length _ _ _ HY); auto).
      assert (Tx := proj1 (solution_rows n A x us mx HA Lu Hmx HX) Sx). assert (Ty := proj1 (solution_rows n A y vs my HA Lv Hmy HY) Sy).
      destruct c as [cu cw]. destruct d as [du dw]. unfold Qlt in Hc0, Hc1, Hd0, Hd1. cbn in Hc0, Hc1, Hd0, Hd1. set (CW := Z.pos cw) in *. set (DW := Z.pos dw) in *.
      assert (EC : (cu # cw == inject_Z cu / inject_Z CW)%Q) by apply Qmake_Qdiv. assert (ED : (du # dw == inject_Z du / inject_Z DW)%Q) by apply Qmake_Qdiv.
      assert (Hcu : 0 < cu < CW) by lia. assert (Hdu : 0 < du < DW) by lia. assert (HCW : 0 < CW) by lia. assert (HDW : 0 < DW) by lia.
      assert (Pl := inject_zero l Hl). assert (Pmx := inject_zero mx Hmx). assert (Pmy := inject_zero my Hmy). assert (PM := inject_zero M HM). assert (PC := inject_zero CW HCW). assert (PD := inject_zero DW HDW).
      destruct (edge_along (S n) A HP f r Ff Fr (DW * mx * my * ((CW - cu) * l)) (DW * mx * my * (cu * M + (CW - cu) * l * K)) (vscale (CW * l * M * du * my) (us ++ [mx])) (vscale (CW * l * M * (DW - du) * mx) (vs ++ [my]))) as (a & b & e & Ha & E).
      { apply solution_times; auto. nia. }
      { apply solution_times; auto. nia. }
      { apply (vec_ext_nth (S n)); [rewrite vadd_length, !vscale_length; lia|rewrite vadd_length, !vscale_length, !app_length; cbn; lia|]. intros j Hj.
        rewrite !nth_vadd by (rewrite !vscale_length, ?app_length; cbn; lia). rewrite !nth_vscale. unfold f. rewrite !(nth_snoc n) by auto. destruct (Nat.eqb_spec j n) as [E|E].
        - rewrite E. unfold M. ring.
        - assert (HBj := HB j). rewrite (HD j), EC, ED in HBj. rewrite (nth_over l xs j) in HBj by lia.
          assert (Qj := cleared_nth _ _ _ j OQ). assert (Wj : nth j ws 0 = K * nth j xs 0 + nth j r 0) by (unfold ws; rewrite (nth_map_seq _ n j 0 ltac:(lia)); reflexivity). rewrite Wj in Qj.
          apply inject_eq. 
          transitivity (inject_Z DW * inject_Z mx * inject_Z my * (inject_Z cu * inject_Z M * inject_Z (nth j xs 0%Z) + (inject_Z CW - inject_Z cu) * inject_Z l * inject_Z (K * nth j xs 0%Z + nth j r 0%Z)))%Q.
          { unfold Zminus. repeat rewrite ?inject_Z_plus, ?inject_Z_mult, ?inject_Z_opp. ring. }
          rewrite <- Qj.
          transitivity (inject_Z DW * inject_Z mx * inject_Z my * inject_Z CW * inject_Z l * inject_Z M * (inject_Z cu / inject_Z CW * (inject_Z (nth j xs 0%Z) / inject_Z l) + (1 - inject_Z cu / inject_Z CW) * nth j q 0))%Q.
          { field. auto. }
          rewrite <- HBj. unfold Zminus. repeat rewrite ?inject_Z_plus, ?inject_Z_mult, ?inject_Z_opp. rewrite <- (cleared_nth _ _ _ j HX), <- (cleared_nth _ _ _ j HY). field. auto. }
      assert (Ej : forall j, a * (CW * l * M * du * my * nth j (us ++ [mx]) 0) = b * nth j f 0 + e * nth j r 0).
      { intros j. assert (Ej := f_equal (fun u => nth j u 0) E). cbn beta in Ej. rewrite nth_vadd, !nth_vscale in Ej by (rewrite !vscale_length; congruence). auto. }
      exists (a * (CW * l * M * du * my) * mx), b, e. split; [|split].
      + assert (0 < CW * l * M * du * my) by (repeat apply Z.mul_pos_pos; lia). nia.
      + specialize (Ej n). unfold f in Ej. rewrite !(nth_snoc n), Nat.eqb_refl in Ej by auto. lia.
      + intros j Hj. specialize (Ej j). unfold f in Ej. rewrite !(nth_snoc n) in Ej by auto. destruct (Nat.eqb_spec j n); [lia|]. rewrite <- Ej.
        transitivity (inject_Z (a * (CW * l * M * du * my)) * (nth j x 0 * inject_Z mx))%Q; [rewrite (inject_Z_mult _ mx); ring|]. rewrite (cleared_nth _ _ _ j HX), <- inject_Z_mult. f_equiv. ring.
  Qed.
  Definition point_of (xs : vec) (l : Z) : list Q := map (fun z => inject_Z z / inject_Z l)%Q xs.
  Definition towards (xs : vec) (l : Z) (r : vec) (K : Z) : list Q := map (fun j => inject_Z (K * nth j xs 0%Z + nth j r 0%Z) / inject_Z (K * l + nth n r 0%Z))%Q (seq 0 n).
  Lemma facet_point xs l : length xs = n -> 0 < l -> facet (S n) A (xs ++ [l]) -> corner n A (point_of xs l).
  Proof. intros Hx Hl Ff. apply (corner_extreme n A (point_of xs l) xs l HA HU Hx Hl); [apply over; lia|]. apply facet_extreme; auto. Qed.
  Lemma edge_part xs l r : length xs = n -> 0 < l -> facet (S n) A (xs ++ [l]) -> facet (S n) (tight A (xs ++ [l])) r ->
    exists K0, 0 <= K0 /\ forall K, K0 <= K -> 0 < K * l + nth n r 0 /\ part_of_edge n (solves A) (point_of xs l) (towards xs l r K).
  Proof.
    intros Hx Hl Ff Fr. destruct (edge_points xs l r Hx Hl Ff Fr) as (K0 & HK). exists (Z.abs K0). split; [lia|]. intros K HKK. destruct (HK K ltac:(lia)) as (HM & Lq & Sq & He). clear HK. split; auto.
    set (M := K * l + nth n r 0) in *. assert (Pl := inject_zero l Hl). assert (PM := inject_zero M HM). assert (Lr := proj1 Fr).
    assert (C := facet_point xs l Hx Hl Ff). fold (towards xs l r K) in *.
    assert (Nq : forall j, (j < n)%nat -> (nth j (towards xs l r K) 0 == inject_Z (K * nth j xs 0%Z + nth j r 0%Z) / inject_Z M)%Q) by (intros j Hj; unfold towards; rewrite (nth_map_seq _ n j _ Hj); reflexivity).
    assert (Np : forall j, (nth j (point_of xs l) 0 == inject_Z (nth j xs 0%Z) / inject_Z l)%Q) by (intros j; apply nth_over; lia).
    split; [apply C|]. split; [exact Lq|]. split; [apply C|]. split; [exact Sq|]. split.
    - intros E. apply (proj1 (proj2 (proj2 Fr))). intros v Hv. apply in_tight in Hv as [Hv Ef].
      assert (Z0 : vscale l r = vscale (nth n r 0) (xs ++ [l])).
      { apply (vec_ext_nth (S n)); rewrite ?vscale_length, ?app_length; cbn [length]; try lia. intros j Hj. rewrite !nth_vscale, (nth_snoc n) by auto. destruct (Nat.eqb_spec j n) as [Ej|Ej]; [rewrite Ej; lia|].
        assert (Q := same_nth _ _ j E). rewrite Np, Nq in Q by lia.
        assert (Q2 : (inject_Z (nth j xs 0%Z * M) == inject_Z ((K * nth j xs 0%Z + nth j r 0%Z) * l))%Q).
        { rewrite (inject_Z_mult _ M), (inject_Z_mult _ l). transitivity (inject_Z (nth j xs 0%Z) / inject_Z l * (inject_Z l * inject_Z M))%Q; [field; auto|]. rewrite Q. field; auto. }
        apply inject_eq in Q2. unfold M in Q2. lia. }
      assert (Z1 := f_equal (fun u => dot u v) Z0). cbn beta in Z1. rewrite !dot_vscale_l, Ef in Z1. nia.
    - intros m x y c d Lm Lx Ly Sx Sy Hc0 Hc1 Hd0 Hd1 HB HD. destruct (He m x y c d Lm Lx Ly Sx Sy Hc0 Hc1 Hd0 Hd1 HB HD) as (a & b & e & Ha & Ea & E). clear He.
      assert (Pa := inject_zero a Ha). exists (inject_Z e * inject_Z M / inject_Z a)%Q. intros j. destruct (Nat.lt_ge_cases j n) as [Hj|Hj].
      + assert (Xj : (nth j x 0 == inject_Z (b * nth j xs 0%Z + e * nth j r 0%Z) / inject_Z a)%Q) by (rewrite <- (E j Hj); field; auto).
        rewrite Xj, Np, (Nq j Hj). unfold M in *. clear - Pa Pl PM Ea. assert (EM : (inject_Z (K * l + nth n r 0%Z) == inject_Z K * inject_Z l + inject_Z (nth n r 0%Z))%Q) by (rewrite inject_Z_plus, inject_Z_mult; reflexivity).
        assert (EA : (inject_Z a == inject_Z b * inject_Z l + inject_Z e * inject_Z (nth n r 0%Z))%Q) by (rewrite Ea, inject_Z_plus, !inject_Z_mult; reflexivity).
        repeat rewrite ?inject_Z_plus, ?inject_Z_mult. rewrite EM in PM. rewrite EA in *. field. auto.
      + assert (L1 : length (point_of xs l) = n) by (unfold point_of; rewrite map_length; auto). assert (L2 : length (towards xs l r K) = n) by (unfold towards; rewrite map_length, seq_length; auto).
        rewrite !nth_overflow by lia. ring.
  Qed.
  (** No hidden edge: the elimination drops no ridge. *)
  Hypothesis HE : no_hidden_edge n (solves A).
  Lemma facet_solution f : facet (S n) A f -> solution (S n) A f.
  Proof. intros (L & V & _). split; auto. intros a Ha. rewrite dot_comm. auto. Qed.
  Lemma no_outwards f : facet (S n) A f -> ~ facet (S n) (tight A f) U.
  Proof.
    intros Ff Fr. destruct (solution_last n A f HU (facet_solution f Ff)) as (xs & l & -> & Hx & Hl0).
    assert (Hl : 0 < l).
    { destruct (Z.eq_dec l 0) as [->|]; [|lia]. exfalso. assert (T : In U (tight A (xs ++ [0]))).
      { apply in_tight. split; auto. rewrite dot_comm, dot_unit by (rewrite ?app_length; cbn; lia). rewrite (nth_snoc n), Nat.eqb_refl by auto. lia. }
      assert (K := proj1 (proj2 Fr) U T). rewrite dot_unit in K by (rewrite ?unit_vec_length; lia). unfold unit_vec in K. rewrite nth_upd, vzero_length, Nat.eqb_refl in K. destruct (Nat.ltb_spec n (S n)); [|lia]. cbn in K. lia. }
    destruct (edge_part xs l U Hx Hl Ff Fr) as (K0 & HK0 & HK). destruct (HK (K0 + 1) ltac:(lia)) as (HM & P). apply (proj1 (HE (point_of xs l))). split; [apply facet_point; auto|].
    assert (EU : nth n U 0 = -1) by (unfold unit_vec; rewrite nth_upd, vzero_length, Nat.eqb_refl; destruct (Nat.ltb_spec n (S n)); [reflexivity|lia]). rewrite EU in *.
    set (K := K0 + 1) in *. set (M := K * l + -1) in *. assert (PM := inject_zero M HM). assert (Pl := inject_zero l Hl). exists (towards xs l U K), (inject_Z (K * l) / inject_Z M)%Q. split; [|split; auto].
    - apply Qlt_shift_div_l; [apply inject_pos; auto|]. rewrite Qmult_1_l, <- Zlt_Qlt. unfold M. lia.
    - intros j. destruct (Nat.lt_ge_cases j n) as [Hj|Hj].
      + unfold towards. rewrite (nth_map_seq _ n j _ Hj). unfold point_of. rewrite nth_over by lia. rewrite EU. fold M. assert (E0 : nth j U 0 = 0) by (unfold unit_vec; rewrite nth_upd, nth_vzero; destruct (Nat.eqb_spec j n); [lia|reflexivity]). rewrite E0, Z.add_0_r, !inject_Z_mult. field. auto.
      + rewrite !nth_overflow; [ring|unfold point_of; rewrite map_length; lia|unfold towards; rewrite map_length, seq_length; lia].
  Qed.
  Lemma no_downwards f : facet (S n) A f -> (forall v, In v (tight A f) -> nth n v 0 = 0) -> ~ facet (S n) (tight A f) (unit_vec (S n) (n - 1) (-1)).
  Proof.
    intros Ff H0 Fr. destruct (solution_last n A f HU (facet_solution f Ff)) as (xs & l & -> & Hx & Hl0).
    destruct (facet_form (S n) A (xs ++ [l]) (unit_vec (S n) n 1) Ff (unit_vec_length (S n) n 1)) as (k & s & Hk & E).
    { intros v Hv Ev. rewrite dot_unit by (try lia; apply (dims_in (S n) A); auto). rewrite H0; [lia|apply in_tight; auto]. }
    assert (Q : vadd (vscale k (unit_vec (S n) n 1)) (vscale (- s) (xs ++ [l])) = vzero (S n)).
    { apply HP; [apply vadd_length_eq; rewrite vscale_length, ?unit_vec_length, ?app_length; cbn; lia|]. intros v Hv. rewrite dot_vadd_l, !dot_vscale_l by (rewrite !vscale_length, unit_vec_length, app_length; cbn; lia). specialize (E v Hv). lia. }
    assert (Qj : forall j, k * nth j (unit_vec (S n) n 1) 0 = s * nth j (xs ++ [l]) 0).
    { intros j. assert (Qj := f_equal (fun u => nth j u 0) Q). cbn beta in Qj. rewrite nth_vadd, nth_vzero, !nth_vscale in Qj by (rewrite !vscale_length, unit_vec_length, app_length; cbn; lia). lia. }
    assert (Un : nth n (unit_vec (S n) n 1) 0 = 1) by (unfold unit_vec; rewrite nth_upd, vzero_length, Nat.eqb_refl; destruct (Nat.ltb_spec n (S n)); [reflexivity|lia]).
    assert (Q1 := Qj n). rewrite Un, (nth_snoc n), Nat.eqb_refl in Q1 by auto. assert (Hs : s <> 0) by nia. assert (Hl : 0 < l) by nia.
    assert (X0 : forall j, nth j xs 0 = 0).
    { intros j. destruct (Nat.lt_ge_cases j n) as [Hj|Hj]; [|apply nth_overflow; lia]. specialize (Qj j). rewrite (nth_snoc n) in Qj by auto. unfold unit_vec in Qj. rewrite nth_upd, nth_vzero in Qj. destruct (Nat.eqb_spec j n); [lia|]. cbn [andb] in Qj. nia. }
    assert (Hn : (0 < n)%nat).
    { destruct (Nat.eq_dec n 0) as [Z0|]; [|lia]. exfalso. apply (proj1 (proj2 (proj2 Fr))). intros v Hv. assert (L := dims_in (S n) _ v (dims_tight (S n) A _ HA) Hv). rewrite dot_unit by lia. replace (n - 1)%nat with n by lia. rewrite H0 by auto. lia. }
    destruct (edge_part xs l _ Hx Hl Ff Fr) as (K0 & HK0 & HK). destruct (HK (K0 + 1) ltac:(lia)) as (HM & P). apply (proj2 (HE (point_of xs l))).
    assert (P0 : forall j, (nth j (point_of xs l) 0 == 0)%Q) by (intros j; unfold point_of; rewrite nth_over, X0 by lia; change (inject_Z 0) with 0%Q; field; apply inject_zero; auto).
    split; [apply facet_point; auto|]. split; auto.
    assert (E0 : forall j, nth j (unit_vec (S n) (n - 1) (-1)) 0 = if (j =? n - 1)%nat then -1 else 0).
    { intros j. unfold unit_vec. rewrite nth_upd, nth_vzero, vzero_length. destruct (Nat.eqb_spec j (n - 1)); [destruct (Nat.ltb_spec j (S n)); [reflexivity|lia]|reflexivity]. }
    assert (EU : nth n (unit_vec (S n) (n - 1) (-1)) 0 = 0) by (rewrite E0; destruct (Nat.eqb_spec n (n - 1)); [lia|reflexivity]). rewrite EU, Z.add_0_r in *.
    set (K := K0 + 1) in *. assert (PM := inject_zero (K * l) HM). exists (towards xs l (unit_vec (S n) (n - 1) (-1)) K), (1 / inject_Z (K * l))%Q. split; [|split; auto].
    - apply Qlt_shift_div_l; [apply inject_pos; auto|]. rewrite Qmult_0_l. reflexivity.
    - intros j. destruct (Nat.lt_ge_cases j n) as [Hj|Hj].
      + unfold towards. rewrite (nth_map_seq _ n j _ Hj), EU, X0, E0, Z.add_0_r, Z.mul_0_r, Z.add_0_l. destruct (Nat.eqb_spec j (n - 1)), (Nat.eqb_spec (S j) n); try lia.
        * change (inject_Z (-1)) with (- (1))%Q. field. auto.
        * change (inject_Z 0) with 0%Q. field. auto.
      + rewrite nth_overflow by (unfold towards; rewrite map_length, seq_length; lia). destruct (Nat.eqb_spec (S j) n); [lia|reflexivity].
  Qed.
End Points.
