(** * PropertiesVertexAd: vertex enumeration by adjacency decomposition, the default method for files of inequalities (C57, C43). *)
From Coq Require Import List ZArith QArith Arith Bool Ascii String Lia Lqa Permutation.
From Verif Require Import Base Spec LinAlg Cone ListUtil ArithModel MatrixModel FmeModel SafeIntModel IntTypes RowLcm StreamModel StreamProofs ClassesModel
  ConstraintModel ConstraintInput ConstraintSection PropertiesVertices PropertiesConstraints OutputModel OutputProofs PropertiesOutput Hull Corners FmeCore FmePure FmePrepare FmeCorrect Refine MatrixRefine FmeRefine FmeTheorems DimTheorems NormTheorems
  Samples ClassesProofs ApplyTheorems OrbitTheorems OrbitExact PropertiesMaps PropertiesFme MapModel PropertiesProgram RotationModel RotationTheorems PropertiesRotation HeuristicTheorems
  NormalForm Symmetry Adjacency PropertiesAd HullSame VertexInput VertexSymmetry VertexImages PropertiesReduced ListModel AdModel VertexAdModel VertexGraph VertexEdge VertexAd VertexAdExact.
Import ListNotations.
Open Scope Z_scope.
Open Scope list_scope.

(** ** Specification *)
(** [no_hidden_edge n sol] (VertexEdge): no edge of the set [sol] leaves a vertex straight away from the origin, and if the origin is a vertex, no edge leaves it against the last axis.
    [points_of], [rays_of] (Hull): the points and directions that rows of coordinates with a last entry stand for: the point of the coordinates divided by the last entry; the direction if it is 0. *)
Definition only_rows (n : nat) (A : list vec) (maps : list lmap) (rows : list vec) : Prop :=
  homogeneous n rows /\
  (forall q, In q (points_of rows) -> corner n A q) /\ listed_once (fun p q => exists p', moved maps p p' /\ same_point p' q) (points_of rows) /\
  (forall d, In d (rays_of rows) -> extreme_direction n A d) /\ listed_once (fun d e => exists d', turned maps d d' /\ multiple d' e) (rays_of rows).
Definition all_rows_of_classes (n : nat) (A : list vec) (maps : list lmap) (rows : list vec) : Prop :=
  (forall p, corner n A p -> exists q p', In q (points_of rows) /\ moved maps p p' /\ same_point p' q) /\
  (forall d, extreme_direction n A d -> exists e d', In e (rays_of rows) /\ turned maps d d' /\ multiple d' e).
(** Known data: multiples of vertices and extreme rays. *)
Definition are_generators (t : int_type) (n : nat) (A known : list vec) : Prop := forall r, In r known ->
  Forall (representable t) r /\ ((exists p, point_stands n p r /\ corner n A p) \/ (exists d, direction_stands n d r /\ extreme_direction n A d)).

(** ** C43: when no edge is hidden *)
Theorem C43_no_hidden_edge_partial : forall t order n (A St F : list vec) (g : vec),
  t <> INT16 -> sort_order order -> rows_representable t A -> dims (S n) A -> (0 < n)%nat -> no_line (S n) A -> In (unit_vec (S n) n (-1)) A ->
  no_hidden_edge n (solves A) ->
  m_fme_heuristic (arith t) order A = Ok St -> m_fme (arith t) order A = Ok F -> no_rotation_fails t order A St ->
  In g F <-> explored t order A St g.
Proof.
  intros t order n A St F g Ht Ho HR HA Hn HL HU HE HS HF Hok. assert (Hnz := v_nonzero n A HU). assert (Hex := v_exl n A HU). assert (Hlt := proj2 (v_last n A HU)). assert (Vl := v_line n A HL).
  assert (ES := result_heuristic t order (S n) A Ht Ho HR HA St Hnz HS). rewrite (result_fme t order (S n) A Ht Ho HR HA F Hnz HF).
  assert (HSr : rows_representable t St).
  { assert (H := fme_heuristic_rel _ _ (arith t) (sound_type t Ht) order Ho (S n) A A (rows_rel t Ht A HR) HA Hnz). change (num (arith t)) with Z in *. rewrite HS in H. cbn [rel] in H. apply rel_rows in H. tauto. }
  assert (Hi : incl St (all_rows order (S n) A)) by (rewrite ES; intros f; apply heuristic_incl; auto).
  assert (H1 : forall f, facet (S n) A f -> ~ facet (S n) (tight A f) (unit_vec (S n) (S n - 1) (-1))) by (intros f Ff; replace (S n - 1)%nat with n by lia; apply no_outwards; auto).
  assert (H2 : forall f, facet (S n) A f -> (forall v, In v (tight A f) -> nth (S n - 1) v 0 = 0) -> ~ facet (S n) (tight A f) (unit_vec (S n) (S n - 2) (-1))).
  { intros f Ff H0. replace (S n - 2)%nat with (n - 1)%nat by lia. replace (S n - 1)%nat with n in H0 by lia. apply no_downwards; auto. }
  rewrite (g_all_fme order (S n) A Ho HA Hlt).
  destruct St as [|s0 St'].
  - symmetry in ES. apply heuristic_empty in ES; auto. rewrite ES. split; [intros []|]. intros Hx. rewrite <- ES.
    apply (g_explored_all t order (S n) A Ht Ho HR HA (v_tight n A HL Hn) [] Hi HSr g Hx).
  - apply (g_explored t order (S n) A Ht Ho HR HA Hlt Vl (v_tight n A HL Hn) H1 H2 (s0 :: St') s0 g); auto. left; auto.
Qed.
Print Assumptions C43_no_hidden_edge_partial.

(** ** C57: rows and text *)
Lemma symmetries_permuting n A maps : system_symmetries n A maps -> permuting (S n) A maps.
Proof.
  intros Hsym. split; [intros m Hm; apply (Hsym m Hm)|]. split.
  - intros m a Hm Ha. destruct (Hsym m Hm) as (_ & _ & W & HW & HP). destruct (forall2_in_l _ _ _ a HW Ha) as (b & Hb & j & k & Hj & Hk & E). exists b, j, k. split; [apply (Permutation_in _ HP); auto|auto].
  - intros m b Hm Hb. destruct (Hsym m Hm) as (_ & _ & W & HW & HP). destruct (forall2_in_r _ _ _ b HW (Permutation_in _ (Permutation_sym HP) Hb)) as (a & Ha & j & k & Hj & Hk & E). exists a, j, k. auto.
Qed.
Lemma generators_known t n A known : dims (S n) A -> In (unit_vec (S n) n (-1)) A -> are_generators t n A known -> known_rays t n A known.
Proof.
  intros HA HU H r Hr. destruct (H r Hr) as (Rr & [(p & (xs & l & -> & Hx & Hl & HX) & C)|(d & (xs & l & -> & Hx & Hl & HX) & C)]); split; auto.
  - apply (corner_extreme n A p xs l); auto.
  - apply (direction_extreme n A d xs l); auto.
Qed.
Lemma raw_lines t n (rows : list vec) : dims (S n) rows -> Forall int_row rows -> exists lines, m_raw_lines t rows = say lines /\ section_lines lines (map whole rows).
Proof.
  intros HD HI. unfold m_raw_lines. induction rows as [|r rows IH]; [exists []; split; [reflexivity|constructor]|]. apply Forall_cons_iff in HD, HI. destruct HD as (Hr & HD), HI as (Ir & HI).
  destruct (IH HD HI) as (lines & E & HS). destruct (print_row_coordinates r) as (u & l & Er & Hu & _ & Hc); auto; [intros ->; discriminate Hr|].
  exists (u ++ l ++ newline :: lines). split.
  - cbn [for_all]. rewrite C40_conversion by auto. cbn [calc]. rewrite Er, E. cbn [say andthen fst snd]. unfold end_line. rewrite <- !app_assoc. reflexivity.
  - cbn [map]. apply section_point; auto. constructor; auto.
Qed.
(** Points and directions of rows. *)
Lemma rows_points n (rows : list vec) : homogeneous n rows -> Forall2 (point_stands n) (points_of rows) (filter is_vertex rows).
Proof.
  intros H. induction H as [|r rows (Hl & Hp) _ IH]; [constructor|]. unfold points_of, is_point, is_vertex in *. cbn [filter]. destruct (row_split n r Hl) as (xs & b & -> & Hx & Hn & _). rewrite Hn in Hp.
  rewrite last_last. destruct (Z.eqb_spec b 0) as [->|Hb]; cbn [negb]; auto. cbn [map]. constructor; auto. exists xs, b. split; auto. split; auto. split; [lia|]. unfold point_of_row. rewrite last_last, removelast_last. apply over. lia.
Qed.
Lemma rows_directions n (rows : list vec) : homogeneous n rows -> Forall2 (direction_stands n) (rays_of rows) (filter (fun r => negb (is_vertex r)) rows).
Proof.
  intros H. induction H as [|r rows (Hl & Hp) _ IH]; [constructor|]. unfold rays_of, is_point, is_vertex in *. cbn [filter]. destruct (row_split n r Hl) as (xs & b & -> & Hx & Hn & _). rewrite Hn in Hp.
  rewrite last_last. destruct (Z.eqb_spec b 0) as [->|Hb]; cbn [negb]; auto. cbn [map]. constructor; auto. exists xs, 1. split; auto. split; auto. split; [lia|]. unfold ray_of_row. rewrite removelast_last.
  clear. induction xs as [|x xs IH]; cbn [map]; constructor; auto. change (inject_Z 1) with 1%Q. ring.
Qed.
(** The rows of a set of vertices and rays of different classes. *)
Section Printed.
  Variables (t : int_type) (order : list nat -> list nat) (n : nat) (A F : list vec) (maps : list lmap) (rows : list vec).
  Hypothesis Ho : sort_order order.
  Hypothesis HA : dims (S n) A.
  Hypothesis Hn : (0 < n)%nat.
  Hypothesis HL : no_line (S n) A.
  Hypothesis HU : In (unit_vec (S n) n (-1)) A.
  Hypothesis Hsym : system_symmetries n A maps.
  Hypothesis HF : m_fme (arith EXACT) order A = Ok F.
  Hypothesis BF : Forall negatable_row F.
  Hypothesis Hrows : forall r, In r rows -> v_good t order n A maps r.
  Hypothesis Hnd : NoDup rows.
  Let Hx : EXACT <> INT16 := ltac:(discriminate).
  Let HRx := representable_exact A.

  Lemma p_fme r : In r F <-> In r (all_rows order (S n) A).
  Proof. rewrite (result_fme EXACT order (S n) A Hx Ho HRx HA F (v_nonzero n A HU) HF). apply g_all_fme; auto. apply (proj2 (v_last n A HU)). Qed.
  Lemma p_in : incl rows F.
  Proof. intros r Hr. apply p_fme. apply Hrows. auto. Qed.
  Lemma p_dims : dims (S n) rows /\ homogeneous n rows /\ Forall int_row rows.
  Proof.
    destruct (generator_rows EXACT order n A F) as (DF & HomF & _); auto. split; [|split]; apply Forall_forall; intros r Hr; assert (Hf := p_in r Hr).
    - apply (dims_in (S n) F); auto.
    - unfold homogeneous in HomF. rewrite Forall_forall in HomF. auto.
    - apply negatable_int. rewrite Forall_forall in BF. auto.
  Qed.
  Lemma p_apart r x : In r rows -> In x rows -> orbit EXACT Vertex_tag maps r x -> x = r.
  Proof.
    intros Hr Hx' Hor. assert (HM := symmetries_permuting n A maps Hsym). destruct (Hrows r Hr) as (Ir & _ & Lr). destruct (Hrows x Hx') as (_ & _ & Lx).
    apply (largest_unique EXACT Vertex_tag maps r); auto. apply (largest_orbit EXACT Vertex_tag maps r x x (v_reversible order n A maps Ho HA HL HM r Ir) Hor). auto.
  Qed.
  Lemma p_sound : only_rows n A maps rows.
  Proof.
    destruct p_dims as (_ & Hh & _). split; auto.
    apply (listing_sound EXACT order n A F rows maps (points_of rows) (rays_of rows)); auto using p_in, p_apart, rows_points, rows_directions.
  Qed.
  Lemma p_complete : (forall g, In g (all_rows order (S n) A) -> exists r, In r rows /\ largest EXACT Vertex_tag maps g r) ->
    all_rows_of_classes n A maps rows /\
    (forall p : list Q, length p = n -> (solves A p <-> exists points directions,
      (forall q, In q points -> exists q0, In q0 (points_of rows) /\ moved maps q0 q) /\ (forall d, In d directions -> exists d0, In d0 (rays_of rows) /\ turned maps d0 d) /\ hull n points directions p)).
  Proof.
    intros Hc. destruct p_dims as (_ & Hh & _). destruct (listing_complete EXACT order n A F rows maps (points_of rows) (rays_of rows)) as (L5 & L6 & L7); auto using p_in, rows_points, rows_directions.
    - intros f Hf. destruct (Hc f) as (r & Hr & L); [apply p_fme; auto|]. exists r. split; auto. apply L.
    - split; auto. split; auto.
  Qed.
End Printed.

(** In every state that any number of threads can reach in any order of their steps, only vertices and extreme directions have been printed, no class of them twice. *)
Theorem C57_any_time : forall t order n (A F : list vec) maps fuel threads known start added ls s,
  t <> INT16 -> sort_order order -> rows_representable t A -> dims (S n) A -> (0 < n)%nat -> no_line (S n) A -> In (unit_vec (S n) n (-1)) A -> system_symmetries n A maps ->
  are_generators t n A known -> (0 < threads)%nat -> m_fme (arith EXACT) order A = Ok F -> Forall negatable_row F ->
  m_vad_start t order fuel A maps known = Ok (Some start) -> m_vad_added t fuel maps known added ->
  ListModel.run (m_vad_neighbours t order fuel A maps) (initial start added threads 0) ls s ->
  NoDup (printed (sh s)) /\ only_rows n A maps (printed (sh s)).
Proof.
  intros t order n A F maps fuel threads known start added ls s Ht Ho HR HA Hn HL HU Hsym Hk Hth HF BF Es Ea Hrun.
  destruct (v_run t order n A maps fuel Ht Ho HR HA HU HL (symmetries_permuting n A maps Hsym) Hn known start added threads ls s (generators_known t n A known HA HU Hk) Hth Es Ea Hrun) as (R1 & R2 & _).
  split; auto. apply (p_sound t order n A F); auto.
Qed.
Print Assumptions C57_any_time.

(** The printed text at the end. *)
Theorem C57_text : forall t order n (A F : list vec) maps fuel threads known s out,
  t <> INT16 -> sort_order order -> rows_representable t A -> dims (S n) A -> (0 < n)%nat -> no_line (S n) A -> In (unit_vec (S n) n (-1)) A -> system_symmetries n A maps ->
  are_generators t n A known -> (0 < threads)%nat -> m_fme (arith EXACT) order A = Ok F -> Forall negatable_row F ->
  m_vad_run t order fuel threads A maps known s out ->
  exists lines (rows : list vec),
    out = (if nonempty maps then lit "Reduced " else []) ++ lit "Vertices / Rays:" ++ newline :: lines /\ section_lines lines (map whole rows) /\ NoDup rows /\
    only_rows n A maps rows /\
    (no_hidden_edge n (solves A) -> all_rows_of_classes n A maps rows).
Proof.
  intros t order n A F maps fuel threads known s out Ht Ho HR HA Hn HL HU Hsym Hk Hth HF BF (start & added & ls & lines & Es & Ea & Hrun & Hend & Hp & El & ->).
  destruct (v_run t order n A maps fuel Ht Ho HR HA HU HL (symmetries_permuting n A maps Hsym) Hn known start added threads ls s (generators_known t n A known HA HU Hk) Hth Es Ea Hrun) as (R1 & R2 & R3).
  destruct (p_dims t order n A F maps (printed (sh s))) as (D1 & D2 & D3); auto. destruct (raw_lines t n (printed (sh s)) D1 D3) as (lines' & E' & HS). rewrite El in E'.
  assert (lines' = lines) as -> by (unfold say in E'; congruence). exists lines, (printed (sh s)). split; [|split; [|split; [|split]]]; auto.
  - unfold m_vad_title, end_line. destruct maps; cbn [nonempty m_reduced app]; rewrite <- ?app_assoc; reflexivity.
  - apply (p_sound t order n A F); auto.
  - intros HE. apply (p_complete t order n A F); auto.
Qed.
Print Assumptions C57_text.

(** Without maps: exactly the vertices and the extreme directions, each once, and they generate the polyhedron. *)
Theorem C57_vertices : forall t order n (A F : list vec) fuel threads known s out,
  t <> INT16 -> sort_order order -> rows_representable t A -> dims (S n) A -> (0 < n)%nat -> no_line (S n) A -> In (unit_vec (S n) n (-1)) A ->
  are_generators t n A known -> (0 < threads)%nat -> m_fme (arith EXACT) order A = Ok F -> Forall negatable_row F -> no_hidden_edge n (solves A) ->
  m_vad_run t order fuel threads A [] known s out ->
  exists lines (rows : list vec),
    out = lit "Vertices / Rays:" ++ newline :: lines /\ section_lines lines (map whole rows) /\
    (forall p : list Q, length p = n -> (solves A p <-> hull n (points_of rows) (rays_of rows) p)) /\
    (forall p : list Q, corner n A p <-> exists q, In q (points_of rows) /\ same_point q p) /\
    listed_once same_point (points_of rows) /\
    (forall d : list Q, extreme_direction n A d <-> length d = n /\ exists u, In u (rays_of rows) /\ multiple d u) /\
    listed_once multiple (rays_of rows).
Proof.
  intros t order n A F fuel threads known s out Ht Ho HR HA Hn HL HU Hk Hth HF BF HE Hrun. assert (Hsym : system_symmetries n A []) by (intros m []).
  destruct Hrun as (start & added & ls & lines & Es & Ea & Hrun & Hend & Hp & El & ->).
  destruct (v_run t order n A [] fuel Ht Ho HR HA HU HL (permuting_none (S n) A) Hn known start added threads ls s (generators_known t n A known HA HU Hk) Hth Es Ea Hrun) as (R1 & R2 & R3).
  set (rows := printed (sh s)) in *. specialize (R3 Hend Hp HE). destruct (p_dims t order n A F [] rows) as (D1 & D2 & D3); auto. destruct (raw_lines t n rows D1 D3) as (lines' & E' & HS). rewrite El in E'.
  assert (lines' = lines) as -> by (unfold say in E'; congruence). destruct (p_sound t order n A F [] rows) as (_ & S1 & S2 & S3 & S4); auto.
  destruct (p_complete t order n A F [] rows Ho HA Hn HL HU Hsym HF BF R2 R3) as ((C1 & C2) & C3).
  assert (M0 : forall p q, moved [] p q -> q = p) by (intros p q Hm; destruct Hm as [|m p q []]; auto). assert (T0 : forall p q, turned [] p q -> q = p) by (intros p q Hm; destruct Hm as [|m p q []]; auto).
  assert (CV := rows_points n rows D2). assert (CD := rows_directions n rows D2).
  exists lines, rows. split; [reflexivity|]. split; auto. split; [|split; [|split; [|split]]].
  - intros p Hp'. rewrite (C3 p Hp'). split.
    + intros (points & directions & K1 & K2 & H). revert H. apply hull_mono; apply Forall_forall; intros v Hv.
      * destruct (K1 v Hv) as (q & Hq & Hm). apply M0 in Hm. subst v. exists q. split; auto. intros j _. reflexivity.
      * destruct (K2 v Hv) as (q & Hq & Hm). apply T0 in Hm. subst v. exists q, 1%Q. split; auto. split; [discriminate|]. intros j _. ring.
    + intros H. exists (points_of rows), (rays_of rows). split; [|split]; auto; intros q Hq; exists q; split; auto; constructor.
  - intros p. split.
    + intros Hc. destruct (C1 p Hc) as (q & p' & Hq & Hm & Hs). apply M0 in Hm. subst p'. exists q. split; auto. apply same_sym. auto.
    + intros (q & Hq & Hs). assert (Cq := S1 q Hq). destruct (forall2_in_l _ _ _ q CV Hq) as (r & _ & xs & l & -> & Hx & Hl & HX). apply (corner_extreme n A q xs l HA HU Hx Hl HX) in Cq.
      apply (corner_extreme n A p xs l HA HU Hx Hl); auto. apply (clears_same l q); auto.
  - intros i j Hi Hj Hs. apply S2; auto. exists (nth i (points_of rows) []). split; auto. constructor.
  - intros d. split.
    + intros Hc. split; [apply Hc|]. destruct (C2 d Hc) as (u & d' & Hu & Hm & Hs). apply T0 in Hm. subst d'. exists u. auto.
    + intros (Hd & u & Hu & Hm). assert (Cu := S3 u Hu). destruct (forall2_in_l _ _ _ u CD Hu) as (r & _ & Sr). assert (Sr' := Sr). destruct Sr' as (xs & l & -> & Hx & Hl & HX).
      apply (direction_extreme n A u xs l HA HU Hx Hl HX) in Cu. destruct (clear_point d) as (k & ys & Hk' & HY). assert (Hy : length ys = n) by (rewrite <- (forall2_length _ _ _ HY); auto).
      assert (Sd : direction_stands n d (ys ++ [0])) by (exists ys, k; auto). apply (direction_extreme n A d ys k HA HU Hy Hk' HY). apply (prop_extreme n A HA HL (xs ++ [0])); auto.
      apply prop_sym. apply (direction_same n d u); auto.
  - intros i j Hi Hj Hs. apply S4; auto. exists (nth i (rays_of rows) []). split; auto. constructor.
Qed.
Print Assumptions C57_vertices.

(** With unbounded integers nothing fails: from every reachable state any number of threads can be run to the end, and the text is printed. *)
Theorem C57_ends : forall order n (A F : list vec) maps known,
  sort_order order -> dims (S n) A -> (0 < n)%nat -> no_line (S n) A -> In (unit_vec (S n) n (-1)) A -> system_symmetries n A maps -> are_generators EXACT n A known ->
  m_fme (arith EXACT) order A = Ok F -> Forall negatable_row F ->
  exists enough, forall fuel threads, (enough <= fuel)%nat -> (0 < threads)%nat -> exists start added,
    m_vad_start EXACT order fuel A maps known = Ok (Some start) /\ m_vad_known EXACT fuel maps known = Ok (Some added) /\
    forall ls s, ListModel.run (m_vad_neighbours EXACT order fuel A maps) (initial start added threads 0) ls s ->
      (forall r, In r (handed (sh s)) -> m_vad_processed EXACT order fuel A maps r) /\
      exists ls' s' out, ListModel.run (m_vad_neighbours EXACT order fuel A maps) s ls' s' /\ m_vad_run EXACT order fuel threads A maps known s' out.
Proof.
  intros order n A F maps known Ho HA Hn HL HU Hsym Hk HF BF. assert (HM := symmetries_permuting n A maps Hsym). assert (HK := generators_known EXACT n A known HA HU Hk).
  exists (length (all_rows order (S n) A)). intros fuel threads Hfuel Hth.
  destruct (x_start order n A maps fuel Ho HA HU HL HM Hfuel known HK) as (start & Es). destruct (x_known order n A maps fuel Ho HA HL HM Hfuel known HK) as (added & Ek).
  exists start, added. split; auto. split; auto. intros ls s Hrun.
  assert (Ead : m_vad_added EXACT fuel maps known added) by (exists (length known); rewrite firstn_all; auto).
  split; [apply (x_handed order n A maps fuel Ho HA HU HL HM Hfuel Hn known start added threads ls s HK Es Ead Hrun)|].
  destruct (x_finishes order n A maps fuel Ho HA HU HL HM Hn known start added threads ls s HK Hth Es Ead Hrun) as (ls' & s' & Hrun' & Hend).
  assert (Hall : ListModel.run (m_vad_neighbours EXACT order fuel A maps) (initial start added threads 0) (ls ++ ls') s') by (apply (ListTheorems.run_app _ _ ls s ls' s'); auto).
  destruct (v_run EXACT order n A maps fuel ltac:(discriminate) Ho (representable_exact A) HA HU HL HM Hn known start added threads (ls ++ ls') s' HK Hth Es Ead Hall) as (R1 & R2 & _).
  destruct (p_dims EXACT order n A F maps (printed (sh s'))) as (D1 & D2 & D3); auto. destruct (raw_lines EXACT n (printed (sh s')) D1 D3) as (lines & El & _).
  exists ls', s', (m_vad_title maps ++ lines). split; auto. exists start, added, (ls ++ ls'), lines. split; auto. split; auto. split; auto. split; auto. split; auto.
  apply (x_handed order n A maps fuel Ho HA HU HL HM Hfuel Hn known start added threads (ls ++ ls') s' HK Es Ead Hall).
Qed.
Print Assumptions C57_ends.

(** ** When no edge is hidden *)
(** If the origin is a solution, no edge leaves a vertex straight away from it. *)
Lemma origin_no_outwards n (sol : list Q -> Prop) p : sol (repeat 0%Q n) -> ~ leaves_outwards n sol p.
Proof.
  intros H0 ((Lp & Sp & Vp) & r & t & Ht & Er & (_ & Lr & _ & Sr & Hne & _)). apply Hne.
  assert (N0 : forall j, (nth j (repeat 0%Q n) 0 == 0)%Q) by (intros j; destruct (Nat.lt_ge_cases j n); [rewrite nth_repeat; reflexivity|rewrite nth_overflow by (rewrite repeat_length; auto); reflexivity]).
  assert (Nt : ~ (t == 0)%Q) by lra. assert (Hi : (0 < / t)%Q) by (apply Qinv_lt_0_compat; lra). assert (Ei : (t * / t == 1)%Q) by (apply Qmult_inv_r; auto).
  assert (Q0 : same_point r p).
  { apply (Vp r (repeat 0%Q n) (/ t)%Q); auto; [apply repeat_length| |].
    - apply (Qmult_lt_r _ _ t); [lra|]. rewrite Qmult_comm, Ei. lra.
    - intros j. rewrite (N0 j), (Er j), Qmult_0_r, Qplus_0_r, Qmult_assoc, (Qmult_comm (/ t)), Ei. ring. }
  apply same_sym. auto.
Qed.
(** A vertex at the origin has no edge against the last axis if the last coordinate is nowhere negative. *)
Lemma above_no_origin n (sol : list Q -> Prop) p : (0 < n)%nat -> (forall q, length q = n -> sol q -> (0 <= nth (n - 1) q 0)%Q) -> ~ leaves_origin n sol p.
Proof.
  intros Hn H (_ & _ & r & t & Ht & Er & (_ & Lr & _ & Sr & _)). specialize (H r Lr Sr). rewrite (Er (n - 1)%nat) in H. destruct (Nat.eqb_spec (S (n - 1)) n); [lra|lia].
Qed.
Lemma outside_no_origin n (sol : list Q -> Prop) p : ~ sol p \/ (exists j, ~ (nth j p 0 == 0)%Q) -> ~ leaves_origin n sol p.
Proof. intros [H|(j & H)] ((_ & Sp & _) & E & _); auto. Qed.

(** ** Examples *)
(** The unit square, and the square 1 <= x, y <= 2, from which the origin is far away. *)
Definition far_square : list vec := [[-1; 0; 1]; [0; -1; 1]; [1; 0; -2]; [0; 1; -2]; [0; 0; -1]].
Lemma unit_square_no_hidden : no_hidden_edge 2 (solves square_ineqs).
Proof.
  intros p. split.
  - apply origin_no_outwards. intros a Ha. cbn in Ha. destruct Ha as [<-|[<-|[<-|[<-|[<-|[]]]]]]; cbn; unfold Qle; cbn; lia.
  - apply above_no_origin; [lia|]. intros [|x [|y [|]]] Hl; try discriminate Hl. intros Hs. specialize (Hs [0; -1; 0] ltac:(cbn; tauto)). cbn in *. unfold inject_Z in *. lra.
Qed.
Lemma far_square_solves x y : solves far_square [x; y] <-> (1 <= x /\ x <= 2 /\ 1 <= y /\ y <= 2)%Q.
Proof.
  split.
  - intros H. assert (H1 := H [-1; 0; 1] ltac:(cbn; tauto)). assert (H2 := H [0; -1; 1] ltac:(cbn; tauto)). assert (H3 := H [1; 0; -2] ltac:(cbn; tauto)). assert (H4 := H [0; 1; -2] ltac:(cbn; tauto)).
    cbn in H1, H2, H3, H4. unfold inject_Z in *. repeat split; lra.
  - intros (H1 & H2 & H3 & H4) a Ha. cbn in Ha. destruct Ha as [<-|[<-|[<-|[<-|[<-|[]]]]]]; cbn; unfold inject_Z; lra.
Qed.
Lemma far_square_no_hidden : no_hidden_edge 2 (solves far_square).
Proof.
  intros p. split.
  - intros (_ & r & t & Ht & Er & (Lp & Lr & Sp & Sr & _ & He)). destruct p as [|a [|b [|]]]; try discriminate Lp. destruct r as [|c [|d [|]]]; try discriminate Lr.
    apply far_square_solves in Sp, Sr. assert (Ec := Er 0%nat). assert (Ed := Er 1%nat). cbn in Ec, Ed. clear Er. set (e := ((t - 1) * (1 # 2))%Q). assert (He0 : (0 < e)%Q) by (unfold e; lra).
    assert (E2 : (t == 1 + 2 * e)%Q) by (unfold e; ring). clearbody e. rewrite E2 in Ec, Ed. clear Ht E2 t.
    assert (Pa : (e <= e * a)%Q) by nra. assert (Pb : (e <= e * b)%Q) by nra.
    assert (K := He [a + e * a; b + e * b]%Q [a + e * a + e; b + e * b - e]%Q [a + e * a - e; b + e * b + e]%Q (1 # 2)%Q (1 # 2)%Q eq_refl eq_refl eq_refl).
    destruct K as (s & K); try reflexivity.
    + apply far_square_solves. lra.
    + apply far_square_solves. lra.
    + intros [|[|j]]; cbn; [rewrite Ec; ring|rewrite Ed; ring|destruct j; ring].
    + intros [|[|j]]; cbn; [ring|ring|destruct j; ring].
    + assert (K0 := K 0%nat). assert (K1 := K 1%nat). cbn in K0, K1. rewrite Ec in K0. rewrite Ed in K1.
      assert (Z0 : (e * (a + b) == 0)%Q).
      { assert (K0' : ((a + e * a + e) * b == (a + s * (2 * e * a)) * b)%Q) by (rewrite K0; ring). assert (K1' : ((b + e * b - e) * a == (b + s * (2 * e * b)) * a)%Q) by (rewrite K1; ring). nra. }
      nra.
  - intros ((Lp & Sp & _) & E0 & _). destruct p as [|a [|b [|]]]; try discriminate Lp. apply far_square_solves in Sp. assert (Ea := E0 0%nat). cbn in Ea. lra.
Qed.
Example C57_example :
  INT32 <> INT16 /\ sort_order sorted_order /\ rows_representable INT32 far_square /\ dims 3 far_square /\ no_line 3 far_square /\ In (unit_vec 3 2 (-1)) far_square /\
  system_symmetries 2 far_square [exchange2] /\ no_hidden_edge 2 (solves far_square) /\ are_generators INT32 2 far_square [[2; 2; 2]] /\
  m_fme (arith EXACT) sorted_order far_square = Ok [[2; 1; 1]; [1; 1; 1]; [1; 2; 1]; [2; 2; 1]] /\ Forall negatable_row [[2; 1; 1]; [1; 1; 1]; [1; 2; 1]; [2; 2; 1]] /\
  exists s out, m_vad_run EXACT sorted_order 4 2 far_square [exchange2] [[2; 2; 2]] s out.
Proof.
  assert (HD : dims 3 far_square) by solve_rows. assert (HU : In (unit_vec 3 2 (-1)) far_square) by (cbn; tauto).
  assert (HL : no_line 3 far_square).
  { intros x Hx H. destruct x as [|a [|b [|c [|]]]]; try discriminate Hx.
    assert (H1 := H [-1; 0; 1] ltac:(cbn; tauto)). assert (H2 := H [0; -1; 1] ltac:(cbn; tauto)). assert (H3 := H [0; 0; -1] ltac:(cbn; tauto)).
    cbn [dot] in H1, H2, H3. unfold vzero. cbn [repeat]. repeat f_equal; lia. }
  assert (HF : m_fme (arith EXACT) sorted_order far_square = Ok [[2; 1; 1]; [1; 1; 1]; [1; 2; 1]; [2; 2; 1]]) by reflexivity.
  assert (HB : Forall negatable_row [[2; 1; 1]; [1; 1; 1]; [1; 2; 1]; [2; 2; 1]]) by (repeat constructor; lia).
  assert (HS : system_symmetries 2 far_square [exchange2]).
  { intros m [<-|[]]. split; [split; [reflexivity|repeat constructor]|]. split; [reflexivity|].
    exists [[0; -1; 1]; [-1; 0; 1]; [0; 1; -2]; [1; 0; -2]; [0; 0; -1]]. split.
    - repeat (apply Forall2_cons; [exists 1, 1; split; [lia|split; [lia|]]; intros [|x [|y [|z [|]]]] Hx; try discriminate; cbn [exchange2 substitute map image_value fold_right fst snd nth dot]; ring|]); constructor.
    - unfold far_square. eapply perm_trans; [apply perm_swap|]. apply perm_skip, perm_skip. apply perm_swap. }
  assert (HC : forall t, t <> INT16 -> are_generators t 2 far_square [[2; 2; 2]]).
  { intros t Ht r [<-|[]]. split; [repeat constructor; destruct t; cbn; unfold fits, SafeIntModel.int_min, SafeIntModel.int_max; cbn; try lia; congruence|]. left. exists [1; 1]%Q. assert (SP : point_stands 2 [1; 1]%Q [2; 2; 2]) by (exists [2; 2], 2; repeat split; repeat constructor).
    split; auto. destruct (C41_extreme_rays EXACT sorted_order 3 far_square _ ltac:(discriminate) sorted_order_ok (representable_exact _) HD ltac:(lia) HL HU HF) as (X1 & _).
    apply (corner_extreme 2 far_square [1; 1]%Q [1; 1] 1); auto; [lia|repeat constructor|]. apply (X1 [1; 1; 1]). cbn; tauto. }
  split; [discriminate|]. split; [apply sorted_order_ok|]. split; [solve_rows|]. split; auto. split; auto. split; auto. split; auto. split; [apply far_square_no_hidden|]. split; [apply HC; discriminate|]. split; auto. split; auto.
  assert (HK := generators_known EXACT 2 far_square _ HD HU (HC EXACT ltac:(discriminate))). assert (HM := symmetries_permuting 2 far_square _ HS). assert (Hfuel : (length (all_rows sorted_order 3 far_square) <= 4)%nat) by (vm_compute; lia).
  destruct (x_start sorted_order 2 far_square [exchange2] 4 sorted_order_ok HD HU HL HM Hfuel _ HK) as (start & Es). destruct (x_known sorted_order 2 far_square [exchange2] 4 sorted_order_ok HD HL HM Hfuel _ HK) as (added & Ek).
  assert (Ead : m_vad_added EXACT 4 [exchange2] [[2; 2; 2]] added) by (exists 1%nat; split; auto).
  destruct (x_finishes sorted_order 2 far_square [exchange2] 4 sorted_order_ok HD HU HL HM ltac:(lia) _ start added 2%nat [] _ HK ltac:(lia) Es Ead (run_nil _ _)) as (ls & s & Hrun & Hend).
  destruct (v_run EXACT sorted_order 2 far_square [exchange2] 4 ltac:(discriminate) sorted_order_ok (representable_exact _) HD HU HL HM ltac:(lia) _ start added 2%nat ls s HK ltac:(lia) Es Ead Hrun) as (R1 & R2 & _).
  destruct (p_dims EXACT sorted_order 2 far_square _ [exchange2] (printed (sh s)) sorted_order_ok HD ltac:(lia) HL HU HF HB R2) as (D1 & D2 & D3). destruct (raw_lines EXACT 2 (printed (sh s)) D1 D3) as (lines & El & _).
  exists s, (m_vad_title [exchange2] ++ lines), start, added, ls, lines. split; auto. split; auto. split; auto. split; auto. split; auto.
  apply (x_handed sorted_order 2 far_square [exchange2] 4 sorted_order_ok HD HU HL HM Hfuel ltac:(lia) _ start added 2%nat ls s HK Es Ead Hrun).
Qed.

(** ** C43 on the level of the program: in the quadrilateral 1 <= x <= 2, 0 <= y <= x the edges from (1, 0) to (2, 0) and from (1, 1) to (2, 2) are hidden, and no run prints the vertex (2, 0),
    although nothing fails and every number of threads can finish. *)
Definition hidden_square : list vec := [[-1; 0; 1]; [0; -1; 0]; [-1; 1; 0]; [1; 0; -2]; [0; 0; -1]].
Theorem C43_program_refuted :
  dims 3 hidden_square /\ no_line 3 hidden_square /\ In (unit_vec 3 2 (-1)) hidden_square /\ corner 2 hidden_square [2; 0]%Q /\
  (forall threads, (0 < threads)%nat -> exists s out, m_vad_run EXACT sorted_order 4 threads hidden_square [] [] s out) /\
  (forall threads s out, m_vad_run EXACT sorted_order 4 threads hidden_square [] [] s out -> ~ exists q, In q (points_of (printed (sh s))) /\ same_point q [2; 0]%Q).
Proof.
  assert (HD : dims 3 hidden_square) by solve_rows. assert (HU : In (unit_vec 3 2 (-1)) hidden_square) by (cbn; tauto).
  assert (HL : no_line 3 hidden_square).
  { intros x Hx H. destruct x as [|a [|b [|c [|]]]]; try discriminate Hx.
    assert (H1 := H [-1; 0; 1] ltac:(cbn; tauto)). assert (H2 := H [0; -1; 0] ltac:(cbn; tauto)). assert (H3 := H [0; 0; -1] ltac:(cbn; tauto)).
    cbn [dot] in H1, H2, H3. unfold vzero. cbn [repeat]. repeat f_equal; lia. }
  assert (HF : m_fme (arith EXACT) sorted_order hidden_square = Ok [[1; 1; 1]; [1; 0; 1]; [2; 0; 1]; [2; 2; 1]]) by reflexivity.
  assert (HB : Forall negatable_row [[1; 1; 1]; [1; 0; 1]; [2; 0; 1]; [2; 2; 1]]) by (repeat constructor; lia).
  assert (HM := permuting_none 3 hidden_square). assert (Hfuel : (length (all_rows sorted_order 3 hidden_square) <= 4)%nat) by (vm_compute; lia).
  assert (HK : known_rays EXACT 2 hidden_square []) by (intros r []). split; auto. split; auto. split; auto. split; [|split].
  - destruct (C41_extreme_rays EXACT sorted_order 3 hidden_square _ ltac:(discriminate) sorted_order_ok (representable_exact _) HD ltac:(lia) HL HU HF) as (X1 & _).
    apply (corner_extreme 2 hidden_square [2; 0]%Q [2; 0] 1); auto; [lia|repeat constructor|]. apply (X1 [2; 0; 1]). cbn; tauto.
  - intros threads Hth.
    destruct (x_start sorted_order 2 hidden_square [] 4 sorted_order_ok HD HU HL HM Hfuel _ HK) as (start & Es).
    assert (Ead : m_vad_added EXACT 4 [] [] []) by (exists 0%nat; split; auto).
    destruct (x_finishes sorted_order 2 hidden_square [] 4 sorted_order_ok HD HU HL HM ltac:(lia) _ start [] threads [] _ HK Hth Es Ead (run_nil _ _)) as (ls & s & Hrun & Hend).
    destruct (v_run EXACT sorted_order 2 hidden_square [] 4 ltac:(discriminate) sorted_order_ok (representable_exact _) HD HU HL HM ltac:(lia) _ start [] threads ls s HK Hth Es Ead Hrun) as (R1 & R2 & _).
    destruct (p_dims EXACT sorted_order 2 hidden_square _ [] (printed (sh s)) sorted_order_ok HD ltac:(lia) HL HU HF HB R2) as (D1 & D2 & D3). destruct (raw_lines EXACT 2 (printed (sh s)) D1 D3) as (lines & El & _).
    exists s, (m_vad_title [] ++ lines), start, [], ls, lines. split; auto. split; auto. split; auto. split; auto. split; auto.
    apply (x_handed sorted_order 2 hidden_square [] 4 sorted_order_ok HD HU HL HM Hfuel ltac:(lia) _ start [] threads ls s HK Es Ead Hrun).
  - intros threads s out (start & added & ls & lines & Es & (k & Ek & _) & Hrun & _) (q & Hq & Hs).
    assert (added = []) as -> by (destruct k; vm_compute in Ek; injection Ek as <-; reflexivity). assert (start = [[1; 0; 1]; [1; 1; 1]] \/ start = [[1; 1; 1]; [1; 0; 1]]) as Est by (vm_compute in Es; injection Es as <-; auto).
    assert (Hcl : forall r, ListModel.closure (m_vad_neighbours EXACT sorted_order 4 hidden_square []) (start ++ []) r -> r = [1; 0; 1] \/ r = [1; 1; 1]).
    { intros r. induction 1 as [r Hr|r x _ IH Hx]; [destruct Est as [-> | ->]; cbn in Hr; intuition congruence|]. destruct IH as [-> | ->]; vm_compute in Hx; intuition congruence. }
    assert (Hne : forall r, ListModel.closure (m_vad_neighbours EXACT sorted_order 4 hidden_square []) (start ++ []) r -> r <> []) by (intros r Hr; destruct (Hcl r Hr) as [-> | ->]; discriminate).
    assert (C := ListTheorems.r_contents _ start [] threads 0 Hne ls s Hrun). unfold points_of in Hq. apply in_map_iff in Hq as (r & <- & Hr). apply filter_In in Hr as (Hr & _).
    destruct (Hcl r (ListProofs.c_held _ _ _ _ C r (or_intror (or_intror (or_intror (or_intror Hr)))))) as [-> | ->]; assert (E0 := same_nth _ _ 0%nat Hs); vm_compute in E0; discriminate E0.
Qed.
Print Assumptions C43_program_refuted.
