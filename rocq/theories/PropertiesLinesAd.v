(** * PropertiesLinesAd: vertex enumeration by adjacency decomposition for systems whose solutions may contain lines (C62). *)
From Coq Require Import List ZArith QArith Arith Bool Ascii String Lia Lqa Permutation.
From Verif Require Import Base Spec LinAlg Cone ListUtil ArithModel MatrixModel FmeModel SafeIntModel IntTypes StreamModel StreamProofs ClassesModel ClassesProofs MapModel ValidityModel SortModel SortProofs PropertiesSort CliModel PropertiesCli
  IntLcm Refine MatrixRefine FmeCore FmePure FmePrepare FmeCorrect FmeRefine InputModel InputProofs VertexInput ConstraintModel ConstraintInput ConstraintSection PropertiesVertices PropertiesConstraints MapInput OutputModel OutputProofs PropertiesOutput FileModel FileProofs Hull Corners
  FmeTheorems DimTheorems NormTheorems HeuristicTheorems PropertiesFme PropertiesMaps PropertiesProgram FileInput HullSame SystemFile PropertiesFile Samples PropertiesSystem RotationModel Adjacency RotatePure RotateRefine Climb NormalForm RotationTheorems VertexImages
  ListModel AdModel VertexAdModel VertexEdge PropertiesVertexAd SafeClasses MainModel PropertiesMain Lines PropertiesLines LineEdge LineGraph LineAd.
Import ListNotations.
Open Scope Z_scope.
Open Scope list_scope.

(** ** Specification *)
(** [flat_corner], [flat_direction], [alike], [alike_multiple] (Lines): vertices, extreme directions, the same point, a positive multiple, up to lines in the set of solutions.
    [no_hidden_flat_edge] (LineEdge): up to lines, no edge leaves a vertex straight away from the origin, and none leaves the origin against the last axis that the inequalities mention. *)
Definition only_flat_rows (n : nat) (A : list vec) (rows : list vec) : Prop :=
  homogeneous n rows /\
  (forall q, In q (points_of rows) -> flat_corner n A q) /\ listed_once (alike A) (points_of rows) /\
  (forall d, In d (rays_of rows) -> flat_direction n A d) /\ listed_once (alike_multiple A) (rays_of rows).
Definition all_flat_rows (n : nat) (A : list vec) (rows : list vec) : Prop :=
  (forall p, flat_corner n A p -> exists q, In q (points_of rows) /\ alike A p q) /\
  (forall d, flat_direction n A d -> exists u, In u (rays_of rows) /\ alike_multiple A d u) /\
  (forall p : list Q, length p = n -> (solves A p <-> exists q, length q = n /\ hull n (points_of rows) (rays_of rows) q /\ alike A p q)).
(** Some inequality mentions some coordinate. *)
Definition mentions (n : nat) (A : list vec) : Prop := exists j a, (j < n)%nat /\ In a A /\ nth j a 0 <> 0.

(** ** Rows *)
Section Printed.
  Variables (t : int_type) (order : list nat -> list nat) (n : nat) (A F : list vec) (rows : list vec).
  Hypothesis Ho : sort_order order.
  Hypothesis HA : dims (S n) A.
  Hypothesis Hn : (0 < n)%nat.
  Hypothesis HU : In (unit_vec (S n) n (-1)) A.
  Hypothesis HF : m_fme (arith EXACT) order A = Ok F.
  Hypothesis BF : Forall negatable_row F.
  Hypothesis Hrows : forall r, In r rows -> l_good t order n A r.
  Hypothesis Hnd : NoDup rows.
  Let Hx : EXACT <> INT16 := ltac:(discriminate).
  Let HRx := representable_exact A.
  Let NZ := unit_nonzero n A HU.

  Lemma q_fme r : In r F <-> In r (all_rows order (S n) A).
  Proof. rewrite (result_fme EXACT order (S n) A Hx Ho HRx HA F NZ HF). apply l_all_fme; auto. Qed.
  Lemma q_in : incl rows F.
  Proof. intros r Hr. apply q_fme. apply Hrows. auto. Qed.
  Lemma q_dims : dims (S n) rows /\ homogeneous n rows /\ Forall int_row rows.
  Proof.
    destruct (line_generator_rows EXACT order n A F) as (DF & HomF & _); auto. split; [|split]; apply Forall_forall; intros r Hr; assert (Hf := q_in r Hr).
    - apply (dims_in (S n) F); auto.
    - unfold homogeneous in HomF. rewrite Forall_forall in HomF. auto.
    - apply negatable_int. rewrite Forall_forall in BF. auto.
  Qed.
  Lemma q_facet r : In r rows -> facet (S n) A r.
  Proof. intros Hr. apply (rows_facets EXACT order (S n) A Hx Ho HRx HA F r NZ HF (q_in r Hr)). Qed.
  Lemma q_apart r x : In r rows -> In x rows -> equivalent_ineq A r x -> r = x.
  Proof. intros Hr Hx'. apply (proj2 (rows_distinct EXACT order (S n) A Hx Ho HRx HA F NZ HF)); apply q_in; auto. Qed.
  Lemma q_points : Forall2 (point_stands n) (points_of rows) (filter is_vertex rows).
  Proof. apply rows_points. apply q_dims. Qed.
  Lemma q_directions : Forall2 (direction_stands n) (rays_of rows) (filter (fun r => negb (is_vertex r)) rows).
  Proof. apply rows_directions. apply q_dims. Qed.
  Lemma q_sound : only_flat_rows n A rows.
  Proof.
    destruct q_dims as (D1 & D2 & _). assert (CP := q_points). assert (CD := q_directions). split; auto. split; [|split; [|split]].
    - intros q Hq. destruct (forall2_in_l _ _ _ q CP Hq) as (r & Hr & xs & l & -> & Hxs & Hl & HX). apply filter_In in Hr as [Hr _]. apply (facet_corner n A HA HU q xs l); auto. apply q_facet; auto.
    - intros i j Hi Hj HS. assert (Li := forall2_length _ _ _ CP). destruct (forall2_nth _ _ _ i [] [] CP Hi) as (xs & l & Ei & Hxs & Hl & HX). destruct (forall2_nth _ _ _ j [] [] CP Hj) as (ys & m & Ej & Hys & Hm & HY).
      assert (Ii : In (nth i (filter is_vertex rows) []) rows) by (apply (filter_In is_vertex); apply nth_In; exact (eq_ind _ (fun k => (i < k)%nat) Hi _ Li)).
      assert (Ij : In (nth j (filter is_vertex rows) []) rows) by (apply (filter_In is_vertex); apply nth_In; exact (eq_ind _ (fun k => (j < k)%nat) Hj _ Li)).
      apply (proj1 (NoDup_nth (filter is_vertex rows) []) (NoDup_filter _ Hnd) i j); [exact (eq_ind _ (fun k => (i < k)%nat) Hi _ Li)|exact (eq_ind _ (fun k => (j < k)%nat) Hj _ Li)|]. apply q_apart; auto.
      exists m, l. split; auto. split; auto. apply (alike_rows n A HA _ _ xs ys l m) in HS; auto. rewrite <- Ei, <- Ej in HS. exact HS.
    - intros q Hq. destruct (forall2_in_l _ _ _ q CD Hq) as (r & Hr & xs & l & -> & Hxs & Hl & HX). apply filter_In in Hr as [Hr _]. apply (facet_direction n A HA HU q xs l); auto. apply q_facet; auto.
    - intros i j Hi Hj ([a b] & Hs & HS). assert (Li := forall2_length _ _ _ CD). destruct (forall2_nth _ _ _ i [] [] CD Hi) as (xs & l & Ei & Hxs & Hl & HX). destruct (forall2_nth _ _ _ j [] [] CD Hj) as (ys & m & Ej & Hys & Hm & HY).
      set (cone := filter (fun r => negb (is_vertex r)) rows) in *.
      assert (Ii : In (nth i cone []) rows) by (apply (filter_In (fun r => negb (is_vertex r))); apply nth_In; exact (eq_ind _ (fun k => (i < k)%nat) Hi _ Li)).
      assert (Ij : In (nth j cone []) rows) by (apply (filter_In (fun r => negb (is_vertex r))); apply nth_In; exact (eq_ind _ (fun k => (j < k)%nat) Hj _ Li)).
      assert (Ha : 0 < a) by (unfold Qlt in Hs; cbn in Hs; lia).
      apply (proj1 (NoDup_nth cone []) (NoDup_filter _ Hnd) i j); [exact (eq_ind _ (fun k => (i < k)%nat) Hi _ Li)|exact (eq_ind _ (fun k => (j < k)%nat) Hj _ Li)|]. apply q_apart; auto.
      exists (Z.pos b * m), (a * l). split; [lia|]. split; [nia|].
      assert (HS2 : forall w, In w A -> (linear w (nth i (rays_of rows) []) == (inject_Z a / inject_Z (Z.pos b)) * linear w (nth j (rays_of rows) []))%Q) by (intros w Hw; rewrite <- Qmake_Qdiv; exact (HS w Hw)).
      apply (alike_direction_rows n A HA _ _ xs ys l m (Z.pos b) a) in HS2; auto; try lia. rewrite <- Ei, <- Ej in HS2. exact HS2.
  Qed.
  Hypothesis Hall : forall g, In g (all_rows order (S n) A) -> In g rows.
  Lemma q_same r : In r rows <-> In r F.
  Proof. split; [apply q_in|]. intros H. apply Hall, q_fme. auto. Qed.
  Lemma q_complete : all_flat_rows n A rows.
  Proof.
    destruct q_dims as (D1 & D2 & _). assert (CP := q_points). assert (CD := q_directions). split; [|split].
    - intros p Hc. destruct (clear_point p) as (l & xs & Hl & HX). assert (Hp := proj1 Hc). assert (Hxs : length xs = n) by (rewrite <- (forall2_length _ _ _ HX); auto).
      apply (facet_corner n A HA HU p xs l) in Hc; auto. destruct (facet_listed EXACT order n A Hx Ho HRx HA HU F _ HF Hc) as (f & Hf & k & s & Hk & Hs & E).
      apply q_same in Hf. assert (Lf := dims_in (S n) rows f D1 Hf). destruct (row_split n f Lf) as (ys & b & -> & Hys & _ & Hb & _).
      assert (Lx : length (xs ++ [l]) = S n) by (rewrite app_length; cbn; lia).
      assert (LL : length (vadd (vscale k (ys ++ [b])) (vscale (- s) (xs ++ [l]))) = S n) by (apply vadd_length_eq; rewrite vscale_length; auto).
      assert (En := vanishes_last n A HU _ LL E). rewrite nth_vadd, !nth_vscale, !(nth_snoc n), Nat.eqb_refl in En by (auto; rewrite !vscale_length; congruence). assert (Hb0 : 0 < b) by nia.
      destruct (forall2_in_r _ _ _ (ys ++ [b]) CP) as (q & Hq & zs & b' & EZ & Hzs & Hb' & HZ); [apply filter_In; split; auto; unfold is_vertex; rewrite last_last; apply negb_true_iff, Z.eqb_neq; lia|]. apply app_inj_tail in EZ as [<- <-].
      exists q. split; auto. apply (alike_rows n A HA p q xs ys l b); auto. intros w Hw. specialize (E w Hw). rewrite dot_vadd_l, !dot_vscale_l in * by (rewrite !vscale_length; congruence).
      set (Y := dot (ys ++ [b]) w) in *. set (X := dot (xs ++ [l]) w) in *. assert (Z0 : k * (b * X + - l * Y) = 0) by (transitivity (X * (k * b + - s * l) - l * (k * Y + - s * X)); [ring|rewrite En, E; ring]). nia.
    - intros d Hc. assert (Hp := proj1 Hc). destruct (clear_point d) as (l & xs & Hl & HX). assert (Hxs : length xs = n) by (rewrite <- (forall2_length _ _ _ HX); auto).
      apply (facet_direction n A HA HU d xs l) in Hc; auto. destruct (facet_listed EXACT order n A Hx Ho HRx HA HU F _ HF Hc) as (f & Hf & k & s & Hk & Hs & E).
      apply q_same in Hf. assert (Lf := dims_in (S n) rows f D1 Hf). destruct (row_split n f Lf) as (ys & b & -> & Hys & _ & Hb & _).
      assert (Lx : length (xs ++ [0]) = S n) by (rewrite app_length; cbn; lia).
      assert (LL : length (vadd (vscale k (ys ++ [b])) (vscale (- s) (xs ++ [0]))) = S n) by (apply vadd_length_eq; rewrite vscale_length; auto).
      assert (En := vanishes_last n A HU _ LL E). rewrite nth_vadd, !nth_vscale, !(nth_snoc n), Nat.eqb_refl in En by (auto; rewrite !vscale_length; congruence). assert (Hb0 : b = 0) by nia. subst b.
      destruct (forall2_in_r _ _ _ (ys ++ [0]) CD) as (q & Hq & zs & m & EZ & Hzs & Hm & HZ); [apply filter_In; split; auto; unfold is_vertex; rewrite last_last; reflexivity|]. apply app_inj_tail in EZ as [<- _].
      exists q. split; auto. exists (inject_Z (k * m) / inject_Z (s * l))%Q. split.
      + assert (P1 := inject_pos (k * m) ltac:(nia)). assert (P2 := inject_pos (s * l) ltac:(nia)). apply Qlt_shift_div_l; auto.
      + apply (alike_direction_rows n A HA d q xs ys l m (s * l) (k * m)); auto; try nia. intros w Hw. specialize (E w Hw). rewrite dot_vadd_l, !dot_vscale_l in * by (rewrite !vscale_length; congruence).
        transitivity (- (l * m) * (k * dot (ys ++ [0]) w + - s * dot (xs ++ [0]) w)); [ring|rewrite E; ring].
    - intros p Hp. destruct (clear_point p) as (l & xs & Hl & HX). assert (Hxs : length xs = n) by (rewrite <- (forall2_length _ _ _ HX); auto). assert (Lx : length (xs ++ [l]) = S n) by (rewrite app_length; cbn; lia).
      assert (DF : dims (S n) F) by (apply (line_generator_rows EXACT order n A F); auto). split.
      + intros K. apply (proj1 (solution_rows n A p xs l HA Hxs Hl HX)) in K. destruct (line_generators EXACT order n A Hx Ho HRx HA HU F _ HF K) as (k & v & Hk & Lv & Hv & Hc).
        assert (V0 := vanishes_last n A HU v Lv Hv). assert (Lz : length (vadd (vscale k (xs ++ [l])) (vscale (-1) v)) = S n) by (apply vadd_length_eq; rewrite vscale_length; auto).
        assert (Ej : forall j, nth j (vadd (vscale k (xs ++ [l])) (vscale (-1) v)) 0 = k * nth j (xs ++ [l]) 0 - nth j v 0) by (intros j; rewrite nth_vadd, !nth_vscale by (rewrite !vscale_length; congruence); ring).
        destruct (row_split n _ Lz) as (zs & b & EZ & Hzs & Eb & _). rewrite Ej, (nth_snoc n), Nat.eqb_refl, V0 in Eb by auto. assert (Hb : 0 < b) by nia. rewrite EZ in Hc, Ej.
        set (q := map (fun x => inject_Z x / inject_Z b)%Q zs). assert (HZ : Forall2 (fun q x => q * inject_Z b == inject_Z x)%Q q zs) by (apply over; lia). assert (Hq : length q = n) by (unfold q; rewrite map_length; auto).
        exists q. split; auto. split.
        * apply (hull_in_cone n rows zs b q D2 Hzs Hb HZ). apply (in_cone_same (S n) F rows); auto; [rewrite app_length; cbn; lia|]. intros f Hf. apply q_same; auto.
        * apply (alike_rows n A HA p q xs zs l b); auto. intros w Hw. transitivity (l * dot v w); [|rewrite (Hv w Hw); ring]. rewrite <- dot_vscale_l. f_equal.
          apply (vec_ext_nth (S n)); [apply vadd_length_eq; rewrite vscale_length; auto; rewrite app_length; cbn; lia|rewrite vscale_length; auto|]. intros j _. rewrite nth_vadd, !nth_vscale by (rewrite !vscale_length, !app_length; cbn; lia). rewrite (Ej j), <- Eb. ring.
      + intros (q & Hq & Hh & Ha). destruct (clear_point q) as (m & ys & Hm & HY). assert (Hys : length ys = n) by (rewrite <- (forall2_length _ _ _ HY); auto). assert (Ly : length (ys ++ [m]) = S n) by (rewrite app_length; cbn; lia).
        assert (Sq : solution (S n) A (ys ++ [m])).
        { apply (cone_solution EXACT order n A Hx Ho HRx HA HU F); auto. apply (in_cone_same (S n) rows F); auto; [intros f Hf; apply q_same; auto|]. apply (hull_in_cone n rows ys m q D2 Hys Hm HY). auto. }
        refine (proj2 (solution_rows n A p xs l HA Hxs Hl HX) _). split; auto. intros a Hin. destruct Sq as [_ Sq]. specialize (Sq a Hin). apply (alike_rows n A HA p q xs ys l m) in Ha; auto. specialize (Ha a Hin).
        rewrite dot_vadd_l, !dot_vscale_l in Ha by (rewrite !vscale_length; congruence). rewrite (dot_comm a) in Sq |- *. nia.
  Qed.
End Printed.

(** ** C62 *)
(** In every state that any number of threads can reach in any order of their steps, only vertices and extreme directions have been printed, up to lines none of them twice. *)
Theorem C62_any_time : forall t order n (A F : list vec) fuel threads start added ls s,
  t <> INT16 -> sort_order order -> rows_representable t A -> dims (S n) A -> (0 < n)%nat -> In (unit_vec (S n) n (-1)) A -> mentions n A ->
  (0 < threads)%nat -> m_fme (arith EXACT) order A = Ok F -> Forall negatable_row F ->
  m_vad_start t order fuel A [] [] = Ok (Some start) -> m_vad_added t fuel [] [] added ->
  ListModel.run (m_vad_neighbours t order fuel A []) (initial start added threads 0) ls s ->
  NoDup (printed (sh s)) /\ only_flat_rows n A (printed (sh s)).
Proof.
  intros t order n A F fuel threads start added ls s Ht Ho HR HA Hn HU HX Hth HF BF Es Ea Hrun.
  destruct (l_run t order n A fuel Ht Ho HR HA HU HX start added threads ls s Hth Es Ea Hrun) as (R1 & R2 & _). split; auto. apply (q_sound t order n A F); auto.
Qed.
Print Assumptions C62_any_time.
(** The printed text at the end. *)
Theorem C62_text : forall t order n (A F : list vec) fuel threads s out,
  t <> INT16 -> sort_order order -> rows_representable t A -> dims (S n) A -> (0 < n)%nat -> In (unit_vec (S n) n (-1)) A -> mentions n A ->
  (0 < threads)%nat -> m_fme (arith EXACT) order A = Ok F -> Forall negatable_row F ->
  m_vad_run t order fuel threads A [] [] s out ->
  exists lines (rows : list vec),
    out = lit "Vertices / Rays:" ++ newline :: lines /\ section_lines lines (map whole rows) /\ NoDup rows /\
    only_flat_rows n A rows /\ (no_hidden_flat_edge n A -> all_flat_rows n A rows).
Proof.
  intros t order n A F fuel threads s out Ht Ho HR HA Hn HU HX Hth HF BF (start & added & ls & lines & Es & Ea & Hrun & Hend & Hp & El & ->).
  destruct (l_run t order n A fuel Ht Ho HR HA HU HX start added threads ls s Hth Es Ea Hrun) as (R1 & R2 & R3). destruct (q_dims t order n A F (printed (sh s))) as (D1 & D2 & D3); auto.
  destruct (raw_lines t n (printed (sh s)) D1 D3) as (lines' & E' & HS). rewrite El in E'. injection E' as <-. exists lines, (printed (sh s)). split; [reflexivity|]. split; auto. split; auto.
  split; [apply (q_sound t order n A F); auto|]. intros HE. apply (q_complete t order n A F); auto.
Qed.
Print Assumptions C62_text.
(** With unbounded integers nothing fails: from every reachable state any number of threads can be run to the end, and the text is printed. *)
Theorem C62_ends : forall order n (A F : list vec),
  sort_order order -> dims (S n) A -> (0 < n)%nat -> In (unit_vec (S n) n (-1)) A -> mentions n A -> m_fme (arith EXACT) order A = Ok F -> Forall negatable_row F ->
  forall fuel threads, (0 < fuel)%nat -> (0 < threads)%nat -> exists start,
    m_vad_start EXACT order fuel A [] [] = Ok (Some start) /\
    forall ls s, ListModel.run (m_vad_neighbours EXACT order fuel A []) (initial start [] threads 0) ls s ->
      (forall r, In r (handed (sh s)) -> m_vad_processed EXACT order fuel A [] r) /\
      exists ls' s' out, ListModel.run (m_vad_neighbours EXACT order fuel A []) s ls' s' /\ m_vad_run EXACT order fuel threads A [] [] s' out.
Proof.
  intros order n A F Ho HA Hn HU HX HF BF fuel threads Hfuel Hth. assert (Hx : EXACT <> INT16) by discriminate. assert (HRx := representable_exact A).
  destruct (lx_start order n A fuel Ho HA HU Hfuel) as (start & Es). exists start. split; auto. intros ls s Hrun.
  assert (LH := fun ls s => lx_handed order n A fuel Ho HA HU Hfuel HX start threads ls s Es). split; [apply (LH ls s Hrun)|].
  destruct (lx_finishes order n A fuel Ho HA HU HX start threads ls s Hth Es Hrun) as (ls' & s' & R & T).
  assert (R' : ListModel.run (m_vad_neighbours EXACT order fuel A []) (initial start [] threads 0) (ls ++ ls') s') by exact (ListTheorems.run_app _ _ _ _ _ _ Hrun R).
  assert (Ea : m_vad_added EXACT fuel [] [] []) by (exists 0%nat; split; [reflexivity|left; auto]).
  destruct (l_run EXACT order n A fuel Hx Ho HRx HA HU HX start [] threads (ls ++ ls') s' Hth Es Ea R') as (R1 & R2 & _). destruct (q_dims EXACT order n A F (printed (sh s'))) as (D1 & D2 & D3); auto.
  destruct (raw_lines EXACT n (printed (sh s')) D1 D3) as (lines & E & _).
  exists ls', s', (m_vad_title [] ++ lines). split; auto. exists start, [], (ls ++ ls'), lines. split; auto. split; auto. split; auto. split; auto. split; auto. apply (LH (ls ++ ls') s' R').
Qed.
Print Assumptions C62_ends.
