(** * HullSame: the hull depends only on the points and on the directions of the rays, not on their order, repetition or length; the rows of a file and its fractions. *)
From Coq Require Import List ZArith QArith Arith Bool Lia Lqa Permutation.
From Verif Require Import Base Spec LinAlg ListUtil RowLcm IntLcm VertexInput PropertiesVertices Hull PropertiesProgram SortModel SortProofs PropertiesSort.
Import ListNotations.
Open Scope Q_scope.
Open Scope list_scope.

Lemma add_at ws : forall w s, In w ws -> 0 <= s -> forall ds, length ds = length ws -> Forall (Qle 0) ds ->
  exists es, length es = length ws /\ Forall (Qle 0) es /\ sumQ es == s + sumQ ds /\ forall j, comb es ws j == s * nth j w 0 + comb ds ws j.
Proof.
  induction ws as [|v ws IH]; intros w s Hw Hs ds Hl Hd; [destruct Hw|]. destruct ds as [|d ds]; [discriminate|]. apply Forall_cons_iff in Hd as [Hd0 Hd]. cbn [length] in Hl.
  destruct Hw as [->|Hw].
  - exists ((s + d) :: ds). split; [cbn; lia|]. split; [constructor; auto; lra|]. split; [cbn; ring|]. intros j. cbn [comb]. ring.
  - destruct (IH w s Hw Hs ds ltac:(lia) Hd) as (es & E1 & E2 & E3 & E4). exists (d :: es). split; [cbn; lia|]. split; [constructor; auto|]. split; [cbn [sumQ fold_right]; fold (sumQ es) (sumQ ds); rewrite E3; ring|].
    intros j. cbn [comb]. rewrite E4. ring.
Qed.
Lemma comb_zero ws j : comb (repeat 0 (length ws)) ws j == 0.
Proof. induction ws as [|w ws IH]; cbn [length repeat comb]; [reflexivity|]. rewrite IH. ring. Qed.
Lemma sum_zero n : sumQ (repeat 0 n) == 0.
Proof. induction n as [|n IH]; cbn [repeat sumQ fold_right]; [reflexivity|]. fold (sumQ (repeat 0 n)). rewrite IH. ring. Qed.
Lemma spread (whole : bool) n vs ws : Forall (fun v => exists w s, In w ws /\ 0 <= s /\ (whole = true -> s == 1) /\ forall j, (j < n)%nat -> nth j v 0 == s * nth j w 0) vs ->
  forall cs, length cs = length vs -> Forall (Qle 0) cs ->
  exists ds, length ds = length ws /\ Forall (Qle 0) ds /\ (whole = true -> sumQ ds == sumQ cs) /\ forall j, (j < n)%nat -> comb cs vs j == comb ds ws j.
Proof.
  induction 1 as [|v vs (w & s & Hw & Hs & H1 & Hv) _ IH]; intros [|c cs] Hl Hc; try discriminate.
  - exists (repeat 0 (length ws)). split; [apply repeat_length|]. split; [apply Forall_forall; intros x Hx; apply repeat_spec in Hx; subst; lra|]. split; [intros _; apply sum_zero|]. intros j Hj. rewrite comb_zero. reflexivity.
  - apply Forall_cons_iff in Hc as [Hc0 Hc]. destruct (IH cs ltac:(cbn in Hl; lia) Hc) as (ds & D1 & D2 & D3 & D4).
    destruct (add_at ws w (c * s) Hw ltac:(apply Qmult_le_0_compat; auto) ds D1 D2) as (es & E1 & E2 & E3 & E4). exists es. split; auto. split; auto. split.
    + intros K. rewrite E3, (D3 K), (H1 K). change (sumQ (c :: cs)) with (c + sumQ cs). ring.
    + intros j Hj. rewrite E4. cbn [comb]. rewrite (D4 j Hj), (Hv j Hj). ring.
Qed.
(** Every point is one of the other points, every ray a non-negative multiple of one of the other rays. *)
Lemma hull_mono n points rays points' rays' p :
  Forall (fun v => exists w, In w points' /\ forall j, (j < n)%nat -> nth j v 0 == nth j w 0) points ->
  Forall (fun v => exists w s, In w rays' /\ 0 <= s /\ forall j, (j < n)%nat -> nth j v 0 == s * nth j w 0) rays ->
  hull n points rays p -> hull n points' rays' p.
Proof.
  intros HP HR (mus & nus & H1 & H2 & H3 & H4 & H5 & H6).
  destruct (spread true n points points') with (cs := mus) as (ds & D1 & D2 & D3 & D4); auto.
  { eapply Forall_impl; [|exact HP]. intros v (w & Hw & E). exists w, 1. split; auto. split; [discriminate|]. split; [reflexivity|]. intros j Hj. rewrite (E j Hj). ring. }
  destruct (spread false n rays rays') with (cs := nus) as (es & E1 & E2 & _ & E4); auto.
  { eapply Forall_impl; [|exact HR]. intros v (w & s & Hw & Hs & E). exists w, s. split; auto. split; auto. split; [discriminate|]. auto. }
  exists ds, es. split; auto. split; auto. split; auto. split; auto. split; [rewrite D3; auto|]. intros j Hj. rewrite <- D4, <- E4 by auto. auto.
Qed.

(** ** The rows of points and rays given as fractions *)
Lemma represents_point_any pts row : Forall (fun p => snd p <> 0%Z) pts -> represents pts row -> same_point (coordinates_of pts) (point_of_row row).
Proof.
  intros Hpos (xs & l & -> & Hl & HF & _). unfold point_of_row, coordinates_of, same_point. rewrite last_last, removelast_last. revert Hpos. induction HF as [|x p xs pts E _ IH]; intros Hpos; cbn [map]; constructor.
  - apply Forall_inv in Hpos. assert (E' : (inject_Z x * inject_Z (snd p) == inject_Z (fst p) * inject_Z l)%Q) by (rewrite <- !inject_Z_mult, E; reflexivity).
    assert (N1 : ~ (inject_Z (snd p) == 0)%Q) by (change 0 with (inject_Z 0); intros K; apply inject_eq in K; auto).
    assert (N2 : ~ (inject_Z l == 0)%Q) by (change 0 with (inject_Z 0); intros K; apply inject_eq in K; lia).
    apply (Qmult_inj_r _ _ (inject_Z (snd p) * inject_Z l)); [intros K; apply Qmult_integral in K; tauto|].
    transitivity (inject_Z (fst p) * inject_Z l)%Q; [field; auto|]. transitivity (inject_Z x * inject_Z (snd p))%Q; [rewrite E'; reflexivity|field; auto].
  - apply IH. apply Forall_inv_tail in Hpos. auto.
Qed.
Lemma proper_nonzero pts : proper pts -> Forall (fun p => snd p <> 0%Z) pts.
Proof. apply Forall_impl. intros p. tauto. Qed.
Lemma point_row_same pts : proper pts -> same_point (coordinates_of pts) (point_of_row (point_row pts)).
Proof. intros H. apply represents_point_any; [apply proper_nonzero; auto|]. apply represents_iff; auto. Qed.
Lemma point_row_is_point pts : proper pts -> is_point (point_row pts) = true.
Proof. intros H. unfold is_point, point_row. rewrite last_last. assert (K := common_pos pts H). apply negb_true_iff, Z.eqb_neq. lia. Qed.
Lemma ray_row_is_ray pts : is_point (ray_row pts) = false.
Proof. unfold is_point, ray_row. rewrite last_last. reflexivity. Qed.
Lemma ray_row_same pts : proper pts -> forall j, nth j (ray_of_row (ray_row pts)) 0 == inject_Z (common pts) * nth j (coordinates_of pts) 0.
Proof.
  intros H j. assert (HF := entries_spec (common pts) pts (common_pos pts H) (proper_common pts H)). unfold ray_of_row, ray_row. rewrite removelast_last. unfold coordinates_of.
  assert (N := proper_nonzero pts H). set (l := common pts) in *. clearbody l. clear H. revert j N. induction HF as [|x p xs pts' E _ IH]; intros j N; [destruct j; cbn; ring|].
  apply Forall_cons_iff in N as [N0 N]. destruct j as [|j]; [|exact (IH j N)]. cbn [map nth].
  assert (N1 : ~ (inject_Z (snd p) == 0)%Q) by (change 0 with (inject_Z 0); intros K; apply inject_eq in K; auto).
  apply (Qmult_inj_r _ _ (inject_Z (snd p))); auto. rewrite <- inject_Z_mult, E, inject_Z_mult. field; auto.
Qed.
Lemma row_lengths pts : length (point_row pts) = S (length pts) /\ length (ray_row pts) = S (length pts).
Proof. unfold point_row, ray_row, entries. rewrite !app_length, !map_length. cbn. lia. Qed.
(** The rows that are computed from points [P] and rays [R], in any order, have their hull. *)
Lemma rows_hull n (P R : list (list (Z * Z))) (V : list vec) p : Forall proper P -> Forall proper R ->
  Permutation (map ray_row R ++ map point_row P) V ->
  (hull n (points_of V) (rays_of V) p <-> hull n (map coordinates_of P) (map coordinates_of R) p).
Proof.
  intros HP HR HV. rewrite Forall_forall in HP, HR.
  assert (IV : forall v, In v V <-> (exists q, In q R /\ v = ray_row q) \/ exists q, In q P /\ v = point_row q).
  { intros v. split.
    - intros Hv. apply (Permutation_in _ (Permutation_sym HV)), in_app_iff in Hv as [Hv|Hv]; apply in_map_iff in Hv as (q & <- & Hq); [left|right]; exists q; auto.
    - intros [(q & Hq & ->)|(q & Hq & ->)]; apply (Permutation_in _ HV), in_app_iff; [left|right]; apply in_map; auto. }
  assert (same : forall u v, same_point u v -> forall j, (j < n)%nat -> nth j u 0 == nth j v 0) by (intros u v H j _; apply same_nth; auto).
  split; apply hull_mono; apply Forall_forall; intros v Hv.
  - apply in_map_iff in Hv as (row & <- & Hrow). apply filter_In in Hrow as [Hrow Hp]. apply IV in Hrow as [(q & Hq & ->)|(q & Hq & ->)]; [rewrite ray_row_is_ray in Hp; discriminate|].
    exists (coordinates_of q). split; [apply in_map; auto|]. apply same. apply same_sym. apply point_row_same; auto.
  - apply in_map_iff in Hv as (row & <- & Hrow). apply filter_In in Hrow as [Hrow Hp]. apply IV in Hrow as [(q & Hq & ->)|(q & Hq & ->)]; [|rewrite point_row_is_point in Hp by auto; discriminate].
    exists (coordinates_of q), (inject_Z (common q)). split; [apply in_map; auto|]. assert (K := common_pos q (HR q Hq)). split; [change 0 with (inject_Z 0); rewrite <- Zle_Qle; lia|]. intros j _. apply ray_row_same; auto.
  - apply in_map_iff in Hv as (q & <- & Hq). exists (point_of_row (point_row q)). split; [|apply same; apply point_row_same; auto]. apply in_map. apply filter_In. split; [apply IV; right; exists q; auto|]. apply point_row_is_point; auto.
  - apply in_map_iff in Hv as (q & <- & Hq). assert (K := common_pos q (HR q Hq)). assert (KQ := inject_pos _ K). exists (ray_of_row (ray_row q)), (/ inject_Z (common q)).
    split; [apply in_map; apply filter_In; split; [apply IV; left; exists q; auto|rewrite ray_row_is_ray; reflexivity]|]. split; [apply Qlt_le_weak, Qinv_lt_0_compat; auto|].
    intros j _. rewrite ray_row_same by auto. field. intros E. rewrite E in KQ. discriminate KQ.
Qed.
