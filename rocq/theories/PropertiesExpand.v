(** * PropertiesExpand: files with reduced sections (C60). *)
From Coq Require Import List ZArith QArith Arith Bool Ascii String Lia Lqa Permutation Sorted.
From Verif Require Import Base Spec LinAlg Cone ListUtil ArithModel MatrixModel FmeModel SafeIntModel IntTypes RowLcm StreamModel StreamProofs SortModel CliModel PropertiesCli InputModel InputProofs VertexInput ClassesModel MapInput
  ConstraintModel ConstraintInput ConstraintSection PropertiesVertices PropertiesConstraints OutputModel OutputProofs PropertiesOutput Hull Corners FmeCore FmePure FmePrepare FmeCorrect Refine MatrixRefine FmeRefine FmeTheorems DimTheorems NormTheorems
  Samples ClassesProofs ApplyTheorems OrbitTheorems OrbitExact PropertiesMaps PropertiesFme MapModel PropertiesProgram RotationModel RotationTheorems PropertiesRotation HeuristicTheorems
  NormalForm Symmetry Adjacency PropertiesAd HullSame VertexSymmetry VertexImages PropertiesReduced FileModel Expand FileProofs FileInput SystemFile PropertiesFile PropertiesSystem PropertiesMapFile
  ListModel AdModel VertexAdModel MainModel ModeDetection ListExec PropertiesMain PropertiesMainAd.
Import ListNotations.
Open Scope Z_scope.
Open Scope list_scope.

(** ** Specification *)
(** The maps have an image for each of the [n] coordinates and leave the constant 1 as it is. *)
Definition maps_of_dimension (n : nat) (maps : list lmap) : Prop := forall m, In m maps -> map_in (S n) m /\ nth n m [] = [(n, 1)].
(** No two points have the same image. *)
Definition one_to_one (n : nat) (m : lmap) : Prop := forall p q : list Q, length p = n -> length q = n -> same_point (moved_by m p) (moved_by m q) -> same_point p q.
(** The hull of all the points [P] and all the rays [D], of which there may be infinitely many. *)
Definition hull_of_all (n : nat) (P D : list Q -> Prop) (x : list Q) : Prop := exists points rays, Forall P points /\ Forall D rays /\ hull n points rays x.
(** The images of the listed points, and of the listed rays. *)
Definition image_points (maps : list lmap) (P : list (list (Z * Z))) (q : list Q) : Prop := exists p, In p P /\ moved maps (coordinates_of p) q.
Definition image_rays (maps : list lmap) (R : list (list (Z * Z))) (d : list Q) : Prop := exists r, In r R /\ turned maps (coordinates_of r) d.
(** The points of the file are those of the classes of [P], its rays those of the classes of [R] (see [file_reduced_points], [file_reduced_rays]). *)
Definition expanded (c : contents) (P R : list (list (Z * Z))) : Prop := exists classes classes',
  Forall2 (class_of image_step image_load (c_maps c)) (map point_row P) classes /\ c_points c = map row_point (concat classes) /\
  Forall2 (class_of image_step image_load (c_maps c)) (map ray_row R) classes' /\ c_rays c = map row_direction (concat classes').

(** ** What is reached *)
Lemma lex_irrefl x : ~ lex_lt x x.
Proof. intros H. apply (lt_iff INT32) in H. rewrite lt_irrefl in H. discriminate. Qed.
Lemma removelast_length {X} (x : list X) n : length x = S n -> length (removelast x) = n.
Proof. intros H. destruct (exists_last (l := x)) as (y & z & ->); [intros ->; discriminate|]. rewrite removelast_last. rewrite app_length in H. cbn [length] in H. lia. Qed.
Lemma sorted_nodup rows : StronglySorted lex_lt rows -> NoDup rows.
Proof. induction 1 as [|a s _ IH H]; constructor; auto. intros K. rewrite Forall_forall in H. apply (lex_irrefl a). auto. Qed.
Lemma reached_z maps r y : reached image_step maps r y -> exists Y, zmoved maps r Y /\ prop_rows Y y.
Proof.
  induction 1 as [|m x y _ (X & H1 & H2) Hm Hs]; [exists r; split; [constructor|apply prop_refl]|]. apply image_step_iff in Hs. subst y. exists (substitute m X). split; [apply zmoved_snoc; auto|].
  apply (prop_trans _ (substitute m x)); [apply prop_sub; auto|apply prop_rnorm].
Qed.
Lemma z_reached maps r x Y : zmoved maps x Y -> forall x0, reached image_step maps r x0 -> prop_rows x x0 -> exists y, reached image_step maps r y /\ prop_rows Y y.
Proof.
  induction 1 as [x|m x Y Hm _ IH]; intros x0 H0 Hx; [exists x0; auto|]. apply (IH (rnorm (substitute m x0))).
  - apply (reached_step _ _ _ m x0); auto. apply image_step_iff. reflexivity.
  - apply (prop_trans _ (substitute m x0)); [apply prop_sub; auto|apply prop_rnorm].
Qed.
Lemma maps_affine n maps : maps_of_dimension n maps -> Forall affine_map maps.
Proof. intros H. apply Forall_forall. intros m Hm. exists n. apply H; auto. Qed.
Lemma class_row_points n maps p rows : maps_of_dimension n maps -> proper p -> length p = n -> class_of image_step image_load maps (point_row p) rows ->
  forall x, In x rows -> point_stands n (coordinates_of (row_point x)) x /\ proper (row_point x).
Proof.
  intros Hm Hp Hl HC x Hx. destruct (class_points maps [p] [rows] (maps_affine n maps Hm) ltac:(constructor; auto) ltac:(constructor; [exact HC|constructor])) as (E & HP & _). cbn [concat] in *. rewrite app_nil_r in *.
  rewrite Forall_map, Forall_forall in HP. specialize (HP x Hx). split; auto.
  assert (EX : point_row (row_point x) = x). { clear - E Hx. induction rows as [|y rows IH]; [destruct Hx|]. cbn [map] in E. injection E as E1 E2. destruct Hx as [<-|Hx]; auto. }
  rewrite <- EX at 2. apply point_row_stands; auto. unfold row_point. rewrite map_length. apply removelast_length.
  assert (Lx := proj1 (Forall_forall _ _) (class_int Vertex_tag maps (point_row p) rows HC) x Hx). destruct Lx as (Lx & _). rewrite Lx, (proj1 (row_lengths p)). auto.
Qed.
Lemma class_row_rays n maps p rows : maps_of_dimension n maps -> proper p -> length p = n -> class_of image_step image_load maps (ray_row p) rows ->
  forall x, In x rows -> direction_stands n (coordinates_of (row_direction x)) x /\ proper (row_direction x).
Proof.
  intros Hm Hp Hl HC x Hx. destruct (class_rays maps [p] [rows] (maps_affine n maps Hm) ltac:(constructor; auto) ltac:(constructor; [exact HC|constructor])) as (E & HP & _). cbn [concat] in *. rewrite app_nil_r in *.
  rewrite Forall_map, Forall_forall in HP. specialize (HP x Hx). split; auto.
  assert (EX : ray_row (row_direction x) = x). { clear - E Hx. induction rows as [|y rows IH]; [destruct Hx|]. cbn [map] in E. injection E as E1 E2. destruct Hx as [<-|Hx]; auto. }
  rewrite <- EX at 2. apply ray_row_stands; auto. unfold row_direction. rewrite map_length. apply removelast_length.
  assert (Lx := proj1 (Forall_forall _ _) (class_int Vertex_tag maps (ray_row p) rows HC) x Hx). destruct Lx as (Lx & _). rewrite Lx, (proj2 (row_lengths p)). auto.
Qed.

(** ** The classes (C60) *)
(** What a listed point of a reduced section is replaced by: the points that the maps carry it to, and nothing else. *)
Theorem C60_points : forall n maps p rows, maps_of_dimension n maps -> proper p -> length p = n -> class_of image_step image_load maps (point_row p) rows ->
  NoDup (map row_point rows) /\
  (forall q, In q (map row_point rows) -> exists q', moved maps (coordinates_of p) q' /\ same_point q' (coordinates_of q)) /\
  (forall q', moved maps (coordinates_of p) q' -> exists q, In q (map row_point rows) /\ same_point q' (coordinates_of q)).
Proof.
  intros n maps p rows Hm Hp Hl HC. assert (HS := point_row_stands n p Hp Hl). assert (HR := class_row_points n maps p rows Hm Hp Hl HC).
  destruct (class_points maps [p] [rows] (maps_affine n maps Hm) ltac:(constructor; auto) ltac:(constructor; [exact HC|constructor])) as (EM & _). cbn [concat] in EM. rewrite app_nil_r in EM.
  destruct HC as (_ & _ & HSS & HI & _). split; [|split].
  - apply (NoDup_map_inv point_row). rewrite EM. apply sorted_nodup; auto.
  - intros q Hq. apply in_map_iff in Hq as (x & <- & Hx). destruct (HR x Hx) as (SX & _). apply HI in Hx. destruct (reached_z _ _ _ Hx) as (Y & HZ & HY).
    destruct (point_to n maps Hm _ _ _ HS HZ) as (q' & HQ & SQ). exists q'. split; auto. apply (point_same n q' (coordinates_of (row_point x)) Y x); auto.
  - intros q' HQ. destruct (point_from n maps Hm _ _ _ HQ HS) as (Y & HZ & SQ). destruct (z_reached maps (point_row p) _ _ HZ (point_row p) (reached_start _ _ _) (prop_refl _)) as (y & Hy & HY).
    apply HI in Hy. exists (row_point y). split; [apply in_map; auto|]. apply (point_same n q' (coordinates_of (row_point y)) Y y); auto. apply (HR y Hy).
Qed.
Print Assumptions C60_points.
Theorem C60_rays : forall n maps p rows, maps_of_dimension n maps -> proper p -> length p = n -> class_of image_step image_load maps (ray_row p) rows ->
  NoDup (map row_direction rows) /\
  (forall q, In q (map row_direction rows) -> exists q', turned maps (coordinates_of p) q' /\ multiple q' (coordinates_of q)) /\
  (forall q', turned maps (coordinates_of p) q' -> exists q, In q (map row_direction rows) /\ multiple q' (coordinates_of q)).
Proof.
  intros n maps p rows Hm Hp Hl HC. assert (HS := ray_row_stands n p Hp Hl). assert (HR := class_row_rays n maps p rows Hm Hp Hl HC).
  destruct (class_rays maps [p] [rows] (maps_affine n maps Hm) ltac:(constructor; auto) ltac:(constructor; [exact HC|constructor])) as (EM & _). cbn [concat] in EM. rewrite app_nil_r in EM.
  destruct HC as (_ & _ & HSS & HI & _). split; [|split].
  - apply (NoDup_map_inv ray_row). rewrite EM. apply sorted_nodup; auto.
  - intros q Hq. apply in_map_iff in Hq as (x & <- & Hx). destruct (HR x Hx) as (SX & _). apply HI in Hx. destruct (reached_z _ _ _ Hx) as (Y & HZ & HY).
    destruct (direction_to n maps Hm _ _ _ HS HZ) as (q' & HQ & SQ). exists q'. split; auto. apply (direction_same n q' (coordinates_of (row_direction x)) Y x); auto.
  - intros q' HQ. destruct (direction_from n maps Hm _ _ _ HQ HS) as (Y & HZ & SQ). destruct (z_reached maps (ray_row p) _ _ HZ (ray_row p) (reached_start _ _ _) (prop_refl _)) as (y & Hy & HY).
    apply HI in Hy. exists (row_direction y). split; [apply in_map; auto|]. apply (direction_same n q' (coordinates_of (row_direction y)) Y y); auto. apply (HR y Hy).
Qed.
Print Assumptions C60_rays.

(** The hull of the file is the hull of all the images of the listed points and rays. *)
Theorem C60_hull : forall n c P R, maps_of_dimension n (c_maps c) -> Forall proper P -> Forall proper R -> Forall (fun p => length p = n) (P ++ R) -> expanded c P R ->
  forall x : list Q, hull n (map coordinates_of (c_points c)) (map coordinates_of (c_rays c)) x <-> hull_of_all n (image_points (c_maps c) P) (image_rays (c_maps c) R) x.
Proof.
  intros n c P R Hm HP HR HL (classes & classes' & HC & -> & HC' & ->) x. apply Forall_app in HL as [HLP HLR]. set (maps := c_maps c) in *.
  assert (GP : (forall q, In q (map row_point (concat classes)) -> exists q', image_points maps P q' /\ same_point q' (coordinates_of q)) /\
    (forall q', image_points maps P q' -> exists q, In q (map row_point (concat classes)) /\ same_point q' (coordinates_of q))).
  { clear - Hm HP HLP HC. revert classes HC. induction P as [|p P IH]; intros classes HC; inversion HC; subst; cbn [concat map]; [split; [intros ? []|intros q' (? & [] & _)]|].
    apply Forall_cons_iff in HP as [Hp HP]. apply Forall_cons_iff in HLP as [Hl HLP]. destruct (C60_points n maps p y Hm Hp Hl H1) as (_ & A1 & A2). destruct (IH HP HLP l' H3) as (B1 & B2). rewrite map_app. split.
    - intros q Hq. apply in_app_iff in Hq as [Hq|Hq]; [destruct (A1 q Hq) as (q' & K1 & K2); exists q'; split; auto; exists p; split; [left|]; auto|].
      destruct (B1 q Hq) as (q' & (p' & K0 & K1) & K2). exists q'. split; auto. exists p'. split; [right|]; auto.
    - intros q' (p' & [<-|Hp'] & HQ); [destruct (A2 q' HQ) as (q & K1 & K2)|destruct (B2 q' (ex_intro _ p' (conj Hp' HQ))) as (q & K1 & K2)]; exists q; split; auto; apply in_app_iff; auto. }
  assert (GR : (forall q, In q (map row_direction (concat classes')) -> exists q', image_rays maps R q' /\ multiple q' (coordinates_of q)) /\
    (forall q', image_rays maps R q' -> exists q, In q (map row_direction (concat classes')) /\ multiple q' (coordinates_of q))).
  { clear - Hm HR HLR HC'. revert classes' HC'. induction R as [|p P IH]; intros classes HC; inversion HC; subst; cbn [concat map]; [split; [intros ? []|intros q' (? & [] & _)]|].
    apply Forall_cons_iff in HR as [Hp HP]. apply Forall_cons_iff in HLR as [Hl HLP]. destruct (C60_rays n maps p y Hm Hp Hl H1) as (_ & A1 & A2). destruct (IH HP HLP l' H3) as (B1 & B2). rewrite map_app. split.
    - intros q Hq. apply in_app_iff in Hq as [Hq|Hq]; [destruct (A1 q Hq) as (q' & K1 & K2); exists q'; split; auto; exists p; split; [left|]; auto|].
      destruct (B1 q Hq) as (q' & (p' & K0 & K1) & K2). exists q'. split; auto. exists p'. split; [right|]; auto.
    - intros q' (p' & [<-|Hp'] & HQ); [destruct (A2 q' HQ) as (q & K1 & K2)|destruct (B2 q' (ex_intro _ p' (conj Hp' HQ))) as (q & K1 & K2)]; exists q; split; auto; apply in_app_iff; auto. }
  destruct GP as (P1 & P2). destruct GR as (R1 & R2). clear HC HC'. split.
  - intros H.
    assert (CP : forall l, (forall q, In q l -> exists q', image_points maps P q' /\ same_point q' (coordinates_of q)) -> exists points, Forall (image_points maps P) points /\ Forall (fun v => exists w, In w points /\ forall j, (j < n)%nat -> (nth j v 0 == nth j w 0)%Q) (map coordinates_of l)).
    { induction l as [|q l IH]; intros K; [exists []; split; constructor|]. destruct (K q (or_introl eq_refl)) as (q' & K1 & K2). destruct IH as (pts & I1 & I2); [intros; apply K; right; auto|]. exists (q' :: pts). split; [constructor; auto|]. cbn [map].
      constructor; [exists q'; split; [left; auto|]; intros j _; symmetry; apply same_nth; auto|]. eapply Forall_impl; [|exact I2]. intros v (w & Hw & E). exists w. split; [right|]; auto. }
    assert (CR : forall l, (forall q, In q l -> exists q', image_rays maps R q' /\ multiple q' (coordinates_of q)) -> exists rays, Forall (image_rays maps R) rays /\ Forall (fun v => exists w s, In w rays /\ (0 <= s)%Q /\ forall j, (j < n)%nat -> (nth j v 0 == s * nth j w 0)%Q) (map coordinates_of l)).
    { induction l as [|q l IH]; intros K; [exists []; split; constructor|]. destruct (K q (or_introl eq_refl)) as (q' & K1 & (s & Hs & K2)). destruct IH as (pts & I1 & I2); [intros; apply K; right; auto|]. exists (q' :: pts). split; [constructor; auto|]. cbn [map].
      constructor; [exists q', (/ s)%Q; split; [left; auto|]; split; [apply Qlt_le_weak, Qinv_lt_0_compat; auto|]; intros j _; rewrite K2; field; intros Z0; rewrite Z0 in Hs; apply (Qlt_irrefl 0); auto|].
      eapply Forall_impl; [|exact I2]. intros v (w & s' & Hw & E). exists w, s'. split; [right|]; auto. }
    destruct (CP _ P1) as (points & A1 & A2). destruct (CR _ R1) as (rays & B1 & B2). exists points, rays. split; auto. split; auto. revert H. apply hull_mono; auto.
  - intros (points & rays & A1 & A2 & H). revert H. apply hull_mono.
    + eapply Forall_impl; [|exact A1]. intros v Hv. destruct (P2 v Hv) as (q & K1 & K2). exists (coordinates_of q). split; [apply in_map; auto|]. intros j _. apply same_nth; auto.
    + eapply Forall_impl; [|exact A2]. intros v Hv. destruct (R2 v Hv) as (q & K1 & (s & Hs & K2)). exists (coordinates_of q), s. split; [apply in_map; auto|]. split; [apply Qlt_le_weak; auto|auto].
Qed.
Print Assumptions C60_hull.

(** ** The maps permute a class *)
Lemma nth_map_d {X Y} (f : X -> Y) l k d e : (k < length l)%nat -> nth k (map f l) d = f (nth k l e).
Proof. intros H. rewrite (nth_indep _ d (f e)) by (rewrite map_length; auto). apply map_nth. Qed.
Lemma one_to_one_rows n maps m : maps_of_dimension n maps -> In m maps -> one_to_one n m -> forall x y, length x = S n -> length y = S n -> substitute m x = substitute m y -> x = y.
Proof.
  intros Hm Hin H1.
  assert (CL : forall xs : vec, clears 1 (map inject_Z xs) xs) by (induction xs as [|z xs IH]; cbn [map]; constructor; auto; change (inject_Z 1) with 1%Q; ring).
  assert (G : forall xs ys, length xs = n -> length ys = n -> substitute m (xs ++ [1]) = substitute m (ys ++ [1]) -> xs = ys).
  { intros xs ys Hx Hy E. destruct (moved_substitute n maps Hm m (map inject_Z xs) xs 1 Hin Hx (CL xs)) as (us & E1 & L1 & C1). destruct (moved_substitute n maps Hm m (map inject_Z ys) ys 1 Hin Hy (CL ys)) as (vs & E2 & L2 & C2).
    rewrite E1, E2 in E. apply app_inj_tail in E as [-> _]. assert (S1 : same_point (moved_by m (map inject_Z xs)) (moved_by m (map inject_Z ys))).
    { revert C2. clear - C1. generalize (moved_by m (map inject_Z ys)) as l. induction C1 as [|q x p ws E _ IH]; intros l C2; inversion C2; subst; constructor; auto; [|apply IH; auto]. change (inject_Z 1) with 1%Q in *. rewrite <- (Qmult_1_r q), <- (Qmult_1_r x0). rewrite E. symmetry. auto. }
    apply H1 in S1; [|rewrite map_length; auto|rewrite map_length; auto]. clear - S1. revert ys S1. induction xs as [|x xs IH]; intros [|y ys] S1; inversion S1; subst; auto. f_equal; auto. apply inject_Z_injective. auto. }
  assert (SL : forall x : vec, length x = S n -> exists xs l, x = xs ++ [l] /\ length xs = n) by (intros x Hx; destruct (exists_last (l := x)) as (xs & l & ->); [intros ->; discriminate|]; exists xs, l; split; auto; rewrite app_length in Hx; cbn in Hx; lia).
  intros x y Hx Hy E. destruct (SL x Hx) as (xs & l & -> & Lx). destruct (SL y Hy) as (ys & k & -> & Ly).
  assert (Elk : l = k).
  { assert (LA : forall zs z, length zs = n -> nth n (substitute m (zs ++ [z])) 0 = z).
    { intros zs z Hz. destruct (Hm m Hin) as ((Lm & _) & Lst). unfold substitute. rewrite (nth_map_d _ m n 0 []) by lia. rewrite Lst. cbn [image_value fold_right fst snd]. rewrite app_nth2, Hz, Nat.sub_diag by lia. cbn [nth]. lia. }
    rewrite <- (LA xs l Lx), <- (LA ys k Ly), E. reflexivity. }
  subst k. f_equal.
  assert (D : vadd xs (vscale (-1) ys) = vzero n).
  { apply G; [rewrite vadd_length; rewrite ?vscale_length; auto; lia|apply vzero_length|].
    assert (V0 : forall d : vec, length d = n -> vadd (d ++ [0]) (vzero n ++ [1]) = d ++ [1]).
    { clear. intros d <-. induction d as [|z d IH]; [reflexivity|]. cbn [length vzero repeat app vadd]. fold (vzero (length d)). rewrite IH. f_equal. lia. }
    assert (SD : substitute m (vadd xs (vscale (-1) ys) ++ [0]) = vzero (length m)).
    { assert (EE : vadd (xs ++ [l]) (vscale (-1) (ys ++ [l])) = vadd xs (vscale (-1) ys) ++ [0]).
      { clear - Lx Ly. subst n. revert ys Ly. induction xs as [|z xs IH]; intros [|w ys] Ly; try discriminate; cbn [app vscale map vadd]; [f_equal; lia|]. f_equal. apply IH. cbn in Ly. lia. }
      rewrite <- EE, substitute_vadd by (rewrite vscale_length; auto; congruence). rewrite sub_scale, E. set (w := substitute m (ys ++ [l])). assert (Lw : length w = length m) by (unfold w, substitute; apply map_length). rewrite <- Lw. clear.
      induction w as [|z w IH]; [reflexivity|]. cbn [vscale map vadd length vzero repeat]. fold (vzero (length w)). fold (vscale (-1) w). rewrite IH. f_equal. lia. }
    rewrite <- (V0 (vadd xs (vscale (-1) ys))) by (rewrite vadd_length; rewrite ?vscale_length; auto; lia). rewrite substitute_vadd by (rewrite !app_length, vadd_length, vzero_length; rewrite ?vscale_length; auto; cbn; lia). rewrite SD.
    set (w := substitute m (vzero n ++ [1])). assert (Lw : length w = length m) by (unfold w, substitute; apply map_length). rewrite <- Lw. clear. induction w as [|z w IH]; [reflexivity|]. cbn [vadd length vzero repeat]. fold (vzero (length w)). rewrite IH. f_equal. }
  clear - Lx Ly D. subst n. revert ys Ly D. induction xs as [|x xs IH]; intros [|y ys] Ly D; try discriminate; auto. cbn [vscale map vadd length vzero repeat] in D. assert (D1 := f_equal (hd 0) D). assert (D2 := f_equal (@tl Z) D). cbn [hd tl] in D1, D2. f_equal; [lia|]. apply IH; auto.
Qed.
Lemma primitive_same x y : primitive x -> primitive y -> prop_rows x y -> x = y.
Proof.
  intros Hx Hy (a & b & Ha & Hb & E). transitivity (rnorm (vscale a x)); [apply lowest_unique; exists a; auto|]. rewrite E. symmetry. apply lowest_unique. exists b. auto.
Qed.
Lemma class_permuted n maps r rows m : maps_of_dimension n maps -> length r = S n -> class_of image_step image_load maps r rows -> primitive r -> (forall m, In m maps -> one_to_one n m) -> In m maps ->
  Permutation (map (fun x => rnorm (substitute m x)) rows) rows.
Proof.
  intros Hm Lr HC HP H1 Hin.
  assert (HD : forall x, In x rows -> length x = S n /\ primitive x).
  { intros x Hx. apply HC in Hx. induction Hx as [|m' x y Hx [L P] Hin' Hs]; auto. apply image_step_iff in Hs. subst y. assert (Ls : length (substitute m' x) = S n) by (apply (substitute_length (S n)); auto; apply Hm; auto).
    split; [rewrite rnorm_length; auto|]. apply rnorm_primitive. intros E. assert (X0 : x = vzero (S n)).
    { apply (one_to_one_rows n maps m' Hm Hin' (H1 m' Hin')); auto; [apply vzero_length|]. rewrite E, Ls. symmetry. assert (Ez : vzero (S n) = vscale 0 x) by (rewrite <- L; clear; induction x as [|z x IH]; [reflexivity|]; cbn [length vzero repeat vscale map]; f_equal; auto).
      rewrite Ez at 1. rewrite sub_scale. rewrite <- Ls. generalize (substitute m' x). clear. intros w. induction w as [|z w IH]; [reflexivity|]; cbn [length vzero repeat vscale map]; f_equal; auto. }
    subst x. apply primitive_rgcd in P. assert (rgcd (vzero (S n)) = 0) by (apply rgcd_0; rewrite vzero_length; auto). lia. }
  assert (HN : NoDup rows) by (apply sorted_nodup, HC).
  assert (HI : incl (map (fun x => rnorm (substitute m x)) rows) rows).
  { intros y Hy. apply in_map_iff in Hy as (x & <- & Hx). apply HC. apply HC in Hx. apply (reached_step _ _ _ m x); auto. apply image_step_iff. reflexivity. }
  apply NoDup_Permutation_bis; auto; [|rewrite map_length; auto].
  assert (INJ : forall x y, In x rows -> In y rows -> rnorm (substitute m x) = rnorm (substitute m y) -> x = y).
  { intros x y Hx Hy E. destruct (HD x Hx) as [Lx Px]. destruct (HD y Hy) as [Ly Py]. assert (PR : prop_rows (substitute m x) (substitute m y)) by (apply (prop_trans _ (rnorm (substitute m x))); [apply prop_rnorm|rewrite E; apply prop_sym, prop_rnorm]).
    destruct PR as (a & b & Ha & Hb & EE). rewrite <- !sub_scale in EE. apply (one_to_one_rows n maps m Hm Hin (H1 m Hin)) in EE; try (rewrite vscale_length; auto). apply primitive_same; auto. exists a, b. auto. }
  clear HI HD HC. induction rows as [|x rows IH]; cbn [map]; [constructor|]. apply NoDup_cons_iff in HN as [N1 N2]. constructor.
  - intros K. apply in_map_iff in K as (y & E & Hy). apply INJ in E; [subst; auto|right; auto|left; auto].
  - apply IH; auto. intros a b Ha Hb. apply INJ; right; auto.
Qed.
(** If the listed rows have no common factor and no map identifies two points, the maps of the file are symmetries of what the reduced sections stand for. *)
Theorem C60_symmetric : forall n c P R, maps_of_dimension n (c_maps c) -> (forall m, In m (c_maps c) -> one_to_one n m) -> Forall proper P -> Forall proper R -> Forall (fun p => length p = n) (P ++ R) ->
  Forall (fun p => primitive (point_row p)) P -> Forall (fun r => primitive (ray_row r)) R -> expanded c P R -> file_symmetries c n.
Proof.
  intros n c P R Hm H1 HP HR HL PP PR (classes & classes' & HC & EP & HC' & ER) m Hin. destruct (Hm m Hin) as (M1 & M2). split; auto. split; auto. rewrite EP, ER. clear EP ER. set (maps := c_maps c) in *. apply Forall_app in HL as [HLP HLR].
  split.
  - clear - HC HP HLP PP Hm H1 Hin. revert classes HC. induction P as [|p P IH]; intros classes HC; inversion HC; subst; cbn [concat map]; [exists []; split; constructor|].
    apply Forall_cons_iff in HP as [Hp HP]. apply Forall_cons_iff in HLP as [Hl HLP]. apply Forall_cons_iff in PP as [Pp PP]. rewrite map_app. apply rearranges_app; [|apply IH; auto].
    assert (HR := class_row_points n maps p y Hm Hp Hl H2). assert (QP := class_permuted n maps (point_row p) y m Hm ltac:(rewrite (proj1 (row_lengths p)); auto) H2 Pp H1 Hin).
    exists (map row_point (map (fun x => rnorm (substitute m x)) y)). split; [|apply Permutation_map; auto].
    assert (G : forall l, (forall x, In x l -> In x y) -> Forall2 (fun p q => same_point (moved_by m (coordinates_of p)) (coordinates_of q)) (map row_point l) (map row_point (map (fun x => rnorm (substitute m x)) l))); [|apply G; auto].
    assert (K : forall x, In x y -> In (rnorm (substitute m x)) y) by (intros x Hx; apply (Permutation_in _ QP), (in_map (fun x => rnorm (substitute m x))); auto).
    induction l as [|x l IHl]; intros Hx; cbn [map]; constructor; [|apply IHl; intros; apply Hx; right; auto]. specialize (Hx x (or_introl eq_refl)). destruct (HR x Hx) as ((xs & k & Ex & Lx & Hk & HX) & _). destruct (HR _ (K x Hx)) as (SY & _).
    destruct (moved_substitute n maps Hm m _ xs k Hin Lx HX) as (ys & E & Hy & HY). apply (point_same n _ _ (ys ++ [k]) (rnorm (substitute m x))); auto; [exists ys, k; auto|]. rewrite <- E, <- Ex. apply prop_rnorm.
  - clear - HC' HR HLR PR Hm H1 Hin. revert classes' HC'. induction R as [|p P IH]; intros classes HC; inversion HC; subst; cbn [concat map]; [exists []; split; constructor|].
    apply Forall_cons_iff in HR as [Hp HP]. apply Forall_cons_iff in HLR as [Hl HLP]. apply Forall_cons_iff in PR as [Pp PP]. rewrite map_app. apply rearranges_app; [|apply IH; auto].
    assert (HR := class_row_rays n maps p y Hm Hp Hl H2). assert (QP := class_permuted n maps (ray_row p) y m Hm ltac:(rewrite (proj2 (row_lengths p)); auto) H2 Pp H1 Hin).
    exists (map row_direction (map (fun x => rnorm (substitute m x)) y)). split; [|apply Permutation_map; auto].
    assert (G : forall l, (forall x, In x l -> In x y) -> Forall2 (fun p q => multiple (turned_by m (coordinates_of p)) (coordinates_of q)) (map row_direction l) (map row_direction (map (fun x => rnorm (substitute m x)) l))); [|apply G; auto].
    assert (K : forall x, In x y -> In (rnorm (substitute m x)) y) by (intros x Hx; apply (Permutation_in _ QP), (in_map (fun x => rnorm (substitute m x))); auto).
    induction l as [|x l IHl]; intros Hx; cbn [map]; constructor; [|apply IHl; intros; apply Hx; right; auto]. specialize (Hx x (or_introl eq_refl)). destruct (HR x Hx) as ((xs & k & Ex & Lx & Hk & HX) & _). destruct (HR _ (K x Hx)) as (SY & _).
    destruct (turned_substitute n maps Hm m _ xs k Hin Lx HX) as (ys & E & Hy & HY). apply (direction_same n _ _ (ys ++ [0]) (rnorm (substitute m x))); auto; [exists ys, k; auto|]. rewrite <- E, <- Ex. apply prop_rnorm.
Qed.
Print Assumptions C60_symmetric.

(** ** The whole program (C60) *)
Lemma expanded_agree n c P R : maps_of_dimension n (c_maps c) -> Forall proper P -> Forall proper R -> expanded c P R -> P <> [] -> c_points c <> [].
Proof.
  intros _ _ _ (classes & classes' & HC & -> & _ & _) HN. destruct P as [|p P]; [congruence|]. inversion HC; subst. destruct H1 as (_ & _ & _ & HI & _). assert (K := proj2 (HI _) (reached_start _ _ _)). intros E. cbn [concat] in E. destruct y; [destruct K|discriminate].
Qed.
(** Facets of a file whose points and rays are listed in reduced sections: with double description and with adjacency decomposition, whenever the program ends with status 0, the printed equations
    and all the images of the printed inequalities describe the hull of all the images of the listed points and rays. *)
Theorem C60_facets : forall t method order fs args name so content c n P R (E F : list vec),
  t <> INT16 -> sort_order order -> Forall ordinary args -> chooses_method args method -> chooses_type args t ->
  asks args name so -> fs name = Some content -> early_keyword content -> file_text nothing (Some content) c -> ~ describes_system content -> agree c n -> good_names (c_names c) ->
  maps_of_dimension n (c_maps c) -> (forall m, In m (c_maps c) -> one_to_one n m) -> Forall proper P -> Forall proper R -> Forall (fun p => length p = n) (P ++ R) -> P <> [] ->
  Forall (fun p => primitive (point_row p)) P -> Forall (fun r => primitive (ray_row r)) R -> expanded c P R ->
  (match method with DoubleDescription => maps_normalise t n E (c_maps c) | AdjacencyDecomposition => equations_allow t n E (c_maps c) /\ three_different_facets (S n) (file_rows c so) end) ->
  (match method with
   | DoubleDescription => m_extract_equations (arith t) (file_rows c so) = Ok E /\ m_fme (arith t) order (file_rows c so) = Ok F
   | AdjacencyDecomposition => m_extract_equations (arith EXACT) (file_rows c so) = Ok E /\ m_fme (arith EXACT) order (file_rows c so) = Ok F
   end) -> Forall negatable_row E -> Forall negatable_row F ->
  exists fuel0, forall texts fuel hardware out, (fuel0 <= fuel)%nat -> m_main texts order fs fuel hardware args out (Status 0) ->
    exists equations Pe inequalities Pf,
      out = facet_text equations inequalities (match Pe with [] => true | _ => false end) (nonempty (c_maps c)) /\
      written (denotes (c_names c) n Equation) equations Pe /\
      written (match method with DoubleDescription => denotes (c_names c) n Inequality | AdjacencyDecomposition => line_denotes (c_names c) n Inequality end) inequalities Pf /\
      forall p : list Q, length p = n ->
        (hull_of_all n (image_points (c_maps c) P) (image_rays (c_maps c) R) p <->
         (forall k, In k Pe -> satisfies k p) /\ forall q k, moved (c_maps c) p q -> In k Pf -> satisfies k q).
Proof.
  intros t method order fs args name so content c n P R E F Ht Ho HO HM HT HA HF HK HX HS HG HN Hm H1 HP HR HL Hne PP PR HE Hal HF2 BE BF.
  assert (Hsym := C60_symmetric n c P R Hm H1 HP HR HL PP PR HE). assert (Hpt := expanded_agree n c P R Hm HP HR HE Hne). assert (HH := C60_hull n c P R Hm HP HR HL HE).
  destruct method, HF2 as [HF2 HF3].
  - destruct (C53_facets_reduced t order fs args name so content c n E F) as (f0 & K); auto. exists f0. intros texts fuel hardware out Hf H.
    destruct (K texts fuel hardware out Hf H) as (equations & Pe & inequalities & Pf & K1 & K2 & K3 & K4). exists equations, Pe, inequalities, Pf. split; auto. split; auto. split; auto. intros p Hp. rewrite <- HH. apply K4; auto.
  - destruct Hal as [Hal H3]. destruct (C53_adjacency_reduced t order fs args name so content c n E F) as (f0 & K); auto. exists f0. intros texts fuel hardware out Hf H.
    destruct (K texts fuel hardware out Hf H) as (equations & Pe & inequalities & Pf & K1 & K2 & K3 & K4). exists equations, Pe, inequalities, Pf. split; auto. split; auto. split; auto. intros p Hp. rewrite <- HH. apply K4; auto.
Qed.
Print Assumptions C60_facets.

(** ** Reduced sections without maps (C60) *)
(** A text with a reduced section before which no maps are declared. *)
Inductive no_maps_before : text -> Prop :=
| unmapped_here title lines P tail Q o (b : bool) : keyword_line (if b then reduced_conical_words else reduced_convex_words) title -> section_lines lines P -> follow tail Q o -> fitting b (P ++ Q) -> no_maps_before (title ++ newline :: lines ++ tail)
| unmapped_line line t : plain_line line \/ keyword_line end_words line -> no_maps_before t -> no_maps_before (line ++ newline :: t)
| unmapped_names title body names sp line r : keyword_line names_words title -> names_text body names -> spaces sp -> sp <> [] -> keyword_line all_words line -> no_maps_before (sp ++ line ++ newline :: r) ->
    no_maps_before (title ++ newline :: body ++ sp ++ line ++ newline :: r)
| unmapped_section title lines P tail Q t (b : bool) : keyword_line (if b then plain_conical_words else plain_convex_words) title -> section_lines lines P -> follow tail Q (Some t) -> fitting b (P ++ Q) -> no_maps_before t -> t <> [] ->
    no_maps_before (title ++ newline :: lines ++ tail).
Lemma unmapped_throws t : no_maps_before t -> exists fuel0, forall fuel, (fuel0 <= fuel)%nat -> forall token d s, i_maps d = [] -> left_over s (Some t) -> t <> [] -> inner_loop fuel false token d s = Throw.
Proof.
  intros H. induction H as [title lines P tail Q o b HK HL HF HR|line t HP HT IH|title body names sp line r HK HB Hsp Hne HL HT IH|title lines P tail Q t b HK HL HF HR HT IH Hne].
  - destruct HR as (rows & HR & HI). destruct b.
    + destruct (C31_conical_section title lines P tail Q o rows) as (f1 & K); auto.
      { destruct HK as (u & w & v & -> & Hw & Hu & Hv). exists u, w, v. split; auto. split; auto. apply in_app_iff. right. auto. }
      exists (S f1). intros fuel Hf token d s0 Hd Hs0 _. destruct fuel as [|fuel]; [lia|]. destruct Hs0 as [->|[E _]]; [|destruct title; discriminate].
      destruct (title_advance reduced_conical_words title token (lines ++ tail) eq_refl HK) as (w & Hw & E & Nn). cbn [inner_loop]. change (ok (opened (title ++ newline :: lines ++ tail))) with true. cbn [negb]. rewrite E. cbn [bind].
      change (ok (opened (title ++ newline :: lines ++ tail))) with true. cbn [negb].
      dispatch w Hw (fun w => negb (m_is_dimension (lit w)) && negb (m_is_names (lit w)) && negb (m_is_maps (lit w)) && negb (m_is_convex (lit w)) && negb (m_is_reduced_convex (lit w)) && negb (m_is_conical (lit w)) && m_is_reduced_conical (lit w)).
      unfold m_read_reduced_vertices. destruct (K (S fuel) ltac:(lia)) as (s & E2 & Hs). unfold m_vertices_conical in E2. rewrite E2. cbn [bindo bind fst snd]. rewrite Hd. reflexivity.
    + destruct (C31_convex_section title lines P tail Q o rows) as (f1 & K); auto.
      { destruct HK as (u & w & v & -> & Hw & Hu & Hv). exists u, w, v. split; auto. split; auto. apply in_app_iff. right. auto. }
      exists (S f1). intros fuel Hf token d s0 Hd Hs0 _. destruct fuel as [|fuel]; [lia|]. destruct Hs0 as [->|[E _]]; [|destruct title; discriminate].
      destruct (title_advance reduced_convex_words title token (lines ++ tail) eq_refl HK) as (w & Hw & E & Nn). cbn [inner_loop]. change (ok (opened (title ++ newline :: lines ++ tail))) with true. cbn [negb]. rewrite E. cbn [bind].
      change (ok (opened (title ++ newline :: lines ++ tail))) with true. cbn [negb].
      dispatch w Hw (fun w => negb (m_is_dimension (lit w)) && negb (m_is_names (lit w)) && negb (m_is_maps (lit w)) && negb (m_is_convex (lit w)) && m_is_reduced_convex (lit w)).
      unfold m_read_reduced_vertices. destruct (K (S fuel) ltac:(lia)) as (s & E2 & Hs). unfold m_vertices_convex in E2. rewrite E2. cbn [bindo bind fst snd]. rewrite Hd. reflexivity.
  - assert (Ht : t <> []) by (destruct HT; destruct title || destruct line0; discriminate). destruct IH as (f0 & IH). exists (S (S f0)). intros fuel Hf token d s0 Hd Hs0 _. destruct fuel as [|fuel]; [lia|]. destruct Hs0 as [->|[E _]]; [|destruct line; discriminate].
    destruct HP as [HP|HP]; [rewrite inner_skip by auto; apply IH; [lia|auto|left; reflexivity|auto]|].
    destruct (title_advance end_words line token t eq_refl HP) as (w & Hw & E & Nn). cbn [inner_loop]. change (ok (opened (line ++ newline :: t))) with true. cbn [negb]. rewrite E. cbn [bind].
    change (ok (opened (line ++ newline :: t))) with true. cbn [negb].
    dispatch w Hw (fun w => negb (m_is_dimension (lit w)) && negb (m_is_names (lit w)) && negb (m_is_maps (lit w)) && negb (m_is_convex (lit w)) && negb (m_is_reduced_convex (lit w)) && negb (m_is_conical (lit w)) && negb (m_is_reduced_conical (lit w))).
    rewrite getline_newline by auto. apply IH; [lia|auto|left; reflexivity|auto].
  - destruct IH as (f0 & IH). exists (S f0). intros fuel Hf token d s0 Hd Hs0 _. destruct fuel as [|fuel]; [lia|]. destruct Hs0 as [->|[E _]]; [|destruct title; discriminate].
    destruct (title_advance names_words title token (body ++ sp ++ line ++ newline :: r) eq_refl HK) as (w & Hw & E & Nn). cbn [inner_loop].
    change (ok (opened (title ++ newline :: body ++ sp ++ line ++ newline :: r))) with true. cbn [negb]. rewrite E. cbn [bind].
    change (ok (opened (title ++ newline :: body ++ sp ++ line ++ newline :: r))) with true. cbn [negb].
    dispatch w Hw (fun w => negb (m_is_dimension (lit w)) && m_is_names (lit w)).
    rewrite (names_section_ok title body names sp line r) by auto. cbn [bind fst snd]. apply IH; [lia|auto|left; reflexivity|]. destruct sp; [congruence|discriminate].
  - destruct IH as (f0 & IH). destruct HR as (rows & HR & HI). destruct b.
    + destruct (C31_conical_section title lines P tail Q (Some t) rows) as (f1 & K); auto.
      { destruct HK as (u & w & v & -> & Hw & Hu & Hv). exists u, w, v. split; auto. split; auto. apply in_app_iff. left. auto. }
      exists (S (f0 + f1)). intros fuel Hf token d s0 Hd Hs0 _. destruct fuel as [|fuel]; [lia|]. destruct Hs0 as [->|[E _]]; [|destruct title; discriminate].
      destruct (title_advance plain_conical_words title token (lines ++ tail) eq_refl HK) as (w & Hw & E & Nn). cbn [inner_loop]. change (ok (opened (title ++ newline :: lines ++ tail))) with true. cbn [negb]. rewrite E. cbn [bind].
      change (ok (opened (title ++ newline :: lines ++ tail))) with true. cbn [negb].
      dispatch w Hw (fun w => negb (m_is_dimension (lit w)) && negb (m_is_names (lit w)) && negb (m_is_maps (lit w)) && negb (m_is_convex (lit w)) && negb (m_is_reduced_convex (lit w)) && m_is_conical (lit w)).
      unfold m_read_vertices. destruct (K (S fuel) ltac:(lia)) as (s & E2 & Hs). unfold m_vertices_conical in E2. rewrite E2. cbn [bindo bind fst snd]. apply IH; [lia|auto|exact Hs|auto].
    + destruct (C31_convex_section title lines P tail Q (Some t) rows) as (f1 & K); auto.
      { destruct HK as (u & w & v & -> & Hw & Hu & Hv). exists u, w, v. split; auto. split; auto. apply in_app_iff. left. auto. }
      exists (S (f0 + f1)). intros fuel Hf token d s0 Hd Hs0 _. destruct fuel as [|fuel]; [lia|]. destruct Hs0 as [->|[E _]]; [|destruct title; discriminate].
      destruct (title_advance plain_convex_words title token (lines ++ tail) eq_refl HK) as (w & Hw & E & Nn). cbn [inner_loop]. change (ok (opened (title ++ newline :: lines ++ tail))) with true. cbn [negb]. rewrite E. cbn [bind].
      change (ok (opened (title ++ newline :: lines ++ tail))) with true. cbn [negb].
      dispatch w Hw (fun w => negb (m_is_dimension (lit w)) && negb (m_is_names (lit w)) && negb (m_is_maps (lit w)) && m_is_convex (lit w)).
      unfold m_read_vertices. destruct (K (S fuel) ltac:(lia)) as (s & E2 & Hs). unfold m_vertices_convex in E2. rewrite E2. cbn [bindo bind fst snd]. apply IH; [lia|auto|exact Hs|auto].
Qed.
(** A reduced section before which no maps were declared is refused: nothing is printed, and the status is 1. *)
Theorem C60_refused : forall order fs args name so content, Forall ordinary args -> (exists m, chooses_method args m) -> (exists t, chooses_type args t) ->
  asks args name so -> fs name = Some content -> early_keyword content -> no_maps_before content -> ~ describes_system content ->
  exists fuel0, forall texts fuel hardware, (fuel0 <= fuel)%nat -> only_ends (m_main texts order fs fuel hardware args) [] (Status 1).
Proof.
  intros order fs args name so content HO (m & HM) (t & HT) HA HF HK HX HS. destruct (unmapped_throws content HX) as (f0 & K). exists f0. intros texts fuel hardware Hf out e.
  destruct (C53_mode fs args name content HO (proj1 HA) HF) as (_ & M & _). rewrite (main_mode texts order fs fuel hardware args _ (M HS)), (facet_main order fs fuel hardware args m t HM HT).
  destruct (asks_ok args name so HA) as (A1 & _ & _ & A3 & _).
  assert (EI : m_input_vertices fs fuel args = Throw).
  { unfold m_input_vertices. rewrite A1. cbn [bind]. unfold m_open. rewrite HF. cbn [bind]. rewrite early_keyword_ok by auto. cbn [negb]. rewrite A3. rewrite (K fuel Hf [] no_inner); auto; [left; reflexivity|]. destruct HX; destruct title || destruct line; discriminate. }
  destruct m; unfold m_facet_ad, m_facet_program; rewrite EI; cbn [calco m_dd_ends m_caught]; reflexivity.
Qed.
Print Assumptions C60_refused.

(** *** Example: the file of C48, with one point and one ray in reduced sections *)
Open Scope nat_scope.
Definition reduced_mirror : text := line "Names:" ++ line "x y" ++ line "" ++ line "Maps:" ++ line "y x" ++ line "" ++ line "Reduced Vertices:" ++ line "1/2 0" ++ line "" ++ line "Reduced Rays:" ++ line "1 0".
Definition reduced_contents : contents :=
  {| c_points := map row_point [[0; 1; 2]; [1; 0; 2]]%Z; c_rays := map row_direction [[0; 1; 0]; [1; 0; 0]]%Z; c_names := [lit "x"; lit "y"]; c_maps := [[[(1, 1%Z)]; [(0, 1%Z)]; [(2, 1%Z)]]]; c_dimension := None |}.
Lemma exchange_class (z : Z) : (0 <= z <= int_max)%Z -> class_of image_step image_load (c_maps reduced_contents) [1%Z; 0%Z; z] [[0; 1; z]; [1; 0; z]]%Z.
Proof.
  intros Hz. assert (HR : forall x, reached image_step (c_maps reduced_contents) [1; 0; z]%Z x <-> In x [[0; 1; z]; [1; 0; z]]%Z).
  { assert (S1 : forall x, In x [[0; 1; z]; [1; 0; z]]%Z -> rnorm (substitute [[(1, 1%Z)]; [(0, 1%Z)]; [(2, 1%Z)]] x) = match x with [a; b; c] => [b; a; c] | _ => [] end).
    { intros x [<-|[<-|[]]]; symmetry; apply lowest_unique; exists 1%Z; (split; [lia|]; split; [unfold substitute, image_value; cbn [map fold_right nth fst snd vscale]; apply f_equal2; [lia|apply f_equal2; [lia|apply f_equal2; [lia|reflexivity]]]|]); left; apply primitive_rgcd; cbn [rgcd fold_right].
      + rewrite Z.gcd_0_r. change (Z.gcd 0 (Z.abs z)) with (Z.abs (Z.abs z)). apply Z.gcd_1_l.
      + rewrite Z.gcd_0_r, Z.gcd_1_l. reflexivity. }
    intros x. split.
    - induction 1 as [|m x y _ IH [<-|[]] Hs]; [right; left; reflexivity|]. apply image_step_iff in Hs. rewrite (S1 x IH) in Hs. subst y. destruct IH as [<-|[<-|[]]]; [right; left|left]; reflexivity.
    - intros [<-|[<-|[]]]; [|constructor]. apply (reached_step _ _ _ [[(1, 1%Z)]; [(0, 1%Z)]; [(2, 1%Z)]] [1; 0; z]%Z); [constructor|left; reflexivity|]. apply image_step_iff. rewrite S1 by (right; left; reflexivity). reflexivity. }
  split; [constructor; [split; [reflexivity|repeat constructor]|constructor]|]. split; [constructor; [cbv; split; discriminate|constructor; [cbv; split; discriminate|constructor; [unfold int_range, int_min, int_max in *; lia|constructor]]]|]. split; [constructor; [constructor; constructor|constructor; [exists []; left; exists 0%Z, 1%Z, [1%Z; z], [0%Z; z]; split; [reflexivity|split; [reflexivity|lia]]|constructor]]|]. split; [intros x; symmetry; apply HR|].
  intros x m k Hx [<-|[]]. apply HR in Hx. unfold int_range, int_min, int_max in *. destruct Hx as [<-|[<-|[]]]; destruct k as [|[|[|k]]]; unfold image_load; cbn [nth sumf fold_right fst snd]; try lia; destruct k; cbn [nth sumf fold_right]; lia.
Qed.
Lemma reduced_text : file_text nothing (Some reduced_mirror) reduced_contents.
Proof.
  assert (FW : forall c, Forall (fun d => is_space d = false) [c] -> forallb (fun w => negb (text_eqb [c] (lit w))) MapInput.all_words = true -> free_word [c]).
  { intros c H1 H2. split; [split; [discriminate|auto]|]. intros w Hw E. rewrite forallb_forall in H2. specialize (H2 w Hw). rewrite <- E in H2. destruct (text_eqb_spec [c] [c]); [discriminate|congruence]. }
  assert (KL : forall words w, In w words -> keyword_line words (lit w)) by (intros words w Hw; exists [], w, []; rewrite app_nil_r; repeat split; auto; constructor).
  assert (PL : MapInput.plain_line []). { destruct (plain_or_keyword [] ltac:(intros [])) as [H|H]; [exact H|discriminate H]. }
  apply (file_names nothing (lit "Names:") (lit "x y") [lit "x"; lit "y"] [newline; newline] (lit "Maps:")
    (line "y x" ++ line "" ++ line "Reduced Vertices:" ++ line "1/2 0" ++ line "" ++ line "Reduced Rays:" ++ line "1 0")); try (apply KL; cbn; tauto); try discriminate.
  - apply (names_cons [] (lit "x") (lit " y") [lit "y"]); [constructor|apply FW; [repeat constructor|reflexivity]|reflexivity|].
    apply (names_cons (lit " ") (lit "y") [] []); [repeat constructor|apply FW; [repeat constructor|reflexivity]|reflexivity|constructor].
  - repeat constructor.
  - apply (file_line _ []); [left; exact PL|]. apply (file_line _ []); [left; exact PL|].
    apply (file_maps _ (lit "Maps:") (line "y x" ++ line "") [[[(1, 1%Z)]; [(0, 1%Z)]]] (line "Reduced Vertices:" ++ line "1/2 0" ++ line "" ++ line "Reduced Rays:" ++ line "1 0") []
      (Some (line "Reduced Vertices:" ++ line "1/2 0" ++ line "" ++ line "Reduced Rays:" ++ line "1 0"))).
    + cbn [c_names]. apply xy_good.
    + apply KL. cbn. tauto.
    + cbn [c_names]. apply (written_line _ (lit "y x") [[(1, 1%Z)]; [(0, 1%Z)]] (line "") []); [|apply (written_blank _ [] [] []); constructor].
      exists [], (lit "y x"), []. split; [reflexivity|]. split; [constructor|]. split; [|split; [constructor|split; [reflexivity|split; [reflexivity|]]]].
      * apply (MapInput.images_more _ (lit "y") [(1, 1%Z)] (lit " ") (lit "x") [[(0, 1%Z)]]); try discriminate; [|repeat constructor|].
        -- apply (MapInput.image_variable _ [] (lit "y") 1 1 [] []); [constructor|apply (xy_variable 1); lia|repeat constructor|exact I|constructor].
        -- apply MapInput.images_one; [|discriminate]. apply (MapInput.image_variable _ [] (lit "x") 1 0 [] []); [constructor|apply (xy_variable 0); lia|repeat constructor|exact I|constructor].
      * destruct (plain_or_keyword (lit "y x")) as [H|H]; [cbn; intuition discriminate|exact H|]. discriminate H.
    + apply (follows_keyword _ (lit "Reduced Vertices:") (line "1/2 0" ++ line "" ++ line "Reduced Rays:" ++ line "1 0")); [apply KL; cbn; tauto|reflexivity].
    + apply (file_reduced_points _ (lit "Reduced Vertices:") (line "1/2 0" ++ line "") [[(1, 2); (0, 1)]]%Z (line "Reduced Rays:" ++ line "1 0") [] (Some (line "Reduced Rays:" ++ line "1 0")) [[[0; 1; 2]; [1; 0; 2]]]%Z).
      * apply KL; cbn; tauto.
      * apply (section_point [] (lit "1/2 0") [(1, 2); (0, 1)]%Z (line "")); [repeat constructor| |apply (section_blank [] []); [constructor|constructor]].
        apply (coordinates_more (lit "1/2") 1 2 (lit " ") (lit "0")); [apply half_coordinate|repeat constructor|discriminate|]. apply (coordinates_last (lit "0") 0 1 []); [apply whole_coordinate; try reflexivity; try discriminate; lia|constructor].
      * apply (follow_keyword (lit "Reduced Rays:") (line "1 0")). apply KL. cbn. tauto.
      * exists (map (row_of false) [[(1, 2); (0, 1)]]%Z). split; [|repeat constructor; cbv; discriminate].
        constructor; [|constructor]; (apply represents_iff; [|reflexivity]); repeat constructor; try (apply small_int; cbn; lia); discriminate.
      * discriminate.
      * constructor; [|constructor]. apply (exchange_class 2). cbv. split; discriminate.
      * apply (file_reduced_rays _ (lit "Reduced Rays:") (line "1 0") [[(1, 1); (0, 1)]]%Z [] [] None [[[0; 1; 0]; [1; 0; 0]]]%Z).
        -- apply KL; cbn; tauto.
        -- apply (section_point [] (lit "1 0") [(1, 1); (0, 1)]%Z []); [repeat constructor|apply (two_wholes "1" "0" 1 0); try reflexivity; try discriminate; lia|constructor].
        -- apply follow_end. constructor. constructor.
        -- exists (map (row_of true) [[(1, 1); (0, 1)]]%Z). split; [|repeat constructor; cbv; discriminate].
           constructor; [|constructor]; (apply represents_ray_iff; [|split; [reflexivity|cbv; split; discriminate]]); repeat constructor; try (apply small_int; cbn; lia); discriminate.
        -- discriminate.
        -- constructor; [|constructor]. apply (exchange_class 0). cbv. split; discriminate.
        -- apply file_none.
Qed.
Lemma reduced_agree : agree reduced_contents 2.
Proof. split; [discriminate|]. split; [cbn; intuition (subst; reflexivity)|]. split; [cbn; intuition (subst; reflexivity)|]. split; [right; reflexivity|left; reflexivity]. Qed.
Lemma reduced_facets : three_different_facets 3 (file_rows reduced_contents NoSorting).
Proof.
  assert (HF : exists F : list vec, m_fme (arith INT32) sorted_order (file_rows reduced_contents NoSorting) = Ok F /\ incl [[0; -1; 0]; [-1; 0; 0]; [-2; -2; 1]]%Z F).
  { eexists. split; [vm_compute; reflexivity|]. intros f [<-|[<-|[<-|[]]]]; cbn; tauto. }
  destruct HF as (F & HF & HI). assert (HS := file_is_sane (Some reduced_mirror) reduced_contents reduced_text). assert (HG := reduced_agree).
  destruct (file_rows_facts reduced_contents NoSorting 2 HS HG ltac:(discriminate)) as (_ & HD & HH & HR). specialize (HR INT32 ltac:(discriminate)).
  assert (Hf : forall f, In f F -> facet 3 (file_rows reduced_contents NoSorting) f).
  { intros f Hf. apply (rows_facets INT32 sorted_order 3 (file_rows reduced_contents NoSorting) ltac:(discriminate) sorted_order_ok HR HD _ f) in HF; [tauto| |exact Hf]. exists [1; 0; 0]%Z. split; [vm_compute; auto|discriminate]. }
  exists [0; -1; 0]%Z, [-1; 0; 0]%Z, [-2; -2; 1]%Z. split; [apply Hf, HI; cbn; auto|]. split; [apply Hf, HI; cbn; auto|]. split; [apply Hf, HI; cbn; auto|].
  split; [|split]; intros (k & j & Hk & Hj & H); assert (H1 := H [1; 0; 0]%Z ltac:(vm_compute; auto)); assert (H2 := H [0; 1; 0]%Z ltac:(vm_compute; auto)); assert (H3 := H [1; 0; 2]%Z ltac:(vm_compute; auto)); cbn in H1, H2, H3; lia.
Qed.
(** The hypotheses of C60_facets and what the program prints; and the same file without the maps. *)
Example C60_example : forall texts,
  ~ describes_system reduced_mirror /\ early_keyword reduced_mirror /\ file_text nothing (Some reduced_mirror) reduced_contents /\ agree reduced_contents 2 /\ maps_of_dimension 2 (c_maps reduced_contents) /\
  (forall m, In m (c_maps reduced_contents) -> one_to_one 2 m) /\ expanded reduced_contents [[(1, 2); (0, 1)]]%Z [[(1, 1); (0, 1)]]%Z /\
  primitive (point_row [(1, 2); (0, 1)]%Z) /\ primitive (ray_row [(1, 1); (0, 1)]%Z) /\
  maps_normalise SAFE 2 [] (c_maps reduced_contents) /\ equations_allow INT32 2 [] (c_maps reduced_contents) /\ three_different_facets 3 (file_rows reduced_contents NoSorting) /\
  only_ends (m_main texts sorted_order (one_file reduced_mirror) 40 4 dd_args) (line "Reduced Inequalities:" ++ line "-2x -2y <= -1" ++ line "-y <= 0") (Status 0) /\
  no_maps_before (line "Names:" ++ line "x y" ++ line "" ++ line "Reduced Vertices:" ++ line "1 0") /\
  only_ends (m_main texts sorted_order (one_file (line "Names:" ++ line "x y" ++ line "" ++ line "Reduced Vertices:" ++ line "1 0")) 40 4 dd_args) [] (Status 1).
Proof.
  intros texts. destruct asks_dd as (_ & D1 & D2). split; [apply not_said; exists true, true, false; split; [vm_compute; reflexivity|auto]|]. split.
  { exists (lit "Names:"). split; [exists [], (newline :: line "x y" ++ line "" ++ line "Maps:" ++ line "y x" ++ line "" ++ line "Reduced Vertices:" ++ line "1/2 0" ++ line "" ++ line "Reduced Rays:" ++ line "1 0")|].
    - split; [reflexivity|]. split; [cbn; lia|]. split; [constructor|]. split; [cbn; intuition discriminate|]. right. eexists. reflexivity.
    - exists [], "Names:"%string, []. split; [reflexivity|]. split; [vm_compute; tauto|]. split; constructor. }
  split; [exact reduced_text|]. split; [exact reduced_agree|]. split. { intros m [<-|[]]. split; [split; [reflexivity|repeat constructor]|reflexivity]. }
  split. { intros m [<-|[]] [|x [|y [|]]] [|u [|v [|]]] Hp Hq H; try discriminate. unfold moved_by in H. cbn in H. inversion H as [|? ? ? ? E1 H1]; subst. inversion H1 as [|? ? ? ? E2 H2]; subst. unfold inject_Z in *. constructor; [lra|]. constructor; [lra|constructor]. }
  split. { exists [[[0; 1; 2]; [1; 0; 2]]]%Z, [[[0; 1; 0]; [1; 0; 0]]]%Z. split; [constructor; [apply (exchange_class 2); cbv; split; discriminate|constructor]|]. split; [reflexivity|]. split; [constructor; [apply (exchange_class 0); cbv; split; discriminate|constructor]|reflexivity]. }
  split; [apply primitive_rgcd; reflexivity|]. split; [apply primitive_rgcd; reflexivity|].
  split. { split; [split; [constructor|intros i Hi; cbn in Hi; lia]|split; [left; reflexivity|repeat constructor]]. }
  split; [split; [split; [constructor|intros i Hi; cbn in Hi; lia]|left; reflexivity]|]. split; [apply reduced_facets|]. split; [|split].
  - assert (MD : m_detect_mode (one_file reduced_mirror) dd_args = Ok FacetEnumeration) by (vm_compute; reflexivity). intros out e.
    rewrite (main_mode texts sorted_order (one_file reduced_mirror) 40 4 dd_args _ MD), (facet_main sorted_order (one_file reduced_mirror) 40 4 dd_args _ SAFE D1 D2).
    assert (E : m_facet_program SAFE sorted_order (one_file reduced_mirror) 40 dd_args = Some (line "Reduced Inequalities:" ++ line "-2x -2y <= -1" ++ line "-y <= 0", Ok tt)) by (vm_compute; reflexivity). rewrite E, dd_ends. reflexivity.
  - assert (FW : forall c, Forall (fun d => is_space d = false) [c] -> forallb (fun w => negb (text_eqb [c] (lit w))) MapInput.all_words = true -> free_word [c]).
    { intros c H1 H2. split; [split; [discriminate|auto]|]. intros w Hw E. rewrite forallb_forall in H2. specialize (H2 w Hw). rewrite <- E in H2. destruct (text_eqb_spec [c] [c]); [discriminate|congruence]. }
    assert (KL : forall words w, In w words -> keyword_line words (lit w)) by (intros words w Hw; exists [], w, []; rewrite app_nil_r; repeat split; auto; constructor).
    assert (PL : MapInput.plain_line []). { destruct (plain_or_keyword [] ltac:(intros [])) as [H|H]; [exact H|discriminate H]. }
    apply (unmapped_names (lit "Names:") (lit "x y") [lit "x"; lit "y"] [newline; newline] (lit "Reduced Vertices:") (line "1 0")); try (apply KL; cbn; tauto); try discriminate.
    + apply (names_cons [] (lit "x") (lit " y") [lit "y"]); [constructor|apply FW; [repeat constructor|reflexivity]|reflexivity|].
      apply (names_cons (lit " ") (lit "y") [] []); [repeat constructor|apply FW; [repeat constructor|reflexivity]|reflexivity|constructor].
    + repeat constructor.
    + apply (unmapped_line []); [left; exact PL|]. apply (unmapped_line []); [left; exact PL|].
      apply (unmapped_here (lit "Reduced Vertices:") (line "1 0") [[(1, 1); (0, 1)]]%Z [] [] None false); [apply KL; cbn; tauto| |apply follow_end; constructor; constructor|].
      * apply (section_point [] (lit "1 0") [(1, 1); (0, 1)]%Z []); [repeat constructor|apply (two_wholes "1" "0" 1 0); try reflexivity; try discriminate; lia|constructor].
      * exists (map (row_of false) [[(1, 1); (0, 1)]]%Z). split; [|repeat constructor; cbv; discriminate].
        constructor; [|constructor]; (apply represents_iff; [|reflexivity]); repeat constructor; try (apply small_int; cbn; lia); discriminate.
  - set (f := line "Names:" ++ line "x y" ++ line "" ++ line "Reduced Vertices:" ++ line "1 0"). assert (MD : m_detect_mode (one_file f) dd_args = Ok FacetEnumeration) by (vm_compute; reflexivity). intros out e.
    rewrite (main_mode texts sorted_order (one_file f) 40 4 dd_args _ MD), (facet_main sorted_order (one_file f) 40 4 dd_args _ SAFE D1 D2).
    assert (E : m_facet_program SAFE sorted_order (one_file f) 40 dd_args = Some ([], Throw)) by (vm_compute; reflexivity). rewrite E. reflexivity.
Qed.
