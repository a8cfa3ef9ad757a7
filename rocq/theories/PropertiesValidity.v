(** * PropertiesValidity: the validity checks of option "-c" (C35, C36). *)
From Coq Require Import List ZArith Arith Lia Bool Permutation.
From Verif Require Import Base Spec LinAlg ListUtil FmeCore ArithModel MatrixModel SafeIntModel Refine IntTypes FmeTheorems DimTheorems NormTheorems Adjacency Samples
  ClassesModel ApplyTheorems Rank ValidityModel ValidityProofs PropertiesFme PropertiesMaps.
Import ListNotations.
Open Scope Z_scope.

(** [m_check_inequalities (arith t) V rows] is checkValidityOfInequalities(V, rows), [m_check_vertices] is checkValidityOfVertices,
    [m_check_map (arith t) tag V m] the check of one map; [Ok tt] means accepted, [Throw] rejected. *)

(** ** C36: inequalities and vertices *)

(** [a] is satisfied by all of [V], with equality by some of them, and these span a subspace of codimension one in that of [V]. *)
Definition valid_facet (n : nat) (V : list vec) (a : vec) : Prop :=
  (forall v, In v V -> dot a v <= 0) /\ (exists v, In v V /\ dot a v = 0) /\
  exists T r, (forall v, In v T <-> In v V /\ dot a v = 0) /\ is_rank n T r /\ is_rank n V (S r).

Lemma inequalities_spec t n (V rows : list vec) : t <> INT16 -> rows_representable t V -> dims n V -> rows_representable t rows -> dims n rows ->
  match m_check_inequalities (arith t) V rows with
  | Ok _ => forall a, In a rows -> valid_facet n V a
  | Throw => t = SAFE \/ exists a, In a rows /\ ~ valid_facet n V a
  | UB => t = INT32 \/ t = INT64
  end.
Proof.
  intros Ht HR HV Hr HD.
  apply (checks_spec t n V Ht HR HV (fun d a => m_inequality_is_valid (arith t) V a d) (fun d a => m_check_inequality (arith t) V a d) rows).
  - intros. apply check_inequality_valid.
  - intros d a Ha. apply (valid_outcome t n V Ht HR HV). apply (dims_in n rows); auto. unfold rows_representable in Hr. rewrite Forall_forall in Hr. auto.
Qed.
Lemma vertices_spec t n (V rows : list vec) : t <> INT16 -> rows_representable t V -> dims n V -> rows_representable t rows -> dims n rows ->
  match m_check_vertices (arith t) V rows with
  | Ok _ => forall a, In a rows -> valid_facet n V a
  | Throw => t = SAFE \/ exists a, In a rows /\ ~ valid_facet n V a
  | UB => t = INT32 \/ t = INT64
  end.
Proof.
  intros Ht HR HV Hr HD.
  apply (checks_spec t n V Ht HR HV (fun d a => m_vertex_is_valid (arith t) V a d) (fun d a => m_check_vertex (arith t) V a d) rows).
  - intros. apply check_vertex_valid.
  - intros d a Ha. apply (vertex_outcome t n V Ht HR HV). apply (dims_in n rows); auto. unfold rows_representable in Hr. rewrite Forall_forall in Hr. auto.
Qed.

Theorem C36_accepted : forall t n (V rows : list vec) (a : vec),
  t <> INT16 -> rows_representable t V -> dims n V -> rows_representable t rows -> dims n rows ->
  m_check_inequalities (arith t) V rows = Ok tt -> In a rows -> valid_facet n V a.
Proof. intros t n V rows a Ht HR HV Hr HD E. assert (H := inequalities_spec t n V rows Ht HR HV Hr HD). rewrite E in H. apply H. Qed.
Print Assumptions C36_accepted.

(** (The overflow-checking type throws on overflow too.) *)
Theorem C36_rejected : forall t n (V rows : list vec),
  t <> INT16 -> t <> SAFE -> rows_representable t V -> dims n V -> rows_representable t rows -> dims n rows ->
  m_check_inequalities (arith t) V rows = Throw -> exists a, In a rows /\ ~ valid_facet n V a.
Proof.
  intros t n V rows Ht Hs HR HV Hr HD E. assert (H := inequalities_spec t n V rows Ht HR HV Hr HD). rewrite E in H. destruct H; [contradiction|auto].
Qed.
Print Assumptions C36_rejected.

(** Without overflow the check decides the property. *)
Theorem C36_exact : forall n (V rows : list vec), dims n V -> dims n rows ->
  (m_check_inequalities (arith EXACT) V rows = Ok tt /\ forall a, In a rows -> valid_facet n V a) \/
  (m_check_inequalities (arith EXACT) V rows = Throw /\ exists a, In a rows /\ ~ valid_facet n V a).
Proof.
  intros n V rows HV HD. assert (H := inequalities_spec EXACT n V rows ltac:(discriminate) (representable_exact V) HV (representable_exact rows) HD).
  destruct (m_check_inequalities (arith EXACT) V rows) as [[]| |]; auto; [|destruct H; discriminate]. destruct H; [discriminate|auto].
Qed.
Print Assumptions C36_exact.

(** These are the facets, if the rows span at least a plane. *)
Theorem C36_facet : forall n (V : list vec) (a : vec) r,
  dims n V -> length a = n -> is_rank n V r -> (2 <= r)%nat -> valid_facet n V a <-> facet n V a.
Proof.
  intros n V a r HV Ha Hr H2. unfold valid_facet. fold (proper_facet n V a). rewrite proper_facet_iff by auto. split; [tauto|]. intros Hf. split; auto.
  apply (rank_two_touches n V a r); auto.
Qed.
Print Assumptions C36_facet.

(** Vertices and rays: accepted iff extreme (the rows of [V] are inequalities of a polyhedron without a line). *)
Theorem C36_vertices_accepted : forall t n (V rows : list vec) (x : vec),
  t <> INT16 -> rows_representable t V -> dims n V -> rows_representable t rows -> dims n rows -> no_line n V ->
  m_check_vertices (arith t) V rows = Ok tt -> In x rows -> extreme_ray n V x.
Proof.
  intros t n V rows x Ht HR HV Hr HD Hp E Hx. assert (H := vertices_spec t n V rows Ht HR HV Hr HD). rewrite E in H. specialize (H x Hx).
  apply (proper_facet_iff n V x HV (dims_in n rows x HD Hx)) in H. destruct H as (Hf & _). apply facet_extreme; auto.
  intros y Hy Hv. apply Hp; auto. intros a Ha. rewrite dot_comm. apply Hv; auto.
Qed.
Print Assumptions C36_vertices_accepted.
Theorem C36_vertices_rejected : forall t n (V rows : list vec),
  t <> INT16 -> t <> SAFE -> rows_representable t V -> dims n V -> rows_representable t rows -> dims n rows -> no_line n V -> (2 <= n)%nat ->
  m_check_vertices (arith t) V rows = Throw -> exists x, In x rows /\ ~ extreme_ray n V x.
Proof.
  intros t n V rows Ht Hs HR HV Hr HD Hp Hn E. assert (H := vertices_spec t n V rows Ht HR HV Hr HD). rewrite E in H.
  destruct H as [|(x & Hx & Hnot)]; [contradiction|]. exists x. split; auto. intros He. apply Hnot.
  apply (proper_facet_iff n V x HV (dims_in n rows x HD Hx)). assert (Hf := extreme_facet n V x HV Hp He). split; auto.
  assert (Hk := dim_loop_correct n V HV). apply (rank_two_touches n V x _ HV Hk); auto. apply (no_line_rank n V); auto.
Qed.
Print Assumptions C36_vertices_rejected.
Theorem C36_vertices_exact : forall n (V rows : list vec), dims n V -> dims n rows -> no_line n V -> (2 <= n)%nat ->
  (m_check_vertices (arith EXACT) V rows = Ok tt /\ forall x, In x rows -> extreme_ray n V x) \/
  (m_check_vertices (arith EXACT) V rows = Throw /\ exists x, In x rows /\ ~ extreme_ray n V x).
Proof.
  intros n V rows HV HD Hp Hn.
  assert (H := vertices_spec EXACT n V rows ltac:(discriminate) (representable_exact V) HV (representable_exact rows) HD).
  destruct (m_check_vertices (arith EXACT) V rows) as [[]| |] eqn:E; [left|right|destruct H; discriminate].
  - split; auto. intros x Hx. apply (C36_vertices_accepted EXACT n V rows x); auto; try discriminate; apply representable_exact.
  - split; auto. apply (C36_vertices_rejected EXACT n V rows); auto; try discriminate; apply representable_exact.
Qed.
Print Assumptions C36_vertices_exact.

(** Filtering keeps exactly the facets, in their order. *)
Theorem C36_filter : forall t n (V rows kept : list vec),
  t <> INT16 -> rows_representable t V -> dims n V -> rows_representable t rows -> dims n rows ->
  m_filter (arith t) V rows = Ok kept ->
  exists f, kept = filter f rows /\ forall a, In a rows -> (f a = true <-> valid_facet n V a).
Proof.
  intros t n V rows kept Ht HR HV Hr HD E. destruct rows as [|a0 rows0]; [exists (fun _ => true); injection E as <-; split; auto; intros a []|].
  unfold m_filter in E. assert (Hd := dimension_outcome t n V Ht HR HV).
  match type of Hd with (outcome _ ?m _) => destruct m as [d| |] end; cbn [bind outcome] in *; try discriminate.
  assert (H := filter_loop_spec t n V Ht HR HV d (a0 :: rows0) HD Hr). rewrite E in H. cbn [outcome] in H.
  exists (fun a => pvalid n V a d). split; auto. intros a Ha. apply pvalid_spec; auto. rewrite Hd. apply dim_loop_correct; auto.
Qed.
Print Assumptions C36_filter.

(** The square: its facets are accepted, a diagonal-touching valid inequality is rejected, and so is a separating one. *)
Example C36_instance :
  m_check_inequalities (arith INT32) square [[-1; 0; 0]; [0; -1; 0]; [1; 0; -1]; [0; 1; -1]] = Ok tt /\
  m_check_inequalities (arith INT32) square [[-1; 0; 0]; [1; 1; -2]] = Throw /\ m_check_inequalities (arith INT32) square [[1; 1; -1]] = Throw /\
  m_filter (arith INT32) square [[-1; 0; 0]; [1; 1; -2]; [0; 1; -1]] = Ok [[-1; 0; 0]; [0; 1; -1]] /\
  m_check_vertices (arith INT32) square_ineqs [[0; 0; 1]; [1; 1; 1]] = Ok tt /\ m_check_vertices (arith INT32) square_ineqs [[1; 1; 2]] = Throw.
Proof. vm_compute. repeat split. Qed.

(** ** C35: maps *)

(** [w] is the image of the point [v], without common factor; [b] is the image of the inequality [a]. *)
Definition point_image (n : nat) (m : lmap) (v w : vec) : Prop :=
  (exists k, 0 < k /\ vscale k w = substitute m v) /\ (primitive w \/ w = vzero n).
Definition inequality_image (n : nat) (m : lmap) (a b : vec) : Prop :=
  length b = n /\ (exists k, 0 < k /\ forall x, length x = n -> k * dot b x = dot a (substitute m x)) /\ (primitive b \/ b = vzero n).
(** The images of the rows are the rows, in some order. *)
Definition permutes (image : vec -> vec -> Prop) (V : list vec) : Prop := exists W, Forall2 image V W /\ Permutation W V.

Lemma rnorm_reduced n v : length v = n -> primitive (rnorm v) \/ rnorm v = vzero n.
Proof.
  intros Hl. destruct (list_eq_dec Z.eq_dec v (vzero n)) as [->|Hne].
  - right. unfold rnorm. destruct (Z.ltb_spec 1 (rgcd (vzero n))) as [H|]; auto.
    assert (rgcd (vzero n) = 0) by (apply rgcd_0; rewrite vzero_length; auto). lia.
  - left. apply rnorm_primitive. congruence.
Qed.
Lemma vertex_row_image n m v : map_in n m -> length v = n -> forall w, point_image n m v w <-> w = row_image Vertex_tag m v.
Proof.
  intros Hm Hv w. unfold row_image. rewrite (vertex_raw n) by auto.
  assert (Hs : length (substitute m v) = n) by (apply substitute_length; auto).
  assert (Hk : 0 < rfac (substitute m v)) by apply rfac_pos. assert (Hsp := rnorm_spec (substitute m v)). assert (Hred := rnorm_reduced n _ Hs).
  split.
  - intros ((k & Hk1 & Ek) & Hp). assert (Hw : length w = n) by (rewrite <- Hs, <- Ek, vscale_length; auto).
    apply (proportional_primitive n w (rnorm (substitute m v)) k (rfac (substitute m v))); auto; try tauto; try (rewrite rnorm_length; auto); try congruence.
  - intros ->. split; auto. eexists. split; eauto.
Qed.
Lemma facet_row_image n m a : map_in n m -> length a = n -> forall b, inequality_image n m a b <-> b = row_image Facet_tag m a.
Proof.
  intros Hm Ha b. unfold row_image. assert (Hs : length (praw Facet_tag m a) = n) by (rewrite praw_length; auto).
  set (p := praw Facet_tag m a) in *. assert (Hp : forall x, length x = n -> dot p x = dot a (substitute m x)) by (intros x Hx; apply (facet_dot n); auto).
  assert (Hk : 0 < rfac p) by apply rfac_pos. assert (Hred := rnorm_reduced n _ Hs). split.
  - intros (Hb & (k & Hk1 & Ek) & Hpr). apply (proportional_primitive n b (rnorm p) k (rfac p)); auto; try tauto; try (rewrite rnorm_length; auto); try congruence.
    apply (vec_ext n); try (rewrite vscale_length; rewrite ?rnorm_length; auto). intros c Hc.
    rewrite !dot_vscale_l, Ek, <- (dot_rnorm p c), Hp by auto. reflexivity.
  - intros ->. split; [rewrite rnorm_length; auto|]. split; auto. exists (rfac p). split; auto. intros x Hx. rewrite <- dot_rnorm. auto.
Qed.
Lemma permutes_iff (image : vec -> vec -> Prop) (f : vec -> vec) (V : list vec) :
  (forall v, In v V -> forall w, image v w <-> w = f v) -> (permutes image V <-> Permutation (map f V) V).
Proof.
  intros H. assert (HF : forall W, Forall2 image V W <-> W = map f V).
  { clear - H. induction V as [|v V IH]; intros W; [split; [intros HF; inversion HF; auto|intros ->; constructor]|].
    assert (IH' := IH (fun u Hu => H u (or_intror Hu))). assert (Hv := H v (or_introl eq_refl)). cbn [map]. split.
    - intros HF. inversion HF as [|? w ? W' H1 H2]; subst. f_equal; [apply Hv; auto|apply IH'; auto].
    - intros ->. constructor; [apply Hv|apply IH']; auto. }
  split; [intros (W & H1 & H2); apply HF in H1; subst; auto|]. intros P. exists (map f V). split; auto. apply HF; auto.
Qed.

Lemma points_spec t n (V : list vec) m : t <> INT16 -> rows_representable t V -> dims n V -> map_in n m ->
  match m_check_map (arith t) Vertex_tag V m with
  | Ok _ => NoDup V /\ permutes (point_image n m) V
  | Throw => t = SAFE \/ ~ (NoDup V /\ permutes (point_image n m) V)
  | UB => t = INT32 \/ t = INT64
  end.
Proof.
  intros Ht HR HV Hm. assert (H := check_map_spec t n V Vertex_tag m Ht HR HV Hm).
  assert (E := permutes_iff (point_image n m) (row_image Vertex_tag m) V (fun v Hv => vertex_row_image n m v Hm (dims_in n V v HV Hv))).
  destruct (m_check_map (arith t) Vertex_tag V m); auto; rewrite E; auto.
Qed.
Lemma inequalities_map_spec t n (V : list vec) m : t <> INT16 -> rows_representable t V -> dims n V -> map_in n m ->
  match m_check_map (arith t) Facet_tag V m with
  | Ok _ => NoDup V /\ permutes (inequality_image n m) V
  | Throw => t = SAFE \/ ~ (NoDup V /\ permutes (inequality_image n m) V)
  | UB => t = INT32 \/ t = INT64
  end.
Proof.
  intros Ht HR HV Hm. assert (H := check_map_spec t n V Facet_tag m Ht HR HV Hm).
  assert (E := permutes_iff (inequality_image n m) (row_image Facet_tag m) V (fun v Hv => facet_row_image n m v Hm (dims_in n V v HV Hv))).
  destruct (m_check_map (arith t) Facet_tag V m); auto; rewrite E; auto.
Qed.

Theorem C35_points_accepted : forall t n (V : list vec) m,
  t <> INT16 -> rows_representable t V -> dims n V -> map_in n m ->
  m_check_map (arith t) Vertex_tag V m = Ok tt -> NoDup V /\ permutes (point_image n m) V.
Proof. intros t n V m Ht HR HV Hm E. assert (H := points_spec t n V m Ht HR HV Hm). rewrite E in H. exact H. Qed.
Print Assumptions C35_points_accepted.
Theorem C35_points_rejected : forall t n (V : list vec) m,
  t <> INT16 -> t <> SAFE -> rows_representable t V -> dims n V -> map_in n m -> NoDup V ->
  m_check_map (arith t) Vertex_tag V m = Throw -> ~ permutes (point_image n m) V.
Proof. intros t n V m Ht Hs HR HV Hm HN E. assert (H := points_spec t n V m Ht HR HV Hm). rewrite E in H. destruct H; [contradiction|tauto]. Qed.
Print Assumptions C35_points_rejected.
Theorem C35_inequalities_accepted : forall t n (V : list vec) m,
  t <> INT16 -> rows_representable t V -> dims n V -> map_in n m ->
  m_check_map (arith t) Facet_tag V m = Ok tt -> NoDup V /\ permutes (inequality_image n m) V.
Proof. intros t n V m Ht HR HV Hm E. assert (H := inequalities_map_spec t n V m Ht HR HV Hm). rewrite E in H. exact H. Qed.
Print Assumptions C35_inequalities_accepted.
Theorem C35_inequalities_rejected : forall t n (V : list vec) m,
  t <> INT16 -> t <> SAFE -> rows_representable t V -> dims n V -> map_in n m -> NoDup V ->
  m_check_map (arith t) Facet_tag V m = Throw -> ~ permutes (inequality_image n m) V.
Proof. intros t n V m Ht Hs HR HV Hm HN E. assert (H := inequalities_map_spec t n V m Ht HR HV Hm). rewrite E in H. destruct H; [contradiction|tauto]. Qed.
Print Assumptions C35_inequalities_rejected.

(** Without overflow every check ends with a verdict. *)
Theorem C35_exact : forall tg n (V : list vec) m, dims n V -> map_in n m ->
  m_check_map (arith EXACT) tg V m = Ok tt \/ m_check_map (arith EXACT) tg V m = Throw.
Proof.
  intros tg n V m HV Hm. assert (H := check_map_spec EXACT n V tg m ltac:(discriminate) (representable_exact V) HV Hm).
  destruct (m_check_map (arith EXACT) tg V m) as [[]| |]; auto. destruct H; discriminate.
Qed.
Print Assumptions C35_exact.

(** Several maps: all are accepted or one is to blame. *)
Theorem C35_all_maps : forall A tg V maps,
  (m_check_maps A tg V maps = Ok tt <-> forall m, In m maps -> m_check_map A tg V m = Ok tt) /\
  (m_check_maps A tg V maps = Throw -> exists m, In m maps /\ m_check_map A tg V m = Throw).
Proof.
  intros A tg V maps. unfold m_check_maps. induction maps as [|m maps (IH1 & IH2)]; cbn [foldM].
  - split; [split; auto; intros _ m []|discriminate].
  - destruct (m_check_map A tg V m) as [[]| |] eqn:E; cbn [bind].
    + split; [rewrite IH1; split; [intros H x [<-|Hx]; auto|intros H x Hx; apply H; right; auto]|]. intros H. destruct (IH2 H) as (x & Hx & Ex). exists x. split; auto. right; auto.
    + split; [split; [discriminate|intros H; specialize (H m (or_introl eq_refl)); congruence]|]. intros _. exists m. split; auto. left; auto.
    + split; [split; [discriminate|intros H; specialize (H m (or_introl eq_refl)); congruence]|]. discriminate.
Qed.
Print Assumptions C35_all_maps.

(** For rows without common factors, distinct: accepted iff the map permutes the rays spanned by the rows. *)
Theorem C35_symmetry : forall n (V : list vec) m, dims n V -> map_in n m -> NoDup V -> (forall v, In v V -> primitive v) ->
  m_check_map (arith EXACT) Vertex_tag V m = Ok tt <->
  permutes (fun v w => exists k, 0 < k /\ vscale k w = substitute m v) V.
Proof.
  intros n V m HV Hm HN HP. assert (H := points_spec EXACT n V m ltac:(discriminate) (representable_exact V) HV Hm). split.
  - intros E. rewrite E in H. destruct H as (_ & W & H1 & H2). exists W. split; auto. clear -H1. induction H1 as [|v w V W (Hk & _) H1 IH]; constructor; auto.
  - intros (W & H1 & H2). assert (permutes (point_image n m) V).
    { exists W. split; auto. assert (HW : forall w, In w W -> primitive w) by (intros w Hw; apply HP, (Permutation_in _ H2); auto).
      clear - H1 HW. induction H1 as [|v w V W Hvw H1 IH]; constructor; [split; auto; left; apply HW; left; auto|apply IH; intros; apply HW; right; auto]. }
    destruct (m_check_map (arith EXACT) Vertex_tag V m) as [[]| |]; auto; [destruct H; [discriminate|tauto]|destruct H; discriminate].
Qed.
Print Assumptions C35_symmetry.

(** The rows must have no common factors: the identity is rejected for the ray (2, 0, 0); and no row may be repeated. *)
Definition identity3 : lmap := [[(0%nat, 1)]; [(1%nat, 1)]; [(2%nat, 1)]].
Theorem C35_unreduced_rejected : m_check_map (arith INT32) Vertex_tag [[2; 0; 0]; [0; 1; 0]] identity3 = Throw /\
  m_check_map (arith INT32) Vertex_tag [[1; 0; 0]; [1; 0; 0]] identity3 = Throw.
Proof. vm_compute. split; reflexivity. Qed.
Print Assumptions C35_unreduced_rejected.
(** The square and its rotation (x, y) -> (1 - y, x): accepted; a shear: rejected. *)
Example C35_instance : map_in 3 [[(2%nat, 1); (1%nat, -1)]; [(0%nat, 1)]; [(2%nat, 1)]] /\
  m_check_map (arith INT32) Vertex_tag square [[(2%nat, 1); (1%nat, -1)]; [(0%nat, 1)]; [(2%nat, 1)]] = Ok tt /\
  m_check_map (arith INT32) Facet_tag (removelast square_ineqs) [[(2%nat, 1); (1%nat, -1)]; [(0%nat, 1)]; [(2%nat, 1)]] = Ok tt /\
  m_check_map (arith INT32) Vertex_tag square [[(0%nat, 1); (1%nat, 1)]; [(1%nat, 1)]; [(2%nat, 1)]] = Throw.
Proof.
  split; [split; [reflexivity|]; repeat constructor|].
  split; [vm_compute; reflexivity|]. split; vm_compute; reflexivity.
Qed.
