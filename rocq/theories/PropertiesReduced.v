(** * PropertiesReduced: the output of double description when maps are used (C45, C46). *)
From Coq Require Import List ZArith QArith Arith Bool Ascii String Lia Lqa Permutation.
From Verif Require Import Base Spec LinAlg Cone ListUtil ArithModel MatrixModel FmeModel SafeIntModel IntTypes RowLcm StreamModel StreamProofs InputModel InputProofs ClassesModel
  ConstraintModel ConstraintInput ConstraintSection PropertiesVertices PropertiesConstraints OutputModel OutputProofs PropertiesOutput Hull Corners FmeCore FmePure FmePrepare FmeCorrect FmeRefine FmeTheorems DimTheorems NormTheorems
  Samples ClassesProofs ApplyTheorems OrbitTheorems OrbitExact PropertiesMaps PropertiesFme MapModel PropertiesProgram PropertiesRotation PropertiesValidity
  NormalForm Symmetry AdTheorems Adjacency MapNormalize PropertiesNormalize PropertiesAd PropertiesFile HullSame VertexInput VertexSymmetry VertexImages.
Import ListNotations.
Open Scope Z_scope.
Open Scope list_scope.

(** ** Facets *)
(** The equations can be solved for their leading coordinates with leading coefficient 1, and if there are any the type is not int64_t (see C28); the maps fit into memory. *)
Definition maps_normalise (t : int_type) (n : nat) (E : list vec) (maps : list lmap) : Prop :=
  solved_equations (S n) E /\ (E = [] \/ t <> INT64) /\ Forall (in_memory (S n)) maps.
Lemma normalised_like t n V maps E reduced : eqs (S n) V = E -> dims (S n) V -> symmetries n V maps -> maps_normalise t n E maps ->
  m_normalize_maps t E maps = Ok reduced -> Forall2 (fun m' m => like_symmetry (S n) V m' m) reduced maps.
Proof.
  intros X HV Hsym (HS & H64 & Hmem) EM. destruct (solved_leads (S n) _ HS) as (_ & Hlead). change (num (arith t)) with Z in *. subst E. unfold m_normalize_maps in EM. clear HS.
  assert (Q : forall m, In m maps -> map_in (S n) m /\ nth n m [] = [(n, 1)] /\ onto m V V) by (intros m Hm; apply (symmetries_onto n V maps m Hsym Hm)). clear Hsym.
  revert reduced EM. induction Hmem as [|m ms Hm Hmem IH]; intros maps' EM; cbn [mapM] in EM; [inversion EM; constructor|].
  match type of EM with (bind ?x _ = _) => destruct x as [m'| |] eqn:E1 end; cbn [bind] in EM; try discriminate.
  match type of EM with (bind ?x _ = _) => destruct x as [ms'| |] eqn:E2 end; cbn [bind] in EM; try discriminate. inversion EM; subst maps'.
  constructor; [|apply IH; [intros m0 Hm0; apply Q; right; auto|reflexivity]]. destruct (Q m (or_introl eq_refl)) as (M1 & M2 & M3). destruct Hm as (B1 & B2).
  apply (like_normalised t (S n) V m m'); auto.
  - tauto.
  - intros e He. apply (Hlead e He).
  - replace (S n - 1)%nat with n by lia. auto.
Qed.

(** The rows selected: one of every class of facets that the maps carry to each other. *)
Lemma selected_rows t order n (V F R : list vec) maps reduced fuel : t <> INT16 -> sort_order order -> dims (S n) V -> homogenised (S n) V ->
  Forall2 (fun m' m => like_symmetry (S n) V m' m) reduced maps -> m_fme (arith EXACT) order V = Ok F -> rows_representable t F ->
  m_classes_of (arith t) fuel Facet_tag reduced F = Ok (Some R) ->
  (forall r, In r R -> In r F) /\ NoDup R /\ (forall f, In f F -> exists r, In r R /\ orbit EXACT Facet_tag reduced f r) /\
  (forall r x, In r R -> In x R -> carried V maps r x -> x = r).
Proof.
  intros Ht Ho HV Hh HL HF RF EC. assert (HA := likes_acting n V maps reduced HV Hh HL). destruct (homogenised_pos (S n) V HV Hh) as (_ & _ & Hnz). assert (Hex := RotationTheorems.hom_ex (S n) V Hh).
  assert (EF := result_fme EXACT order (S n) V ltac:(discriminate) Ho (representable_exact V) HV F Hnz HF).
  assert (FF : forall f, In f F <-> facet (S n) V f /\ nform (S n) V f /\ ~ simn V f (unit_vec (S n) (S n - 1) (-1))) by (intros f; rewrite EF; apply (fme_iff (S n) V order HV Ho Hex)).
  assert (DF : dims (S n) F) by (apply Forall_forall; intros f Hf; apply FF in Hf; apply Hf).
  destruct (classes_exact t Facet_tag reduced (S n) Ht (a_maps (S n) V reduced HA) fuel F R DF RF EC) as (C1 & C2).
  assert (InF : forall r, In r R -> In r F).
  { intros r Hr. destruct (C1 r Hr) as (_ & _ & f & Hf & L). apply FF in Hf. destruct Hf as (F1 & F2 & F3). destruct (orb_facet (S n) V reduced HA f r F1 F2 (proj1 L)) as (G1 & G2 & G3). apply FF. tauto. }
  assert (Lr : forall r, In r R -> largest EXACT Facet_tag reduced r r).
  { intros r Hr. destruct (C1 r Hr) as (_ & _ & f & Hf & L). apply FF in Hf. destruct Hf as (F1 & F2 & F3). apply (largest_any (S n) V reduced order HV Ho HA f r F1 F2 (proj1 L)). auto. }
  split; auto. split; [|split].
  - apply (classes_nodup t Facet_tag reduced (S n) Ht (a_maps (S n) V reduced HA) fuel F R DF RF); auto. intros f Hf. apply FF in Hf. apply (orb_reversible (S n) V reduced order HV Ho HA f); tauto.
  - intros f Hf. destruct (C2 f Hf) as (h & x & Hh' & Oh & Hx & L). exists x. split; auto. apply FF in Hh'. destruct Hh' as (F1 & F2 & F3).
    apply (orbit_trans EXACT Facet_tag reduced f h); [|apply L]. apply (orb_back (S n) V reduced order HV Ho HA h); auto.
  - intros r x Hr Hx Cx. assert (Fr := InF r Hr). assert (Fx := InF x Hx). apply FF in Fr, Fx. destruct Fr as (F1 & F2 & _). destruct Fx as (G1 & G2 & _).
    assert (Ox := carried_orbit n V maps reduced HV Hh HL r x F1 F2 G1 G2 Cx). apply (largest_unique EXACT Facet_tag reduced r x r); auto. apply (largest_any (S n) V reduced order HV Ho HA r x F1 F2 Ox). auto.
Qed.

(** The text printed: a point is in the convex hull plus cone iff it satisfies the printed equations and all its images under the maps satisfy all printed inequalities; one facet of
    every class is printed.  [R] are the rows of the printed inequalities. *)
Theorem C45_reduced : forall t order n (V E F : list vec) names maps fuel out,
  t <> INT16 -> sort_order order -> rows_representable t V -> dims (S n) V -> homogenised (S n) V -> symmetries n V maps -> maps_normalise t n E maps ->
  good_names names -> (names = [] \/ length names = n) ->
  m_extract_equations (arith t) V = Ok E -> m_fme (arith t) order V = Ok F -> Forall negatable_row E -> Forall negatable_row F ->
  m_facet_call t order fuel V names maps = Some (out, Ok tt) ->
  exists equations Pe inequalities Pf (R : list vec),
    out = facet_text equations inequalities (match Pe with [] => true | _ => false end) (nonempty maps) /\
    written (denotes names n Equation) equations Pe /\ written (denotes names n Inequality) inequalities Pf /\ represents_all Inequality n Pf R /\
    (forall p : list Q, length p = n ->
      (hull n (points_of V) (rays_of V) p <-> (forall c, In c Pe -> satisfies c p) /\ forall q c, moved maps p q -> In c Pf -> satisfies c q)) /\
    NoDup R /\ (forall r, In r R -> In r F) /\ (forall f, In f F -> exists r, In r R /\ carried V maps f r /\ forall x, In x R -> carried V maps f x -> x = r).
Proof.
  intros t order n V E F names maps fuel out Ht Ho HR HV HH Hsym Hnorm HN HNl HE HF BE BF Hcall.
  destruct (equations_printable t n V E names Ht HR HV HH HNl HE BE) as [DE PE]. destruct (facets_printable t order n V F names Ht Ho HR HV HH HNl HF BF) as [DF PF].
  destruct (matrix_denotes t Equation names n E HN PE DE HNl) as (equations & Pe & E1 & W1 & R1).
  destruct (homogenised_pos (S n) V HV HH) as (Hn & Hlen & Hnz). assert (X := result_equations t (S n) V Ht HR HV E Hlen Hn HE).
  assert (EF := result_fme t order (S n) V Ht Ho HR HV F Hnz HF).
  assert (HFx : m_fme (arith EXACT) order V = Ok F).
  { assert (O := outcome_exact _ _ (FmeTheorems.fme_outcome EXACT order (S n) V ltac:(discriminate) Ho (representable_exact V) HV Hnz)). rewrite EF. exact O. }
  unfold m_facet_call in Hcall. change (num (arith t)) with Z in *. rewrite HE in Hcall. destruct (m_normalize_maps t E maps) as [reduced| |] eqn:EM; try discriminate Hcall. rewrite HF in Hcall. cbn [bind] in Hcall.
  assert (HL := normalised_like t n V maps E reduced (eq_sym X) HV Hsym Hnorm EM).
  assert (RF : rows_representable t F) by (apply Forall_forall; intros r Hr; apply Forall_forall; intros z Hz; apply int_representable; auto; assert (K := negatable_int r (proj1 (Forall_forall _ _) BF r Hr)); unfold int_row in K; rewrite Forall_forall in K; auto).
  destruct (m_classes_of (arith t) fuel Facet_tag reduced F) as [[R|]| |] eqn:EC; cbn [bind] in Hcall.
  2: { exfalso. destruct E; [discriminate Hcall|]. unfold relation_sign in E1. change (num (arith t)) with Z in *. rewrite E1 in Hcall. discriminate Hcall. }
  2, 3: (exfalso; destruct E; [discriminate Hcall|]; unfold relation_sign in E1; change (num (arith t)) with Z in *; rewrite E1 in Hcall; discriminate Hcall).
  destruct (selected_rows t order n V F R maps reduced fuel Ht Ho HV HH HL HFx RF EC) as (S1 & S2 & S3 & S4).
  assert (DR : dims (S n) R) by (apply Forall_forall; intros r Hr; apply (dims_in (S n) F); auto).
  assert (PR : Forall (printable names) R) by (apply Forall_forall; intros r Hr; rewrite Forall_forall in PF; auto).
  destruct (matrix_denotes t Inequality names n R HN PR DR HNl) as (inequalities & Pf & E2 & W2 & R2).
  assert (HA := likes_acting n V maps reduced HV HH HL). assert (Hex := RotationTheorems.hom_ex (S n) V HH).
  assert (FF : forall f, In f F -> facet (S n) V f /\ nform (S n) V f) by (intros f Hf; rewrite EF in Hf; apply (fme_iff (S n) V order HV Ho Hex) in Hf; tauto).
  exists equations, Pe, inequalities, Pf, R. split; [|split; [exact W1|split; [exact W2|split; [exact R2|split; [|split; [exact S2|split; [exact S1|]]]]]]].
  - assert (EP : E = [] <-> Pe = []) by (inversion R1; subst; split; intros; congruence). unfold m_print_inequalities in Hcall. unfold relation_sign in E1, E2. rewrite E2 in Hcall.
    destruct E as [|e0 E']; destruct Pe as [|c0 Pe']; try (exfalso; destruct EP as [EP1 EP2]; discriminate (EP1 eq_refl) || discriminate (EP2 eq_refl)).
    + cbn [say andthen fst snd app] in Hcall. unfold facet_text, end_line in *. inversion Hcall. rewrite <- ?app_assoc. reflexivity.
    + change (num (arith t)) with Z in *. rewrite E1 in Hcall. cbn [say andthen fst snd app] in Hcall. unfold facet_text, end_line in *. inversion Hcall. cbn [app]. rewrite <- ?app_assoc. cbn [app]. rewrite <- ?app_assoc. reflexivity.
  - intros p Hp. assert (V3 : forall r, In r R -> length r = S n /\ valid V r) by (intros r Hr; split; [apply (dims_in (S n) R); auto|apply (FF r (S1 r Hr))]).
    rewrite (symmetric_description n V maps reduced HV HH HL order F R Ho HFx S3 V3 p Hp).
    unfold eqs. rewrite <- X. rewrite (represents_satisfied Equation n Pe E p R1 Hp). apply and_iff_compat_l. split.
    + intros G q c Hq. assert (Hlq : length q = n) by (apply (moved_length n maps p q (fun m Hm => proj1 (symmetries_onto n V maps m Hsym Hm)) Hq); auto). revert c. apply (represents_satisfied Inequality n Pf R q R2 Hlq). auto.
    + intros G q r Hq. assert (Hlq : length q = n) by (apply (moved_length n maps p q (fun m Hm => proj1 (symmetries_onto n V maps m Hsym Hm)) Hq); auto). revert r. apply (represents_satisfied Inequality n Pf R q R2 Hlq). auto.
  - intros f Hf. destruct (FF f Hf) as (Ff & Nf). destruct (S3 f Hf) as (r & Hr & Or). exists r. split; auto. split; [apply (orbit_carried n V maps reduced HV HH HL f r Ff Nf); auto|].
    intros x Hx Cx. destruct (FF x (S1 x Hx)) as (Fx & Nx). destruct (FF r (S1 r Hr)) as (Fr & Nr). apply S4; auto. apply (orbit_carried n V maps reduced HV HH HL r x Fr Nr).
    apply (orbit_trans EXACT Facet_tag reduced r f); [apply (orb_back (S n) V reduced order HV Ho HA f); auto|]. apply (carried_orbit n V maps reduced HV HH HL f x); auto.
Qed.
Print Assumptions C45_reduced.

(** With unbounded integers it ends, if the maps can be normalised. *)
Theorem C45_reduced_ends : forall order n (V E F : list vec) names maps reduced,
  sort_order order -> dims (S n) V -> homogenised (S n) V -> symmetries n V maps -> maps_normalise EXACT n E maps ->
  good_names names -> (names = [] \/ length names = n) ->
  m_extract_equations (arith EXACT) V = Ok E -> m_fme (arith EXACT) order V = Ok F -> Forall negatable_row E -> Forall negatable_row F ->
  m_normalize_maps EXACT E maps = Ok reduced ->
  exists enough, forall fuel, (enough <= fuel)%nat -> exists out, m_facet_call EXACT order fuel V names maps = Some (out, Ok tt).
Proof.
  intros order n V E F names maps reduced Ho HV HH Hsym Hnorm HN HNl HE HF BE BF EM. assert (Ht : EXACT <> INT16) by discriminate. assert (HR := representable_exact V).
  destruct (equations_printable EXACT n V E names Ht HR HV HH HNl HE BE) as [DE PE]. destruct (facets_printable EXACT order n V F names Ht Ho HR HV HH HNl HF BF) as [DF PF].
  destruct (matrix_denotes EXACT Equation names n E HN PE DE HNl) as (equations & Pe & E1 & W1 & R1).
  destruct (homogenised_pos (S n) V HV HH) as (Hn & Hlen & Hnz). assert (X := result_equations EXACT (S n) V Ht HR HV E Hlen Hn HE).
  assert (EF := result_fme EXACT order (S n) V Ht Ho HR HV F Hnz HF). assert (Hex := RotationTheorems.hom_ex (S n) V HH).
  assert (HL := normalised_like EXACT n V maps E reduced (eq_sym X) HV Hsym Hnorm EM). assert (HA := likes_acting n V maps reduced HV HH HL).
  assert (FF : forall f, In f F -> facet (S n) V f /\ nform (S n) V f) by (intros f Hf; rewrite EF in Hf; apply (fme_iff (S n) V order HV Ho Hex) in Hf; tauto).
  exists (length (all_rows order (S n) V)). intros fuel Hfuel.
  assert (EC : exists R : list vec, m_classes_of (arith EXACT) fuel Facet_tag reduced F = Ok (Some R)).
  { apply (C27_returns EXACT Facet_tag reduced F (all_rows order (S n) V)); auto.
    - intros r x Hr Ox. destruct (FF r Hr) as (Fr & Nr). apply (orb_rows (S n) V reduced order HV Ho HA r); auto.
    - intros r x m Hr Ox Hm. destruct (FF r Hr) as (Fr & Nr). apply (orb_injective (S n) V reduced HV HA r Fr Nr m Hm). auto. }
  destruct EC as (R & EC). destruct (selected_rows EXACT order n V F R maps reduced fuel Ht Ho HV HH HL HF (representable_exact F) EC) as (S1 & _).
  assert (DR : dims (S n) R) by (apply Forall_forall; intros r Hr; apply (dims_in (S n) F); auto).
  assert (PR : Forall (printable names) R) by (apply Forall_forall; intros r Hr; rewrite Forall_forall in PF; auto).
  destruct (matrix_denotes EXACT Inequality names n R HN PR DR HNl) as (inequalities & Pf & E2 & W2 & R2).
  unfold m_facet_call. change (num (arith EXACT)) with Z in *. rewrite HE. rewrite EM. rewrite HF. cbn [bind]. rewrite EC. unfold m_print_inequalities. unfold relation_sign in E1, E2. rewrite E2.
  destruct E as [|e0 E']; cbn [say andthen fst snd]; [eexists; reflexivity|]. rewrite E1. cbn [say andthen fst snd]. eexists. reflexivity.
Qed.
Print Assumptions C45_reduced_ends.

(** *** Examples: the unit square and a triangle in the plane x + y + z = 1, with the exchange of the first two coordinates *)
Example C45_reduced_example :
  dims 3 square /\ homogenised 3 square /\ symmetries 2 square [exchange2] /\ maps_normalise INT32 2 [] [exchange2] /\
  m_extract_equations (arith INT32) square = Ok [] /\ (exists F : list vec, m_fme (arith INT32) sorted_order square = Ok F /\ Forall negatable_row F) /\
  m_facet_call INT32 sorted_order 100 square [lit "x"; lit "y"] [exchange2] =
    Some (lit "Reduced Inequalities:" ++ newline :: lit "-y <= 0" ++ newline :: lit "x <= 1" ++ [newline], Ok tt).
Proof.
  split; [solve_rows|]. split; [split; [intros v Hv; cbn in Hv; intuition (subst; cbn; lia)|exists [1; 0; 1]; split; [cbn; auto|cbn; lia]]|]. split.
  { intros m [<-|[]]. split; [split; [reflexivity|repeat constructor]|]. split; [reflexivity|]. exists [[0; 0; 1]; [0; 1; 1]; [1; 0; 1]; [1; 1; 1]]. split.
    - repeat constructor; exists 1, 1; (split; [lia|split; [lia|reflexivity]]).
    - apply perm_skip, perm_swap. }
  split; [split; [split; [constructor|intros i Hi; cbn in Hi; lia]|split; [left; reflexivity|repeat constructor]]|].
  split; [vm_compute; reflexivity|]. split; [eexists; split; [vm_compute; reflexivity|repeat constructor; lia]|]. vm_compute. reflexivity.
Qed.
Example C45_reduced_equations_example :
  dims 4 simplex3 /\ homogenised 4 simplex3 /\ symmetries 3 simplex3 [exchange] /\ maps_normalise INT32 3 [[1; 1; 1; -1]] [exchange] /\
  m_extract_equations (arith INT32) simplex3 = Ok [[1; 1; 1; -1]] /\ (exists F : list vec, m_fme (arith INT32) sorted_order simplex3 = Ok F /\ Forall negatable_row F) /\
  m_facet_call INT32 sorted_order 100 simplex3 [lit "x"; lit "y"; lit "z"] [exchange] =
    Some (lit "Equations:" ++ newline :: lit "x +y +z = 1" ++ newline :: newline :: lit "Reduced Inequalities:" ++ newline :: lit "y +z <= 1" ++ newline :: lit "-z <= 0" ++ [newline], Ok tt).
Proof.
  split; [solve_rows|]. split; [split; [intros v Hv; cbn in Hv; intuition (subst; cbn; lia)|exists [1; 0; 0; 1]; split; [cbn; auto|cbn; lia]]|]. split.
  { intros m [<-|[]]. split; [split; [reflexivity|repeat constructor]|]. split; [reflexivity|]. exists [[0; 1; 0; 1]; [1; 0; 0; 1]; [0; 0; 1; 1]]. split.
    - repeat constructor; exists 1, 1; (split; [lia|split; [lia|reflexivity]]).
    - apply perm_swap. }
  split.
  { split; [|split; [right; discriminate|repeat constructor]]. split; [repeat constructor|]. intros [|i] Hi; cbn [length] in Hi; [|lia]. exists 0%nat. cbn [nth]. split; [|split; [reflexivity|]].
    - split; [cbn; lia|]. split; [discriminate|]. intros c Hc. lia.
    - intros [|j] Hj Hne; cbn [length] in Hj; lia. }
  split; [vm_compute; reflexivity|]. split; [eexists; split; [vm_compute; reflexivity|repeat constructor; lia]|]. vm_compute. reflexivity.
Qed.

(** ** Vertices *)
(** The maps permute the inequalities (up to positive factors) and do not change the homogenising coordinate. *)
Definition system_symmetries (n : nat) (A : list vec) (maps : list lmap) : Prop := forall m, In m maps ->
  map_in (S n) m /\ nth n m [] = [(n, 1)] /\ permutes (fun a b => exists j k, 0 < j /\ 0 < k /\ forall x, length x = S n -> j * dot a (substitute m x) = k * dot b x) A.
(** [moved maps p q] (PropertiesAd): [q] is reached from the point [p] by applying maps again and again; [turned maps d e] (VertexImages): the same for directions. *)

Lemma list_choice {X Y} (P : X -> Y -> Prop) (l : list X) : (forall x, In x l -> exists y, P x y) -> exists l', Forall2 P l l'.
Proof.
  induction l as [|x l IH]; intros H; [exists []; constructor|]. destruct (H x (or_introl eq_refl)) as (y & Hy). destruct IH as (l' & Hl'); [intros z Hz; apply H; right; auto|]. exists (y :: l'). constructor; auto.
Qed.
Lemma printed_generators t n (out : list vec) reduced : dims (S n) out -> homogeneous n out -> Forall printable_generator out ->
  exists vertices P rays R, m_print_vertices t out reduced = (vertex_text vertices rays (match P with [] => true | _ => false end) (match R with [] => true | _ => false end) reduced, Ok tt) /\
    section_lines vertices P /\ section_lines rays R /\
    Forall2 (point_stands n) (map coordinates_of P) (filter is_vertex out) /\ Forall2 (direction_stands n) (map coordinates_of R) (filter (fun r => negb (is_vertex r)) out).
Proof.
  intros DO HomO PO. set (conv := filter is_vertex out). set (cone := filter (fun r => negb (is_vertex r)) out).
  destruct (vertex_lines_ok t conv) as (vertices & P & E1 & S1 & R1 & _ & HP).
  { apply Forall_forall. intros r Hr. apply filter_In in Hr as [Hr _]. rewrite Forall_forall in PO. auto. }
  { apply Forall_forall. intros r Hr. apply filter_In in Hr as [_ Hr]. auto. }
  destruct (ray_lines_ok t cone) as (rays & R & E2 & S2 & R2 & _ & HRw).
  { apply Forall_forall. intros r Hr. apply filter_In in Hr as [Hr _]. rewrite Forall_forall in PO. auto. }
  { apply Forall_forall. intros r Hr. apply filter_In in Hr as [_ Hr]. apply negb_true_iff; auto. }
  assert (Lo : forall r, In r out -> length r = S n) by (intros r; apply (dims_in (S n) out); auto).
  exists vertices, P, rays, R. split; [|split; [exact S1|split; [exact S2|split]]].
  - unfold m_print_vertices. rewrite split_ok by auto. cbn [calc m_reduced app]. fold conv cone. rewrite E1, E2. clear - R1 R2.
    destruct conv as [|c0 conv']; destruct P as [|p0 P']; try (inversion R1; fail); destruct cone as [|k0 cone']; destruct R as [|r0 R']; try (inversion R2; fail); destruct reduced; cbn [say andthen fst snd app m_reduced]; unfold vertex_text, end_line;
      rewrite <- ?app_assoc; cbn [app]; rewrite ?app_nil_r; reflexivity.
  - assert (CV := vertices_clear P conv HP R1). assert (Lc : forall r, In r conv -> length r = S n) by (intros r Hr; apply Lo; apply filter_In in Hr; apply Hr). clear - CV Lc.
    induction CV as [|q r L rows (xs & l & E & Hl & HX) _ IH]; constructor; [|apply IH; intros r' Hr'; apply Lc; right; auto]. exists xs, l. split; auto. split; auto.
    specialize (Lc r (or_introl eq_refl)). rewrite E, app_length in Lc. cbn in Lc. lia.
  - assert (CR : Forall2 (fun q row => exists xs, row = xs ++ [0] /\ clears 1 q xs) (map coordinates_of R) cone).
    { rewrite HRw. apply rays_clear. apply Forall_forall. intros r Hr. apply filter_In in Hr. destruct Hr as [Hr Hz]. destruct (row_split n r (Lo r Hr)) as (xs & b & -> & _ & _ & Hb & _). exists xs.
      unfold is_vertex in Hz. rewrite last_last, negb_involutive in Hz. apply Z.eqb_eq in Hz. subst b. reflexivity. }
    assert (Lc : forall r, In r cone -> length r = S n) by (intros r Hr; apply Lo; apply filter_In in Hr; apply Hr). clear - CR Lc.
    induction CR as [|q r L rows (xs & E & HX) _ IH]; constructor; [|apply IH; intros r' Hr'; apply Lc; right; auto]. exists xs, 1. split; auto.
    specialize (Lc r (or_introl eq_refl)). rewrite E, app_length in Lc. cbn in Lc. split; [lia|]. split; [lia|auto].
Qed.

(** The points and directions of the rows. *)
Lemma rows_stand n (F : list vec) : homogeneous n F ->
  (forall v, In v (points_of F) -> exists r, In r F /\ point_stands n v r) /\ (forall v, In v (rays_of F) -> exists r, In r F /\ direction_stands n v r) /\
  (forall v x r, In r F -> point_stands n v x -> prop_rows x r -> exists w, In w (points_of F) /\ point_stands n w r) /\
  (forall v x r, In r F -> direction_stands n v x -> prop_rows x r -> exists w, In w (rays_of F) /\ direction_stands n w r).
Proof.
  intros HF. unfold homogeneous in HF. rewrite Forall_forall in HF.
  assert (K1 : forall xs l, length xs = n -> 0 < l -> point_stands n (point_of_row (xs ++ [l])) (xs ++ [l])).
  { intros xs l Hx Hl. exists xs, l. split; auto. split; auto. split; auto. unfold point_of_row. rewrite last_last, removelast_last. apply over. lia. }
  assert (K2 : forall xs, length xs = n -> direction_stands n (ray_of_row (xs ++ [0])) (xs ++ [0])).
  { intros xs Hx. exists xs, 1. split; auto. split; auto. split; [lia|]. unfold ray_of_row. rewrite removelast_last. clear. induction xs as [|x xs IH]; cbn [map]; constructor; auto. change (inject_Z 1) with 1%Q. ring. }
  split; [|split; [|split]].
  - intros v Hv. apply in_map_iff in Hv. destruct Hv as (r & <- & Hr). apply filter_In in Hr. destruct Hr as (Hr & Hp). exists r. split; auto. destruct (HF r Hr) as (Hl & Hpos). destruct (row_split n r Hl) as (xs & b & -> & Hx & Hb & _).
    unfold is_point in Hp. rewrite last_last in Hp. apply negb_true_iff, Z.eqb_neq in Hp. apply K1; auto. lia.
  - intros v Hv. apply in_map_iff in Hv. destruct Hv as (r & <- & Hr). apply filter_In in Hr. destruct Hr as (Hr & Hp). exists r. split; auto. destruct (HF r Hr) as (Hl & Hpos). destruct (row_split n r Hl) as (xs & b & -> & Hx & Hb & _).
    unfold is_point in Hp. rewrite last_last, negb_involutive in Hp. apply Z.eqb_eq in Hp. subst b. apply K2; auto.
  - intros v x r Hr (xs & l & -> & Hx & Hl & _) Hp. destruct (row_split n r (proj1 (HF r Hr))) as (ys & b & -> & Hy & _). destruct (prop_nth _ _ Hp) as (a & c & Ha & Hc & E).
    specialize (E n). rewrite !(nth_snoc n), Nat.eqb_refl in E by auto. assert (Hb : 0 < b) by nia. exists (point_of_row (ys ++ [b])). split; auto. apply in_map. apply filter_In. split; auto. unfold is_point. rewrite last_last. apply negb_true_iff, Z.eqb_neq. lia.
  - intros v x r Hr (xs & l & -> & Hx & Hl & _) Hp. destruct (row_split n r (proj1 (HF r Hr))) as (ys & b & -> & Hy & _). destruct (prop_nth _ _ Hp) as (a & c & Ha & Hc & E).
    specialize (E n). rewrite !(nth_snoc n), Nat.eqb_refl in E by auto. assert (Hb : b = 0) by nia. subst b. exists (ray_of_row (ys ++ [0])). split; auto. apply in_map. apply filter_In. split; auto. unfold is_point. rewrite last_last. reflexivity.
Qed.

(** What the lists of the points and directions of some rows contain. *)
Lemma listing_sound t order n (A F rows : list vec) maps Vs Ds : t <> INT16 -> sort_order order -> rows_representable t A -> dims (S n) A -> (0 < n)%nat -> no_line (S n) A -> In (unit_vec (S n) n (-1)) A -> system_symmetries n A maps ->
  m_fme (arith t) order A = Ok F -> Forall negatable_row F -> incl rows F -> NoDup rows -> (forall r x, In r rows -> In x rows -> orbit EXACT Vertex_tag maps r x -> x = r) ->
  Forall2 (point_stands n) Vs (filter is_vertex rows) -> Forall2 (direction_stands n) Ds (filter (fun r => negb (is_vertex r)) rows) ->
  (forall q, In q Vs -> corner n A q) /\ listed_once (fun p q => exists p', moved maps p p' /\ same_point p' q) Vs /\
  (forall d, In d Ds -> extreme_direction n A d) /\ listed_once (fun d e => exists d', turned maps d d' /\ multiple d' e) Ds.
Proof.
  intros Ht Ho HR HA Hn HL HU Hsym HF BF S1 S2 S4 CV CR.
  destruct (generator_rows t order n A F) as (DF & HomF & PF); auto.
  destruct (C41_extreme_rays t order (S n) A F) as (X1 & X2 & _); auto; [replace (S n - 1)%nat with n by lia; auto|].
  destruct (rows_stand n F HomF) as (SP & SR & SP' & SR').
  assert (FF : forall x, In x F <-> extreme_ray (S n) A x /\ primitive x).
  { intros x. split; [apply X1|]. intros (He & Hp). destruct (X2 x He) as (f & k & s & Hf & Hk & Hs & E). destruct (X1 f Hf) as (Ef & Pf).
    rewrite (proportional_primitive (S n) x f k s); auto; [apply He|apply Ef]. }
  assert (HX : forall x, extreme_ray (S n) A x -> exists f, In f F /\ prop_rows x f) by (intros x He; destruct (X2 x He) as (f & k & s & Hf & Hk & Hs & E); exists f; split; auto; exists k, s; auto).
  assert (Hmaps : forall m, In m maps -> map_in (S n) m /\ nth n m [] = [(n, 1)]) by (intros m Hm; destruct (Hsym m Hm) as (H1 & H2 & _); auto).
  assert (Hto : forall m a, In m maps -> In a A -> exists b j k, In b A /\ 0 < j /\ 0 < k /\ forall x, length x = S n -> j * dot a (substitute m x) = k * dot b x).
  { intros m a Hm Ha. destruct (Hsym m Hm) as (_ & _ & W & HW & HP). destruct (forall2_in_l _ _ _ a HW Ha) as (b & Hb & j & k & Hj & Hk & E). exists b, j, k. split; [apply (Permutation_in _ HP); auto|auto]. }
  assert (Hfrom : forall m b, In m maps -> In b A -> exists a j k, In a A /\ 0 < j /\ 0 < k /\ forall x, length x = S n -> j * dot a (substitute m x) = k * dot b x).
  { intros m b Hm Hb. destruct (Hsym m Hm) as (_ & _ & W & HW & HP). destruct (forall2_in_r _ _ _ b HW (Permutation_in _ (Permutation_sym HP) Hb)) as (a & Ha & j & k & Hj & Hk & E). exists a, j, k. auto. }
  assert (DO : dims (S n) rows) by (apply Forall_forall; intros x Hx; apply (dims_in (S n) F); auto).
  assert (NV : NoDup (filter is_vertex rows)) by (apply NoDup_filter; auto). assert (NR : NoDup (filter (fun r => negb (is_vertex r)) rows)) by (apply NoDup_filter; auto).
  assert (IV : incl (filter is_vertex rows) rows) by (intros x Hx; apply filter_In in Hx; apply Hx). assert (IR : incl (filter (fun r => negb (is_vertex r)) rows) rows) by (intros x Hx; apply filter_In in Hx; apply Hx).
  assert (KV : forall p x r, point_stands n p x -> prop_rows x r -> In r rows -> In r (filter is_vertex rows)).
  { intros p x r (xs & l & -> & Hx & Hl & _) Hp Hr. apply filter_In. split; auto. destruct (row_split n r (dims_in (S n) rows r DO Hr)) as (ys & b & -> & Hy & _). destruct (prop_nth _ _ Hp) as (a & c & Ha & Hc & E).
    specialize (E n). rewrite !(nth_snoc n), Nat.eqb_refl in E by auto. unfold is_vertex. rewrite last_last. apply negb_true_iff, Z.eqb_neq. nia. }
  assert (KR : forall p x r, direction_stands n p x -> prop_rows x r -> In r rows -> In r (filter (fun r => negb (is_vertex r)) rows)).
  { intros p x r (xs & l & -> & Hx & Hl & _) Hp Hr. apply filter_In. split; auto. destruct (row_split n r (dims_in (S n) rows r DO Hr)) as (ys & b & -> & Hy & _). destruct (prop_nth _ _ Hp) as (a & c & Ha & Hc & E).
    specialize (E n). rewrite !(nth_snoc n), Nat.eqb_refl in E by auto. unfold is_vertex. rewrite last_last, negb_involutive. apply Z.eqb_eq. nia. }
  assert (CC : forall p x, point_stands n p x -> (corner n A p <-> extreme_ray (S n) A x)) by (intros p x (xs & l & -> & Hx & Hl & HC); apply corner_extreme; auto).
  assert (CD : forall d x, direction_stands n d x -> (extreme_direction n A d <-> extreme_ray (S n) A x)) by (intros p x (xs & l & -> & Hx & Hl & HC); apply (direction_extreme n A p xs l); auto).
  assert (PS : forall p, length p = n -> exists x, point_stands n p x).
  { intros p Hp. destruct (clear_point p) as (l & xs & Hl & HC). exists (xs ++ [l]), xs, l. split; auto. split; [rewrite <- (forall2_length _ _ _ HC); auto|auto]. }
  assert (DS : forall p, length p = n -> exists x, direction_stands n p x).
  { intros p Hp. destruct (clear_point p) as (l & xs & Hl & HC). exists (xs ++ [0]), xs, l. split; auto. split; [rewrite <- (forall2_length _ _ _ HC); auto|auto]. }
  assert (VI := image_extreme n maps Hmaps A F rows HA HL Hto Hfrom FF S1 (point_stands n) (moved maps) (point_from n maps Hmaps) Vs _ CV IV).
  assert (RI := image_extreme n maps Hmaps A F rows HA HL Hto Hfrom FF S1 (direction_stands n) (turned maps) (direction_from n maps Hmaps) Ds _ CR IR).
  split; [|split; [|split]].
  - intros q Hq. destruct (VI q q Hq (moved_none maps q)) as (x & Sx & Ex). apply (CC q x Sx). auto.
  - intros i j Hi Hj (p' & H1 & H2). apply (listed_apart n maps Hmaps A F rows HA HL Hto Hfrom FF S1 S4 (point_stands n) (moved maps) same_point (point_from n maps Hmaps) (point_same n) Vs _ CV IV NV i j p'); auto.
  - intros q Hq. destruct (RI q q Hq (turned_none maps q)) as (x & Sx & Ex). apply (CD q x Sx). auto.
  - intros i j Hi Hj (p' & H1 & H2). apply (listed_apart n maps Hmaps A F rows HA HL Hto Hfrom FF S1 S4 (direction_stands n) (turned maps) multiple (direction_from n maps Hmaps) (direction_same n) Ds _ CR IR NR i j p'); auto.
Qed.
Lemma listing_complete t order n (A F rows : list vec) maps Vs Ds : t <> INT16 -> sort_order order -> rows_representable t A -> dims (S n) A -> (0 < n)%nat -> no_line (S n) A -> In (unit_vec (S n) n (-1)) A -> system_symmetries n A maps ->
  m_fme (arith t) order A = Ok F -> Forall negatable_row F -> incl rows F -> (forall f, In f F -> exists r, In r rows /\ orbit EXACT Vertex_tag maps f r) ->
  Forall2 (point_stands n) Vs (filter is_vertex rows) -> Forall2 (direction_stands n) Ds (filter (fun r => negb (is_vertex r)) rows) ->
  (forall p : list Q, length p = n -> (solves A p <-> exists points directions,
    (forall q, In q points -> exists q0, In q0 Vs /\ moved maps q0 q) /\ (forall d, In d directions -> exists d0, In d0 Ds /\ turned maps d0 d) /\ hull n points directions p)) /\
  (forall p, corner n A p -> exists q p', In q Vs /\ moved maps p p' /\ same_point p' q) /\
  (forall d, extreme_direction n A d -> exists e d', In e Ds /\ turned maps d d' /\ multiple d' e).
Proof.
  intros Ht Ho HR HA Hn HL HU Hsym HF BF S1 S3 CV CR.
  destruct (generator_rows t order n A F) as (DF & HomF & PF); auto.
  destruct (C41_extreme_rays t order (S n) A F) as (X1 & X2 & _); auto; [replace (S n - 1)%nat with n by lia; auto|].
  destruct (rows_stand n F HomF) as (SP & SR & SP' & SR').
  assert (FF : forall x, In x F <-> extreme_ray (S n) A x /\ primitive x).
  { intros x. split; [apply X1|]. intros (He & Hp). destruct (X2 x He) as (f & k & s & Hf & Hk & Hs & E). destruct (X1 f Hf) as (Ef & Pf).
    rewrite (proportional_primitive (S n) x f k s); auto; [apply He|apply Ef]. }
  assert (HX : forall x, extreme_ray (S n) A x -> exists f, In f F /\ prop_rows x f) by (intros x He; destruct (X2 x He) as (f & k & s & Hf & Hk & Hs & E); exists f; split; auto; exists k, s; auto).
  assert (Hmaps : forall m, In m maps -> map_in (S n) m /\ nth n m [] = [(n, 1)]) by (intros m Hm; destruct (Hsym m Hm) as (H1 & H2 & _); auto).
  assert (Hto : forall m a, In m maps -> In a A -> exists b j k, In b A /\ 0 < j /\ 0 < k /\ forall x, length x = S n -> j * dot a (substitute m x) = k * dot b x).
  { intros m a Hm Ha. destruct (Hsym m Hm) as (_ & _ & W & HW & HP). destruct (forall2_in_l _ _ _ a HW Ha) as (b & Hb & j & k & Hj & Hk & E). exists b, j, k. split; [apply (Permutation_in _ HP); auto|auto]. }
  assert (Hfrom : forall m b, In m maps -> In b A -> exists a j k, In a A /\ 0 < j /\ 0 < k /\ forall x, length x = S n -> j * dot a (substitute m x) = k * dot b x).
  { intros m b Hm Hb. destruct (Hsym m Hm) as (_ & _ & W & HW & HP). destruct (forall2_in_r _ _ _ b HW (Permutation_in _ (Permutation_sym HP) Hb)) as (a & Ha & j & k & Hj & Hk & E). exists a, j, k. auto. }
  assert (DO : dims (S n) rows) by (apply Forall_forall; intros x Hx; apply (dims_in (S n) F); auto).
  assert (IV : incl (filter is_vertex rows) rows) by (intros x Hx; apply filter_In in Hx; apply Hx). assert (IR : incl (filter (fun r => negb (is_vertex r)) rows) rows) by (intros x Hx; apply filter_In in Hx; apply Hx).
  assert (KV : forall p x r, point_stands n p x -> prop_rows x r -> In r rows -> In r (filter is_vertex rows)).
  { intros p x r (xs & l & -> & Hx & Hl & _) Hp Hr. apply filter_In. split; auto. destruct (row_split n r (dims_in (S n) rows r DO Hr)) as (ys & b & -> & Hy & _). destruct (prop_nth _ _ Hp) as (a & c & Ha & Hc & E).
    specialize (E n). rewrite !(nth_snoc n), Nat.eqb_refl in E by auto. unfold is_vertex. rewrite last_last. apply negb_true_iff, Z.eqb_neq. nia. }
  assert (KR : forall p x r, direction_stands n p x -> prop_rows x r -> In r rows -> In r (filter (fun r => negb (is_vertex r)) rows)).
  { intros p x r (xs & l & -> & Hx & Hl & _) Hp Hr. apply filter_In. split; auto. destruct (row_split n r (dims_in (S n) rows r DO Hr)) as (ys & b & -> & Hy & _). destruct (prop_nth _ _ Hp) as (a & c & Ha & Hc & E).
    specialize (E n). rewrite !(nth_snoc n), Nat.eqb_refl in E by auto. unfold is_vertex. rewrite last_last, negb_involutive. apply Z.eqb_eq. nia. }
  assert (CC : forall p x, point_stands n p x -> (corner n A p <-> extreme_ray (S n) A x)) by (intros p x (xs & l & -> & Hx & Hl & HC); apply corner_extreme; auto).
  assert (CD : forall d x, direction_stands n d x -> (extreme_direction n A d <-> extreme_ray (S n) A x)) by (intros p x (xs & l & -> & Hx & Hl & HC); apply (direction_extreme n A p xs l); auto).
  assert (PS : forall p, length p = n -> exists x, point_stands n p x).
  { intros p Hp. destruct (clear_point p) as (l & xs & Hl & HC). exists (xs ++ [l]), xs, l. split; auto. split; [rewrite <- (forall2_length _ _ _ HC); auto|auto]. }
  assert (DS : forall p, length p = n -> exists x, direction_stands n p x).
  { intros p Hp. destruct (clear_point p) as (l & xs & Hl & HC). exists (xs ++ [0]), xs, l. split; auto. split; [rewrite <- (forall2_length _ _ _ HC); auto|auto]. }
  assert (VR := reaches_listed n maps Hmaps A F rows FF S3 HX (point_stands n) (moved maps) same_point (point_to n maps Hmaps) (point_same n) Vs _ CV KV).
  assert (RR := reaches_listed n maps Hmaps A F rows FF S3 HX (direction_stands n) (turned maps) multiple (direction_to n maps Hmaps) (direction_same n) Ds _ CR KR).
  assert (VB := listed_reaches n maps Hmaps A F rows HA HL Hto Hfrom FF S1 S3 HX (point_stands n) (moved maps) same_point (point_to n maps Hmaps) (point_same n) Vs _ CV KV).
  assert (RB := listed_reaches n maps Hmaps A F rows HA HL Hto Hfrom FF S1 S3 HX (direction_stands n) (turned maps) multiple (direction_to n maps Hmaps) (direction_same n) Ds _ CR KR).
  assert (VI := image_extreme n maps Hmaps A F rows HA HL Hto Hfrom FF S1 (point_stands n) (moved maps) (point_from n maps Hmaps) Vs _ CV IV).
  assert (RI := image_extreme n maps Hmaps A F rows HA HL Hto Hfrom FF S1 (direction_stands n) (turned maps) (direction_from n maps Hmaps) Ds _ CR IR).
  split; [|split].
  - intros p Hp. destruct (clear_point p) as (l & xs & Hl & HC). assert (Hxs : length xs = n) by (rewrite <- (forall2_length _ _ _ HC); auto).
    assert (G0 : solves A p <-> hull n (points_of F) (rays_of F) p).
    { unfold solves. rewrite (solution_rows n A p xs l) by auto. rewrite (C41_generators t order (S n) A F) by (auto; try lia; replace (S n - 1)%nat with n by lia; auto).
      rewrite <- (hull_in_cone n F xs l p HomF Hxs Hl HC). split; [tauto|]. intros H. split; auto. rewrite app_length. cbn. lia. }
    rewrite G0. split.
    + intros H. destruct (list_choice (fun v w => (exists q0, In q0 Vs /\ moved maps q0 w) /\ same_point w v) (points_of F)) as (points & K1).
      { intros v Hv. destruct (SP v Hv) as (x & Hx & Sx). destruct (VB v x Sx (proj1 (X1 x Hx))) as (q & q' & H1 & H2 & H3). exists q'. split; eauto. }
      destruct (list_choice (fun v w => (exists q0, In q0 Ds /\ turned maps q0 w) /\ multiple w v) (rays_of F)) as (directions & K2).
      { intros v Hv. destruct (SR v Hv) as (x & Hx & Sx). destruct (RB v x Sx (proj1 (X1 x Hx))) as (q & q' & H1 & H2 & H3). exists q'. split; eauto. }
      exists points, directions. split; [|split].
      * intros q Hq. destruct (forall2_in_r _ _ _ q K1 Hq) as (v & _ & H1 & _). auto.
      * intros q Hq. destruct (forall2_in_r _ _ _ q K2 Hq) as (v & _ & H1 & _). auto.
      * revert H. apply hull_mono; apply Forall_forall; intros v Hv.
        -- destruct (forall2_in_l _ _ _ v K1 Hv) as (w & Hw & _ & E). exists w. split; auto. intros j _. symmetry. apply same_nth; auto.
        -- destruct (forall2_in_l _ _ _ v K2 Hv) as (w & Hw & _ & s & Hs & E). exists w, (/ s)%Q. split; auto. split; [apply Qlt_le_weak, Qinv_lt_0_compat; auto|]. intros j _. rewrite (E j). field. intros Z. rewrite Z in Hs. inversion Hs.
    + intros (points & directions & K1 & K2 & H). revert H. apply hull_mono; apply Forall_forall; intros v Hv.
      * destruct (K1 v Hv) as (q0 & Hq0 & Hm). destruct (VI q0 v Hq0 Hm) as (x & Sx & Ex). destruct (HX x Ex) as (f & Hf & Hp').
        destruct (SP' v x f Hf Sx Hp') as (w & Hw & Sw). exists w. split; auto. intros j _. apply same_nth. apply (point_same n v w x f); auto.
      * destruct (K2 v Hv) as (q0 & Hq0 & Hm). destruct (RI q0 v Hq0 Hm) as (x & Sx & Ex). destruct (HX x Ex) as (f & Hf & Hp').
        destruct (SR' v x f Hf Sx Hp') as (w & Hw & Sw). assert (M : multiple v w) by (apply (direction_same n v w x f); auto). destruct M as (s & Hs & E). exists w, s. split; auto. split; [apply Qlt_le_weak; auto|auto].
  - intros p Hp. destruct (PS p (proj1 Hp)) as (x & Sx). apply (VR p x Sx). apply (CC p x Sx). auto.
  - intros p Hp. destruct (DS p (proj1 Hp)) as (x & Sx). apply (RR p x Sx). apply (CD p x Sx). auto.
Qed.
(** The text printed: vertices and extreme directions of the solutions, one of every class of vertices (of directions, up to length) that the maps carry to each other; the images of what is
    printed generate exactly the set of the solutions. *)
Theorem C46_reduced : forall t order n (A F : list vec) maps fuel out,
  t <> INT16 -> sort_order order -> rows_representable t A -> dims (S n) A -> (0 < n)%nat -> no_line (S n) A -> In (unit_vec (S n) n (-1)) A -> system_symmetries n A maps ->
  m_fme (arith t) order A = Ok F -> Forall negatable_row F ->
  m_vertex_call t order fuel A maps = Some (out, Ok tt) ->
  exists vertices P rays R,
    out = vertex_text vertices rays (match P with [] => true | _ => false end) (match R with [] => true | _ => false end) (nonempty maps) /\
    section_lines vertices P /\ section_lines rays R /\
    (forall p : list Q, length p = n -> (solves A p <-> exists points directions,
      (forall q, In q points -> exists q0, In q0 (map coordinates_of P) /\ moved maps q0 q) /\ (forall d, In d directions -> exists d0, In d0 (map coordinates_of R) /\ turned maps d0 d) /\
      hull n points directions p)) /\
    (forall q, In q (map coordinates_of P) -> corner n A q) /\
    (forall p, corner n A p -> exists q p', In q (map coordinates_of P) /\ moved maps p p' /\ same_point p' q) /\
    listed_once (fun p q => exists p', moved maps p p' /\ same_point p' q) (map coordinates_of P) /\
    (forall d, In d (map coordinates_of R) -> extreme_direction n A d) /\
    (forall d, extreme_direction n A d -> exists e d', In e (map coordinates_of R) /\ turned maps d d' /\ multiple d' e) /\
    listed_once (fun d e => exists d', turned maps d d' /\ multiple d' e) (map coordinates_of R).
Proof.
  intros t order n A F maps fuel out Ht Ho HR HA Hn HL HU Hsym HF BF Hcall. destruct (generator_rows t order n A F) as (DF & HomF & PF); auto.
  destruct (C41_extreme_rays t order (S n) A F) as (X1 & X2 & _); auto; [replace (S n - 1)%nat with n by lia; auto|].
  destruct (rows_stand n F HomF) as (SP & SR & SP' & SR').
  assert (FF : forall x, In x F <-> extreme_ray (S n) A x /\ primitive x).
  { intros x. split; [apply X1|]. intros (He & Hp). destruct (X2 x He) as (f & k & s & Hf & Hk & Hs & E). destruct (X1 f Hf) as (Ef & Pf).
    rewrite (proportional_primitive (S n) x f k s); auto; [apply He|apply Ef]. }
  assert (HX : forall x, extreme_ray (S n) A x -> exists f, In f F /\ prop_rows x f) by (intros x He; destruct (X2 x He) as (f & k & s & Hf & Hk & Hs & E); exists f; split; auto; exists k, s; auto).
  assert (Hmaps : forall m, In m maps -> map_in (S n) m /\ nth n m [] = [(n, 1)]) by (intros m Hm; destruct (Hsym m Hm) as (H1 & H2 & _); auto).
  assert (Hto : forall m a, In m maps -> In a A -> exists b j k, In b A /\ 0 < j /\ 0 < k /\ forall x, length x = S n -> j * dot a (substitute m x) = k * dot b x).
  { intros m a Hm Ha. destruct (Hsym m Hm) as (_ & _ & W & HW & HP). destruct (forall2_in_l _ _ _ a HW Ha) as (b & Hb & j & k & Hj & Hk & E). exists b, j, k. split; [apply (Permutation_in _ HP); auto|auto]. }
  assert (Hfrom : forall m b, In m maps -> In b A -> exists a j k, In a A /\ 0 < j /\ 0 < k /\ forall x, length x = S n -> j * dot a (substitute m x) = k * dot b x).
  { intros m b Hm Hb. destruct (Hsym m Hm) as (_ & _ & W & HW & HP). destruct (forall2_in_r _ _ _ b HW (Permutation_in _ (Permutation_sym HP) Hb)) as (a & Ha & j & k & Hj & Hk & E). exists a, j, k. auto. }
  assert (RF : rows_representable t F) by (apply Forall_forall; intros r Hr; apply Forall_forall; intros z Hz; apply int_representable; auto; assert (K := negatable_int r (proj1 (Forall_forall _ _) BF r Hr)); unfold int_row in K; rewrite Forall_forall in K; auto).
  unfold m_vertex_call in Hcall. change (num (arith t)) with Z in *. rewrite HF in Hcall. cbn [bind] in Hcall.
  destruct (m_classes_of (arith t) fuel Vertex_tag maps F) as [[rows|]| |] eqn:EC; try discriminate Hcall.
  destruct (selected_rays (S n) A maps HA HL (fun m Hm => proj1 (Hmaps m Hm)) Hto Hfrom F FF t fuel rows Ht RF EC) as (S1 & S2 & S3 & S4).
  assert (DO : dims (S n) rows) by (apply Forall_forall; intros x Hx; apply (dims_in (S n) F); auto).
  assert (HomO : homogeneous n rows) by (apply Forall_forall; intros x Hx; unfold homogeneous in HomF; rewrite Forall_forall in HomF; apply HomF; auto).
  assert (PO : Forall printable_generator rows) by (apply Forall_forall; intros x Hx; rewrite Forall_forall in PF; apply PF; auto).
  destruct (printed_generators t n rows (nonempty maps) DO HomO PO) as (vertices & P & rays & R & EP & T1 & T2 & CV & CR). rewrite EP in Hcall.
  destruct (listing_sound t order n A F rows maps (map coordinates_of P) (map coordinates_of R)) as (L1 & L2 & L3 & L4); auto.
  destruct (listing_complete t order n A F rows maps (map coordinates_of P) (map coordinates_of R)) as (L5 & L6 & L7); auto.
  exists vertices, P, rays, R. split; [congruence|]. auto 12.
Qed.
Print Assumptions C46_reduced.

(** With unbounded integers it ends. *)
Theorem C46_reduced_ends : forall order n (A F : list vec) maps fuel,
  sort_order order -> dims (S n) A -> (0 < n)%nat -> no_line (S n) A -> In (unit_vec (S n) n (-1)) A -> system_symmetries n A maps ->
  m_fme (arith EXACT) order A = Ok F -> Forall negatable_row F -> (length F <= fuel)%nat ->
  exists out, m_vertex_call EXACT order fuel A maps = Some (out, Ok tt).
Proof.
  intros order n A F maps fuel Ho HA Hn HL HU Hsym HF BF Hfuel. assert (Ht : EXACT <> INT16) by discriminate. assert (HR := representable_exact A). destruct (generator_rows EXACT order n A F) as (DF & HomF & PF); auto.
  destruct (C41_extreme_rays EXACT order (S n) A F) as (X1 & X2 & _); auto; [replace (S n - 1)%nat with n by lia; auto|].
  assert (FF : forall x, In x F <-> extreme_ray (S n) A x /\ primitive x).
  { intros x. split; [apply X1|]. intros (He & Hp). destruct (X2 x He) as (f & k & s & Hf & Hk & Hs & E). destruct (X1 f Hf) as (Ef & Pf).
    rewrite (proportional_primitive (S n) x f k s); auto; [apply He|apply Ef]. }
  assert (Hmaps : forall m, In m maps -> map_in (S n) m) by (intros m Hm; apply (Hsym m Hm)).
  assert (Hto : forall m a, In m maps -> In a A -> exists b j k, In b A /\ 0 < j /\ 0 < k /\ forall x, length x = S n -> j * dot a (substitute m x) = k * dot b x).
  { intros m a Hm Ha. destruct (Hsym m Hm) as (_ & _ & W & HW & HP). destruct (forall2_in_l _ _ _ a HW Ha) as (b & Hb & j & k & Hj & Hk & E). exists b, j, k. split; [apply (Permutation_in _ HP); auto|auto]. }
  assert (Hfrom : forall m b, In m maps -> In b A -> exists a j k, In a A /\ 0 < j /\ 0 < k /\ forall x, length x = S n -> j * dot a (substitute m x) = k * dot b x).
  { intros m b Hm Hb. destruct (Hsym m Hm) as (_ & _ & W & HW & HP). destruct (forall2_in_r _ _ _ b HW (Permutation_in _ (Permutation_sym HP) Hb)) as (a & Ha & j & k & Hj & Hk & E). exists a, j, k. auto. }
  destruct (C27_returns EXACT Vertex_tag maps F F) with (fuel := fuel) as (rows & EC); auto.
  { intros r x Hr Ox. apply (orbit_rays (S n) A maps HA HL Hmaps Hto Hfrom F FF r); auto. }
  { intros r x m Hr Ox Hm. apply (rays_injective (S n) A maps HA HL Hmaps Hto Hfrom F FF r Hr m Hm). auto. }
  destruct (selected_rays (S n) A maps HA HL Hmaps Hto Hfrom F FF EXACT fuel rows Ht (representable_exact F) EC) as (S1 & _).
  assert (DO : dims (S n) rows) by (apply Forall_forall; intros x Hx; apply (dims_in (S n) F); auto).
  assert (HomO : homogeneous n rows) by (apply Forall_forall; intros x Hx; unfold homogeneous in HomF; rewrite Forall_forall in HomF; apply HomF; auto).
  assert (PO : Forall printable_generator rows) by (apply Forall_forall; intros x Hx; rewrite Forall_forall in PF; apply PF; auto).
  destruct (printed_generators EXACT n rows (nonempty maps) DO HomO PO) as (vertices & P & rays & R & EP & _).
  unfold m_vertex_call. change (num (arith EXACT)) with Z in *. rewrite HF. cbn [bind]. rewrite EC, EP. eexists. reflexivity.
Qed.
Print Assumptions C46_reduced_ends.

(** *** Example: the quadrant x >= 0, y >= 0 without the corner x + y < 1, and the exchange of the coordinates *)
Definition cut_quadrant : list vec := [[-1; 0; 0]; [0; -1; 0]; [-1; -1; 1]; [0; 0; -1]].
Example C46_reduced_example :
  dims 3 cut_quadrant /\ no_line 3 cut_quadrant /\ In (unit_vec 3 2 (-1)) cut_quadrant /\ system_symmetries 2 cut_quadrant [exchange2] /\
  (exists F : list vec, m_fme (arith INT32) sorted_order cut_quadrant = Ok F /\ Forall negatable_row F) /\
  m_vertex_call INT32 sorted_order 100 cut_quadrant [exchange2] =
    Some (lit "Reduced Vertices:" ++ newline :: lit "1 0 " ++ newline :: lit "Reduced Rays:" ++ newline :: lit "  1  0" ++ [newline], Ok tt).
Proof.
  split; [solve_rows|]. split; [|split; [cbn; tauto|split; [|split; [eexists; split; [vm_compute; reflexivity|repeat first [apply Forall_nil|apply Forall_cons|unfold negatable_row; lia]]|vm_compute; reflexivity]]]].
  - intros [|x [|y [|z [|]]]] Hx H; try discriminate. assert (H1 := H [-1; 0; 0] ltac:(cbn; tauto)). assert (H2 := H [0; -1; 0] ltac:(cbn; tauto)). assert (H3 := H [0; 0; -1] ltac:(cbn; tauto)). cbn [dot] in H1, H2, H3.
    replace x with 0 by lia. replace y with 0 by lia. replace z with 0 by lia. reflexivity.
  - intros m [<-|[]]. split; [split; [reflexivity|repeat constructor]|]. split; [reflexivity|]. exists [[0; -1; 0]; [-1; 0; 0]; [-1; -1; 1]; [0; 0; -1]]. split; [|apply perm_swap].
    repeat (apply Forall2_cons; [exists 1, 1; split; [lia|split; [lia|]]; intros [|x [|y [|z [|]]]] Hx; try discriminate; cbn [exchange2 substitute map image_value fold_right fst snd nth dot]; ring|]); constructor.
Qed.
