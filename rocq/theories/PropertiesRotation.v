(** * PropertiesRotation: rotating facets and adjacency decomposition (C08, C09, rotation part of C21). *)
From Coq Require Import List ZArith Arith Lia Permutation Bool.
From Verif Require Import Base Spec LinAlg ListUtil FmeRefine ArithModel MatrixModel FmeModel SafeIntModel IntTypes
  FmePure FmePrepare FmeCorrect FmeTheorems HeuristicTheorems Refine Samples ClassesModel RotationModel Adjacency NormalForm RotateRefine RotationTheorems ThreeFacets.
Import ListNotations.
Open Scope Z_scope.

(** [m_ridges (arith t) order V f] is [getRidges], [m_rotated (arith t) order V f] are the rows computed by [rotation]
    before they are grouped into classes, one per ridge and in the same order. *)

(** The generators on which the inequality is tight. *)
Definition on_facet (V : list vec) (f : vec) : list vec := filter (fun v => dot f v =? 0) V.

(** ** C08: rotation *)
Theorem C08_rotation : forall t order n (V : list vec) (f : vec) (Rs : list vec) (R : list vec),
  t <> INT16 -> sort_order order -> rows_representable t V -> dims n V ->
  facet n V f -> rows_representable t [f] -> nonzero n (on_facet V f) ->
  m_ridges (arith t) order V f = Ok Rs -> m_rotated (arith t) order V f = Ok R ->
  Forall2 (fun r g =>
    facet n (on_facet V f) r /\
    facet n V g /\ primitive g /\ valid V g /\
    (forall v, In v V -> dot f v = 0 -> dot r v = 0 -> dot g v = 0) /\
    (exists w, In w V /\ dot g w = 0 /\ dot f w < 0) /\
    ~ equivalent_ineq V f g) Rs R.
Proof. intros t order n V f Rs R Ht Ho HR HV Hf Hr. exact (rotation_result t order n V Ht Ho HR HV f Rs R Hf (Forall_inv Hr)). Qed.
Print Assumptions C08_rotation.

(** The loop stops after at most one round per generator, so running out of the model's fuel (undefined in the model) is
    excluded: unbounded integers always return, SafeInteger returns or throws. *)
Theorem C08_terminates : forall t order n (V : list vec) (f : vec),
  t <> INT16 -> sort_order order -> rows_representable t V -> dims n V ->
  facet n V f -> rows_representable t [f] -> nonzero n (on_facet V f) ->
  (t = EXACT -> exists Rs R, m_ridges (arith t) order V f = Ok Rs /\ m_rotated (arith t) order V f = Ok R) /\
  (t = SAFE -> m_rotated (arith t) order V f <> UB) /\
  (t <> SAFE -> m_rotated (arith t) order V f <> Throw).
Proof.
  intros t order n V f Ht Ho HR HV Hf Hr Hn. assert (O := rotated_outcome t order n V Ht Ho HR HV f Hf (Forall_inv Hr) Hn).
  split; [|split].
  - intros ->. exists (ridges_of order n V f), (rotated_of order n V f). split; [|apply outcome_exact; auto].
    assert (H := ridges_rel _ _ (arith EXACT) (sound_type EXACT Ht) order Ho n V V f f (rows_rel EXACT Ht V HR) HV (vec_rel EXACT Ht f (Forall_inv Hr)) (proj1 Hf) Hn).
    apply outcome_exact. apply (outcome_of EXACT Ht). exact H.
  - intros -> E. rewrite E in O. cbn [outcome] in O. intuition discriminate.
  - intros Hs E. rewrite E in O. cbn [outcome] in O. auto.
Qed.
Print Assumptions C08_terminates.

(** A facet without a non-zero generator has no ridges to be computed: the elimination of an empty matrix is undefined.
    This happens for a single point, whose only start row is the trivial one, in adjacency decomposition. *)
Theorem C08_single_point_undefined : exists V f,
  dims 2 V /\ homogenised 2 V /\ m_fme_heuristic (arith EXACT) sorted_order V = Ok [f] /\ m_rotated (arith EXACT) sorted_order V f = UB.
Proof.
  exists [[3; 1]], [0; -1]. split; [solve_rows|]. split.
  { split; [intros v Hv; cbn in Hv; intuition (subst; cbn; lia)|]. exists [3; 1]. split; [cbn; tauto|cbn; lia]. }
  split; reflexivity.
Qed.
Print Assumptions C08_single_point_undefined.

Example C08_example : facet 3 square [-1; 0; 0] /\ nonzero 3 (on_facet square [-1; 0; 0]) /\
  m_ridges (arith INT32) sorted_order square [-1; 0; 0] = Ok [[0; 1; -1]; [0; -1; 0]] /\
  m_rotated (arith INT32) sorted_order square [-1; 0; 0] = Ok [[0; 1; -1]; [0; -1; 0]].
Proof.
  assert (E : m_fme (arith INT32) sorted_order square = Ok [[-1; 0; 0]; [0; -1; 0]; [1; 0; -1]; [0; 1; -1]]) by reflexivity.
  split; [|split; [|split; reflexivity]].
  - apply (rows_facets INT32 sorted_order 3 square ltac:(discriminate) sorted_order_ok (square_rep _) square_dims _ [-1; 0; 0]) in E; [tauto| |cbn; auto].
    exists [1; 0; 1]. split; [cbn; auto|discriminate].
  - exists [0; 0; 1]. split; [cbn; auto|discriminate].
Qed.

(** ** C09: adjacency decomposition *)
(** The rows found when every found row is rotated around all its ridges are [explored t order V start]. *)

(** There are three different facets. *)
Definition three_different_facets (n : nat) (V : list vec) : Prop := exists a b c,
  facet n V a /\ facet n V b /\ facet n V c /\ ~ equivalent_ineq V a b /\ ~ equivalent_ineq V a c /\ ~ equivalent_ineq V b c.
(** No rotation of a found row fails. *)
Definition no_rotation_fails (t : int_type) (order : list nat -> list nat) (V start : list vec) : Prop :=
  forall f, explored t order V start f -> exists R : list vec, m_rotated (arith t) order V f = Ok R.

(** Started from the rows of the heuristic, every facet except the trivial one is found. *)
Theorem C09_finds_every_facet : forall t order n (V : list vec) (S : list vec) (g : vec),
  t <> INT16 -> sort_order order -> rows_representable t V -> dims n V -> homogenised n V -> three_different_facets n V ->
  m_fme_heuristic (arith t) order V = Ok S -> no_rotation_fails t order V S ->
  facet n V g -> ~ equivalent_ineq V g (unit_vec n (n - 1) (-1)) ->
  exists h, explored t order V S h /\ equivalent_ineq V h g.
Proof.
  intros t order n V S g Ht Ho HR HV Hh (a & b & c & Fa & Fb & Fc & Dab & Dac & Dbc) HS Hok Fg Dg.
  destruct (homogenised_pos n V HV Hh) as (_ & _ & Hnz). assert (Hex := hom_ex n V Hh).
  assert (ES := result_heuristic t order n V Ht Ho HR HV S Hnz HS).
  assert (HSr : rows_representable t S).
  { assert (H := fme_heuristic_rel _ _ (arith t) (sound_type t Ht) order Ho n V V (rows_rel t Ht V HR) HV Hnz). rewrite HS in H. cbn [rel] in H. apply rel_rows in H. tauto. }
  assert (Hi : incl S (all_rows order n V)) by (rewrite ES; intros f; apply heuristic_incl; auto).
  assert (Hne := heuristic_nonempty_result t order n V Ht Ho HR HV S Hh HS).
  destruct S as [|s0 S']; [contradiction|].
  destruct (heuristic_start n V order HV Ho Hex a b s0) as (f0 & H1 & H2); auto.
  { intros Hs. apply Dab. apply sim_equiv; auto. destruct Fa, Fb; congruence. }
  { rewrite <- ES. left; auto. }
  rewrite <- ES in H1.
  destruct (explored_complete t order n V Ht Ho HR HV Hh (s0 :: S') Hi HSr a b c Fa Fb Fc Dab Dac Dbc f0 g H1 H2 Hok Fg Dg) as (h & Eh & Sh & _).
  exists h. auto.
Qed.
Print Assumptions C09_finds_every_facet.

(** The rows found are those of double description, entry by entry; the trivial row may be found as well. *)
Theorem C09_same_rows_as_double_description : forall t order n (V : list vec) (S : list vec) (F : list vec) (g : vec),
  t <> INT16 -> sort_order order -> rows_representable t V -> dims n V -> homogenised n V -> three_different_facets n V ->
  m_fme_heuristic (arith t) order V = Ok S -> m_fme (arith t) order V = Ok F -> no_rotation_fails t order V S ->
  (In g F -> explored t order V S g) /\ (explored t order V S g -> In g F \/ g = unit_vec n (n - 1) (-1)).
Proof.
  intros t order n V S F g Ht Ho HR HV Hh (a & b & c & Fa & Fb & Fc & Dab & Dac & Dbc) HS HF Hok.
  destruct (homogenised_pos n V HV Hh) as (_ & _ & Hnz). assert (Hex := hom_ex n V Hh).
  assert (ES := result_heuristic t order n V Ht Ho HR HV S Hnz HS). rewrite (result_fme t order n V Ht Ho HR HV F Hnz HF).
  assert (HSr : rows_representable t S).
  { assert (H := fme_heuristic_rel _ _ (arith t) (sound_type t Ht) order Ho n V V (rows_rel t Ht V HR) HV Hnz). rewrite HS in H. cbn [rel] in H. apply rel_rows in H. tauto. }
  assert (Hi : incl S (all_rows order n V)) by (rewrite ES; intros f; apply heuristic_incl; auto).
  assert (Hne := heuristic_nonempty_result t order n V Ht Ho HR HV S Hh HS).
  destruct S as [|s0 S']; [contradiction|].
  destruct (heuristic_start n V order HV Ho Hex a b s0) as (f0 & H1 & H2); auto.
  { intros Hs. apply Dab. apply sim_equiv; auto. destruct Fa, Fb; congruence. }
  { rewrite <- ES. left; auto. }
  rewrite <- ES in H1.
  exact (explored_iff t order n V Ht Ho HR HV Hh (s0 :: S') Hi HSr a b c Fa Fb Fc Dab Dac Dbc f0 g H1 H2 Hok).
Qed.
Print Assumptions C09_same_rows_as_double_description.

(** From any single facet (in the normal form of the program): exactly the rows of double description are found. *)
Theorem C09_any_start : forall t order n (V : list vec) (F : list vec) (f0 : vec) (g : vec),
  t <> INT16 -> sort_order order -> rows_representable t V -> dims n V -> homogenised n V -> three_different_facets n V ->
  m_fme (arith t) order V = Ok F -> In f0 F -> no_rotation_fails t order V [f0] ->
  In g F -> explored t order V [f0] g.
Proof.
  intros t order n V F f0 g Ht Ho HR HV Hh (a & b & c & Fa & Fb & Fc & Dab & Dac & Dbc) HF Hf0 Hok.
  destruct (homogenised_pos n V HV Hh) as (_ & _ & Hnz).
  assert (HFr : rows_representable t F).
  { assert (H := fme_rel _ _ (arith t) (sound_type t Ht) order Ho n V V (rows_rel t Ht V HR) HV Hnz). rewrite HF in H. cbn [rel] in H. apply rel_rows in H. tauto. }
  assert (EF := result_fme t order n V Ht Ho HR HV F Hnz HF). rewrite EF. rewrite EF in Hf0.
  refine (proj1 (explored_iff t order n V Ht Ho HR HV Hh [f0] _ _ a b c Fa Fb Fc Dab Dac Dbc f0 g _ Hf0 Hok)).
  - intros x [<-|[]]. apply (fme_incl order n V f0 Hf0).
  - constructor; [|constructor]. apply (proj1 (Forall_forall _ _) HFr). rewrite EF. auto.
  - left; auto.
Qed.
Print Assumptions C09_any_start.

(** With unbounded integers no rotation fails. *)
Theorem C09_exact_never_fails : forall order n (V : list vec) (S : list vec),
  sort_order order -> dims n V -> homogenised n V -> three_different_facets n V ->
  m_fme_heuristic (arith EXACT) order V = Ok S -> no_rotation_fails EXACT order V S.
Proof.
  intros order n V S Ho HV Hh (a & b & c & Fa & Fb & Fc & Dab & Dac & Dbc) HS f Hf.
  destruct (homogenised_pos n V HV Hh) as (_ & _ & Hnz). assert (HR := representable_exact V). assert (Ht : EXACT <> INT16) by discriminate.
  assert (ES := result_heuristic EXACT order n V Ht Ho HR HV S Hnz HS).
  assert (Hi : incl S (all_rows order n V)) by (rewrite ES; intros x; apply heuristic_incl; auto; apply (hom_ex n V Hh)).
  exact (explored_ok EXACT order n V Ht Ho HR HV S Hi (representable_exact S) a b Fa Fb Dab f eq_refl Hf).
Qed.
Print Assumptions C09_exact_never_fails.

(** Polytopes that are at least two-dimensional (three affinely independent vertices) have three different facets; more
    generally every pointed cone of dimension three. *)
Theorem C09_polytopes : forall n (V : list vec) v1 v2 v3,
  dims n V -> (0 < n)%nat -> (forall v, In v V -> 0 < nth (n - 1) v 0) ->
  In v1 V -> In v2 V -> In v3 V -> independent n [v1; v2; v3] -> three_different_facets n V.
Proof.
  intros n V v1 v2 v3 HV Hn Hp H1 H2 H3 Hind.
  apply (three_facets n V sorted_order HV sorted_order_ok v1 v2 v3); auto.
  - intros x [<-|[<-|[<-|[]]]]; auto.
  - apply polytope_pointed; auto.
Qed.
Print Assumptions C09_polytopes.

Theorem C09_pointed : forall n (V : list vec) v1 v2 v3,
  dims n V -> In v1 V -> In v2 V -> In v3 V -> independent n [v1; v2; v3] ->
  (forall x, length x = n -> in_cone n V x -> in_cone n V (vscale (-1) x) -> x = vzero n) -> three_different_facets n V.
Proof.
  intros n V v1 v2 v3 HV H1 H2 H3 Hind Hp.
  apply (three_facets n V sorted_order HV sorted_order_ok v1 v2 v3); auto.
  intros x [<-|[<-|[<-|[]]]]; auto.
Qed.
Print Assumptions C09_pointed.

(** The code misses facets when there are only two: the segment with the vertices 1, 2, 3 (only x >= 1 is found, x <= 3 is
    not), although the inputs are valid and nothing fails. *)
Theorem C09_segment_misses_facet : exists V S g,
  dims 2 V /\ homogenised 2 V /\ m_fme_heuristic (arith EXACT) sorted_order V = Ok S /\ no_rotation_fails EXACT sorted_order V S /\
  facet 2 V g /\ ~ equivalent_ineq V g (unit_vec 2 1 (-1)) /\ ~ exists h, explored EXACT sorted_order V S h /\ equivalent_ineq V h g.
Proof.
  exists [[1; 1]; [2; 1]; [3; 1]], [[-1; 1]], [1; -3].
  assert (HV : dims 2 [[1; 1]; [2; 1]; [3; 1]]) by solve_rows.
  assert (HF : m_fme (arith EXACT) sorted_order [[1; 1]; [2; 1]; [3; 1]] = Ok [[-1; 1]; [1; -3]]) by reflexivity.
  assert (Hall : forall f, explored EXACT sorted_order [[1; 1]; [2; 1]; [3; 1]] [[-1; 1]] f -> f = [-1; 1]).
  { induction 1 as [f Hf|f R g _ IH HR Hg]; [cbn in Hf; intuition congruence|]. subst f. vm_compute in HR. inversion HR; subst R. destruct Hg. }
  split; auto. split.
  { split; [intros v Hv; cbn in Hv; intuition (subst; cbn; lia)|]. exists [1; 1]. split; [cbn; tauto|cbn; lia]. }
  split; [reflexivity|]. split; [intros f Hf; rewrite (Hall f Hf); eexists; reflexivity|]. split; [|split].
  - apply (rows_facets EXACT sorted_order 2 _ ltac:(discriminate) sorted_order_ok (representable_exact _) HV _ [1; -3]) in HF; [tauto| |cbn; auto].
    exists [1; 1]. split; [cbn; auto|discriminate].
  - intros (k & s & Hk & Hs & H). assert (H3 := H [3; 1] ltac:(cbn; tauto)). cbn in H3. lia.
  - intros (h & Eh & He). rewrite (Hall h Eh) in He. destruct He as (k & s & Hk & Hs & H). assert (H1 := H [1; 1] ltac:(cbn; tauto)). assert (H3 := H [3; 1] ltac:(cbn; tauto)). cbn in H1, H3. lia.
Qed.
Print Assumptions C09_segment_misses_facet.

(** Nor is dimension enough: the slab 0 <= x1 <= 1 of the plane. *)
Theorem C09_slab_misses_facet : exists V S g,
  dims 3 V /\ homogenised 3 V /\ m_fme_heuristic (arith EXACT) sorted_order V = Ok S /\ no_rotation_fails EXACT sorted_order V S /\
  facet 3 V g /\ ~ equivalent_ineq V g (unit_vec 3 2 (-1)) /\ ~ exists h, explored EXACT sorted_order V S h /\ equivalent_ineq V h g.
Proof.
  exists [[0; 1; 0]; [0; -1; 0]; [0; 0; 1]; [1; 0; 2]; [1; 0; 1]], [[-1; 0; 0]], [1; 0; -1].
  set (V := [[0; 1; 0]; [0; -1; 0]; [0; 0; 1]; [1; 0; 2]; [1; 0; 1]]).
  assert (HV : dims 3 V) by solve_rows.
  assert (HF : m_fme (arith EXACT) sorted_order V = Ok [[-1; 0; 0]; [1; 0; -1]]) by reflexivity.
  assert (Hall : forall f, explored EXACT sorted_order V [[-1; 0; 0]] f -> f = [-1; 0; 0]).
  { induction 1 as [f Hf|f R g _ IH HR Hg]; [cbn in Hf; intuition congruence|]. subst f. vm_compute in HR. inversion HR; subst R. destruct Hg. }
  split; auto. split.
  { split; [intros v Hv; cbn in Hv; intuition (subst; cbn; lia)|]. exists [1; 0; 1]. split; [cbn; tauto|cbn; lia]. }
  split; [reflexivity|]. split; [intros f Hf; rewrite (Hall f Hf); eexists; reflexivity|]. split; [|split].
  - apply (rows_facets EXACT sorted_order 3 V ltac:(discriminate) sorted_order_ok (representable_exact _) HV _ [1; 0; -1]) in HF; [tauto| |cbn; auto].
    exists [0; 0; 1]. split; [cbn; auto|discriminate].
  - intros (k & s & Hk & Hs & H). assert (H3 := H [1; 0; 1] ltac:(cbn; tauto)). cbn in H3. lia.
  - intros (h & Eh & He). rewrite (Hall h Eh) in He. destruct He as (k & s & Hk & Hs & H). assert (H1 := H [0; 0; 1] ltac:(cbn; tauto)). assert (H3 := H [1; 0; 1] ltac:(cbn; tauto)). cbn in H1, H3. lia.
Qed.
Print Assumptions C09_slab_misses_facet.

Example C09_example : three_different_facets 3 square /\ homogenised 3 square /\
  m_fme_heuristic (arith EXACT) sorted_order square = Ok [[-1; 0; 0]; [0; -1; 0]] /\ no_rotation_fails EXACT sorted_order square [[-1; 0; 0]; [0; -1; 0]] /\
  explored EXACT sorted_order square [[-1; 0; 0]; [0; -1; 0]] [1; 0; -1].
Proof.
  assert (H3 : three_different_facets 3 square).
  { apply (C09_polytopes 3 square [0; 0; 1] [1; 0; 1] [0; 1; 1]); try (cbn; auto; lia); [apply square_dims|..].
    - intros v Hv. cbn in Hv. intuition (subst; cbn; lia).
    - intros cs Hl E. destruct cs as [|x [|y [|z [|]]]]; try discriminate. cbn in E. inversion E. repeat constructor; lia. }
  assert (HS : m_fme_heuristic (arith EXACT) sorted_order square = Ok [[-1; 0; 0]; [0; -1; 0]]) by reflexivity.
  assert (Hn := C09_exact_never_fails sorted_order 3 square [[-1; 0; 0]; [0; -1; 0]] sorted_order_ok square_dims square_hom H3 HS).
  split; auto. split; [apply square_hom|]. split; auto. split; auto.
  apply (C09_same_rows_as_double_description EXACT sorted_order 3 square [[-1; 0; 0]; [0; -1; 0]] [[-1; 0; 0]; [0; -1; 0]; [1; 0; -1]; [0; 1; -1]] [1; 0; -1]);
    auto using sorted_order_ok, square_dims, square_hom, square_rep; try discriminate. cbn. tauto.
Qed.

(** ** C21: SafeInteger rotations are exact or stop *)
Theorem C21_safe_rotation : forall order n (V : list vec) (f : vec),
  sort_order order -> rows_representable SAFE V -> dims n V -> facet n V f -> rows_representable SAFE [f] -> nonzero n (on_facet V f) ->
  m_rotated (arith SAFE) order V f = m_rotated (arith EXACT) order V f \/ m_rotated (arith SAFE) order V f = Throw.
Proof.
  intros order n V f Ho HR HV Hf Hr Hn.
  rewrite (outcome_exact _ _ (rotated_outcome EXACT order n V ltac:(discriminate) Ho (representable_exact V) HV f Hf (Forall_inv (representable_exact [f])) Hn)).
  assert (O := rotated_outcome SAFE order n V ltac:(discriminate) Ho HR HV f Hf (Forall_inv Hr) Hn).
  destruct (m_rotated (arith SAFE) order V f); cbn [outcome] in O; auto; [left; f_equal; exact O|intuition discriminate].
Qed.
Print Assumptions C21_safe_rotation.

(** int and int64_t: exact or undefined behaviour. *)
Theorem C21_machine_rotation : forall t order n (V : list vec) (f : vec),
  t = INT32 \/ t = INT64 -> sort_order order -> rows_representable t V -> dims n V -> facet n V f -> rows_representable t [f] -> nonzero n (on_facet V f) ->
  m_rotated (arith t) order V f = m_rotated (arith EXACT) order V f \/ m_rotated (arith t) order V f = UB.
Proof.
  intros t order n V f Ht Ho HR HV Hf Hr Hn. assert (Ht' : t <> INT16) by (intuition (subst; discriminate)).
  rewrite (outcome_exact _ _ (rotated_outcome EXACT order n V ltac:(discriminate) Ho (representable_exact V) HV f Hf (Forall_inv (representable_exact [f])) Hn)).
  assert (O := rotated_outcome t order n V Ht' Ho HR HV f Hf (Forall_inv Hr) Hn).
  destruct (m_rotated (arith t) order V f); cbn [outcome] in O; auto; [left; f_equal; exact O|intuition (subst; discriminate)].
Qed.
Print Assumptions C21_machine_rotation.
