(** * PropertiesFme: facet enumeration by elimination, equations, rank, normal forms (C01-C07, C21-C24, C41). *)
From Coq Require Import List ZArith Arith Lia Permutation Bool.
From Verif Require Import Base Spec LinAlg ListUtil FmeRefine ArithModel MatrixModel FmeModel SafeIntModel IntTypes
  FmePure FmePrepare FmeTheorems HeuristicTheorems DimTheorems NormTheorems Refine Samples.
Import ListNotations.
Open Scope Z_scope.

(** In all statements [t] is the integer type, [order] the behaviour of [std::sort], [V] the input rows of length [n].
    [m_fme (arith t) order V] is [fourierMotzkinElimination], [m_fme_heuristic] its abortable variant,
    [m_extract_equations] is [extractEquations], [m_dimension] is [dimension]. *)

(** ** C01: the printed description is the cone *)
Theorem C01_description : forall t order n (V : list vec) (E : list vec) (F : list vec),
  t <> INT16 -> sort_order order -> rows_representable t V -> dims n V -> homogenised n V ->
  m_extract_equations (arith t) V = Ok E -> m_fme (arith t) order V = Ok F ->
  forall x, length x = n ->
    (in_cone n V x <->
     0 <= nth (n - 1) x 0 /\ (forall e, In e E -> dot e x = 0) /\ (forall f, In f F -> dot f x <= 0)).
Proof. intros t order n V E F Ht Ho HR HV. exact (describe t order n V Ht Ho HR HV E F). Qed.
Print Assumptions C01_description.

(** With unbounded integers nothing fails; SafeInteger can only throw; int and int64_t can only be undefined. *)
Theorem C01_no_failure : forall t order n (V : list vec),
  t <> INT16 -> sort_order order -> rows_representable t V -> dims n V -> homogenised n V ->
  (t = EXACT -> exists E F, m_extract_equations (arith t) V = Ok E /\ m_fme (arith t) order V = Ok F) /\
  (t = SAFE -> m_extract_equations (arith t) V <> UB /\ m_fme (arith t) order V <> UB) /\
  (t <> SAFE -> m_extract_equations (arith t) V <> Throw /\ m_fme (arith t) order V <> Throw).
Proof.
  intros t order n V Ht Ho HR HV Hh. destruct (homogenised_pos n V HV Hh) as (H1 & H2 & H3).
  assert (O1 := fme_outcome t order n V Ht Ho HR HV H3). assert (O2 := equations_outcome t n V Ht HR HV H2 H1).
  split; [|split].
  - intros ->. exists (equations_of n V), (fme order n V). split; apply outcome_exact; auto.
  - intros ->. split; intros E; rewrite E in *; cbn [outcome] in *; intuition discriminate.
  - intros Hs. split; intros E; rewrite E in *; cbn [outcome] in *; auto.
Qed.
Print Assumptions C01_no_failure.

Example C01_example : 
  m_extract_equations (arith INT32) tilted = Ok [[1; 1; 1; -1]] /\
  m_fme (arith INT32) sorted_order tilted = Ok [[0; 1; 1; -1]; [0; 1; -1; -1]; [0; -1; 1; -1]] /\
  INT32 <> INT16 /\ sort_order sorted_order /\ rows_representable INT32 tilted /\ dims 4 tilted /\ homogenised 4 tilted.
Proof.
  repeat split; try discriminate; auto using sorted_order_ok, tilted_rep, tilted_dims; apply tilted_hom.
Qed.

(** ** C02: nothing invalid is printed *)
Theorem C02_rows_valid : forall t order n (V : list vec) (F : list vec) (f : vec) (v : vec),
  t <> INT16 -> sort_order order -> rows_representable t V -> dims n V -> nonzero n V ->
  m_fme (arith t) order V = Ok F -> In f F -> In v V -> length f = n /\ dot f v <= 0.
Proof.
  intros t order n V F f v Ht Ho HR HV Hn HF Hf Hv.
  destruct (rows_facets t order n V Ht Ho HR HV F f Hn HF Hf) as ((H1 & H2 & _) & _). auto.
Qed.
Print Assumptions C02_rows_valid.

Theorem C02_equations_valid : forall t n (V : list vec) (E : list vec) (e : vec) (v : vec),
  t <> INT16 -> rows_representable t V -> dims n V -> (0 < n)%nat ->
  m_extract_equations (arith t) V = Ok E -> In e E -> In v V -> length e = n /\ dot e v = 0.
Proof.
  intros t n V E e v Ht HR HV Hn HE He Hv.
  assert (Hl : (0 < length V)%nat) by (destruct V; [destruct Hv|cbn; lia]).
  destruct (equations_result t n V Ht HR HV E Hl Hn HE) as (H1 & H2 & _).
  split; [apply (dims_in n E e H1 He)|apply (H2 e He); auto].
Qed.
Print Assumptions C02_equations_valid.

Example C02_example : nonzero 4 tilted.
Proof. exists [1; 0; 0; 1]. split; [left; auto|discriminate]. Qed.

(** ** C03: the rows are the facets, each once *)
Theorem C03_rows_are_facets : forall t order n (V : list vec) (F : list vec) (f : vec),
  t <> INT16 -> sort_order order -> rows_representable t V -> dims n V -> nonzero n V ->
  m_fme (arith t) order V = Ok F -> In f F -> facet n V f /\ primitive f.
Proof. intros t order n V F f Ht Ho HR HV. exact (rows_facets t order n V Ht Ho HR HV F f). Qed.
Print Assumptions C03_rows_are_facets.

Theorem C03_no_facet_twice : forall t order n (V : list vec) (F : list vec),
  t <> INT16 -> sort_order order -> rows_representable t V -> dims n V -> nonzero n V ->
  m_fme (arith t) order V = Ok F ->
  NoDup F /\ forall f g, In f F -> In g F -> equivalent_ineq V f g -> f = g.
Proof. intros t order n V F Ht Ho HR HV. exact (rows_distinct t order n V Ht Ho HR HV F). Qed.
Print Assumptions C03_no_facet_twice.

(** Every facet is found, except the one of the trivial inequality [- x_n <= 0] (see C04). *)
Theorem C03_every_facet_found : forall t order n (V : list vec) (F : list vec) (a : vec),
  t <> INT16 -> sort_order order -> rows_representable t V -> dims n V ->
  (exists v, In v V /\ nth (n - 1) v 0 <> 0) ->
  m_fme (arith t) order V = Ok F -> facet n V a ->
  (exists f, In f F /\ equivalent_ineq V f a) \/ equivalent_ineq V (unit_vec n (n - 1) (-1)) a.
Proof.
  intros t order n V F a Ht Ho HR HV Hex HF Ha.
  exact (rows_complete t order n V Ht Ho HR HV F a Hex HF Ha).
Qed.
Print Assumptions C03_every_facet_found.

Example C03_example : facet 3 square [1; 0; -1] /\ m_fme (arith INT32) sorted_order square = Ok [[-1; 0; 0]; [0; -1; 0]; [1; 0; -1]; [0; 1; -1]].
Proof.
  assert (E : m_fme (arith INT32) sorted_order square = Ok [[-1; 0; 0]; [0; -1; 0]; [1; 0; -1]; [0; 1; -1]]) by reflexivity.
  split; auto.
  apply (C03_rows_are_facets INT32 sorted_order 3 square [[-1; 0; 0]; [0; -1; 0]; [1; 0; -1]; [0; 1; -1]]);
    auto using sorted_order_ok, square_rep, square_dims; try discriminate.
  - exists [1; 0; 1]. split; [cbn; auto|discriminate].
  - cbn. auto.
Qed.

(** ** C04: dropping the trivial row *)
(** It is dropped (never printed), and by C01_description it is implied once the last coordinate is non-negative. *)
Theorem C04_trivial_row_not_printed : forall t order n (V : list vec) (F : list vec),
  t <> INT16 -> sort_order order -> rows_representable t V -> dims n V ->
  (exists v, In v V /\ nth (n - 1) v 0 <> 0) ->
  m_fme (arith t) order V = Ok F -> ~ In (unit_vec n (n - 1) (-1)) F.
Proof. intros t order n V F Ht Ho HR HV. exact (trivial_dropped t order n V Ht Ho HR HV F). Qed.
Print Assumptions C04_trivial_row_not_printed.

(** Without a vertex the description can be incomplete, for every behaviour of the sort: the cone generated by the rays
    (1,0) and (0,1) is printed as x1 >= 0 (and the equation x3 = 0 on the homogenising coordinate). *)
Theorem C04_rays_only_loses_facet : exists V E F x,
  dims 3 V /\ (forall v, In v V -> nth 2 v 0 = 0) /\
  m_extract_equations (arith EXACT) V = Ok E /\ m_fme (arith EXACT) sorted_order V = Ok F /\
  length x = 3%nat /\ 0 <= nth 2 x 0 /\ (forall e, In e E -> dot e x = 0) /\ (forall f, In f F -> dot f x <= 0) /\
  ~ in_cone 3 V x.
Proof.
  exists two_rays, [[0; 0; 1]], [[-1; 0; 0]], [1; -1; 0].
  split; [solve_rows|]. split; [intros v Hv; cbn in Hv; intuition (subst; reflexivity)|].
  split; [reflexivity|]. split; [reflexivity|]. split; [reflexivity|]. split; [cbn; lia|].
  split; [intros e He; cbn in He; intuition (subst; reflexivity)|].
  split; [intros e He; cbn in He; intuition (subst; cbn; lia)|].
  intros Hc. assert (H : dot [0; -1; 0] [1; -1; 0] <= 0).
  { apply (in_cone_valid 3 two_rays); auto; [solve_rows|]. intros v Hv. cbn in Hv. intuition (subst; cbn; lia). }
  cbn in H. lia.
Qed.
Print Assumptions C04_rays_only_loses_facet.

(** ** C05: the equations are the affine hull *)
Theorem C05_equations : forall t n (V : list vec) (E : list vec),
  t <> INT16 -> rows_representable t V -> dims n V -> (0 < length V)%nat -> (0 < n)%nat ->
  m_extract_equations (arith t) V = Ok E ->
  dims n E /\ (forall e, In e E -> vanishes V e /\ primitive e) /\ independent n E /\
  (forall b, length b = n -> vanishes V b -> in_span n E b) /\
  (forall i, (i < length E)%nat -> exists z, (z < n)%nat /\ 0 < nth z (nth i E []) 0 /\
      (forall c, (c < z)%nat -> nth c (nth i E []) 0 = 0) /\
      (forall j, (j < length E)%nat -> j <> i -> nth z (nth j E []) 0 = 0)).
Proof. intros t n V E Ht HR HV. exact (equations_result t n V Ht HR HV E). Qed.
Print Assumptions C05_equations.

Theorem C05_total : forall n (V : list vec), dims n V -> (0 < length V)%nat -> (0 < n)%nat ->
  exists E, m_extract_equations (arith EXACT) V = Ok E.
Proof.
  intros n V HV H1 H2. exists (equations_of n V). apply outcome_exact. apply equations_outcome; auto using representable_exact. discriminate.
Qed.
Print Assumptions C05_total.

Example C05_example : m_extract_equations (arith SAFE) [[1; 2; 3; 0]; [2; 4; 7; 0]; [3; 6; 10; 0]] = Ok [[0; 0; 0; 1]; [2; -1; 0; 0]].
Proof. reflexivity. Qed.

(** ** C06: dimension is the rank *)
Theorem C06_dimension_is_rank : forall t n (V : list vec) d,
  t <> INT16 -> rows_representable t V -> dims n V -> m_dimension (arith t) V = Ok d -> is_rank n V d.
Proof.
  intros t n V d Ht HR HV Hd.
  assert (H := dimension_rel _ _ (arith t) (sound_type t Ht) n V V (rows_rel t Ht V HR) HV).
  rewrite Hd in H. cbn [rel] in H. subst d. apply dim_loop_correct; auto.
Qed.
Print Assumptions C06_dimension_is_rank.

Theorem C06_total : forall n (V : list vec), dims n V -> exists d, m_dimension (arith EXACT) V = Ok d.
Proof.
  intros n V HV.
  assert (H := dimension_rel _ _ (arith EXACT) sound_ideal n V V (rows_rel EXACT ltac:(discriminate) V (representable_exact V)) HV).
  destruct (m_dimension (arith EXACT) V) as [d| |]; cbn [rel] in H; [eauto|discriminate|discriminate].
Qed.
Print Assumptions C06_total.

(** The rank is unique, so the number is determined by the matrix alone. *)
Example C06_example : m_dimension (arith INT32) [[1; 2; 3]; [2; 4; 6]; [0; 0; 1]; [1; 2; 4]] = Ok 2%nat.
Proof. reflexivity. Qed.

(** ** C07: start facets of adjacency decomposition *)
Theorem C07_start_facets : forall t order n (V : list vec) (F : list vec) (f : vec),
  t <> INT16 -> sort_order order -> rows_representable t V -> dims n V -> nonzero n V ->
  m_fme_heuristic (arith t) order V = Ok F -> In f F -> facet n V f.
Proof. intros t order n V F f Ht Ho HR HV. exact (heuristic_facets_result t order n V Ht Ho HR HV F f). Qed.
Print Assumptions C07_start_facets.

Theorem C07_at_least_one : forall t order n (V : list vec) (F : list vec),
  t <> INT16 -> sort_order order -> rows_representable t V -> dims n V -> homogenised n V ->
  m_fme_heuristic (arith t) order V = Ok F -> F <> [].
Proof. intros t order n V F Ht Ho HR HV. exact (heuristic_nonempty_result t order n V Ht Ho HR HV F). Qed.
Print Assumptions C07_at_least_one.

Theorem C07_total : forall order n (V : list vec), sort_order order -> dims n V -> nonzero n V ->
  exists F, m_fme_heuristic (arith EXACT) order V = Ok F.
Proof.
  intros order n V Ho HV Hn. exists (fme_heuristic order n V). apply outcome_exact.
  apply heuristic_outcome; auto using representable_exact. discriminate.
Qed.
Print Assumptions C07_total.

Example C07_example : m_fme_heuristic (arith INT32) sorted_order tilted = Ok [[0; 1; 1; -1]].
Proof. reflexivity. Qed.

(** ** C21: SafeInteger computations are exact or stop *)
Definition exact_or_stops {X} (safe exact : res X) : Prop := safe = exact \/ safe = Throw.

Theorem C21_safe_elimination : forall order n (V : list vec),
  sort_order order -> rows_representable SAFE V -> dims n V -> nonzero n V ->
  exact_or_stops (m_fme (arith SAFE) order V) (m_fme (arith EXACT) order V) /\
  exact_or_stops (m_fme_heuristic (arith SAFE) order V) (m_fme_heuristic (arith EXACT) order V) /\
  exact_or_stops (m_extract_equations (arith SAFE) V) (m_extract_equations (arith EXACT) V).
Proof.
  intros order n V Ho HR HV Hn. destruct (nonzero_pos n V HV Hn) as (H1 & H2).
  assert (HE : EXACT <> INT16) by discriminate. assert (HS : SAFE <> INT16) by discriminate.
  rewrite (outcome_exact _ _ (fme_outcome EXACT order n V HE Ho (representable_exact V) HV Hn)).
  rewrite (outcome_exact _ _ (heuristic_outcome EXACT order n V HE Ho (representable_exact V) HV Hn)).
  rewrite (outcome_exact _ _ (equations_outcome EXACT n V HE (representable_exact V) HV H2 H1)).
  assert (O1 := fme_outcome SAFE order n V HS Ho HR HV Hn).
  assert (O2 := heuristic_outcome SAFE order n V HS Ho HR HV Hn).
  assert (O3 := equations_outcome SAFE n V HS HR HV H2 H1).
  unfold exact_or_stops.
  destruct (m_fme (arith SAFE) order V), (m_fme_heuristic (arith SAFE) order V), (m_extract_equations (arith SAFE) V);
    cbn [outcome] in *; intuition (subst; auto; discriminate).
Qed.
Print Assumptions C21_safe_elimination.

(** The built-in types int and int64_t: exact, or undefined behaviour (overflow). *)
Theorem C21_machine_elimination : forall t order n (V : list vec),
  t = INT32 \/ t = INT64 -> sort_order order -> rows_representable t V -> dims n V -> nonzero n V ->
  (m_fme (arith t) order V = m_fme (arith EXACT) order V \/ m_fme (arith t) order V = UB).
Proof.
  intros t order n V Ht Ho HR HV Hn.
  assert (HE : EXACT <> INT16) by discriminate. assert (HS : t <> INT16) by (intuition (subst; discriminate)).
  rewrite (outcome_exact _ _ (fme_outcome EXACT order n V HE Ho (representable_exact V) HV Hn)).
  assert (O1 := fme_outcome t order n V HS Ho HR HV Hn).
  destruct (m_fme (arith t) order V); cbn [outcome] in *; auto.
  - left. f_equal. exact O1.
  - intuition (subst; discriminate).
Qed.
Print Assumptions C21_machine_elimination.

(** int16_t silently goes wrong: all inputs fit, the run succeeds and prints a row violated by a vertex. *)
Theorem C21_int16_silently_wrong : exists V F f v,
  rows_representable INT16 V /\ dims 3 V /\ homogenised 3 V /\
  m_fme (arith INT16) sorted_order V = Ok F /\ In f F /\ In v V /\ dot f v > 0.
Proof.
  exists big_triangle, [[3217; 75; 0]; [-1; 200; 0]; [-3242; -3267; -3693]], [-1; 200; 0], [3; 199; 1].
  split; [apply big_triangle_rep|]. split; [apply big_triangle_dims|]. split.
  { split; [intros v Hv; cbn in Hv; intuition (subst; cbn; lia)|]. exists [0; 0; 1]. split; [cbn; tauto|cbn; lia]. }
  split; [reflexivity|]. split; [cbn; tauto|]. split; [cbn; tauto|]. cbn. lia.
Qed.
Print Assumptions C21_int16_silently_wrong.

(** A run that stops: SafeInteger throws. *)
Example C21_example : 
  m_fme (arith SAFE) sorted_order big_triangle = m_fme (arith EXACT) sorted_order big_triangle /\
  m_fme (arith SAFE) sorted_order [[0; 0; 1]; [4000000000; 1; 1]; [3; 4000000000; 1]] = Throw.
Proof. split; reflexivity. Qed.

(** ** C22: gcd and lcm *)
Theorem C22_gcd_exact : forall a b, m_gcd (arith EXACT) a b = Ok (Z.gcd a b).
Proof.
  intros a b. assert (H := gcd_rel _ _ (arith EXACT) sound_ideal a b a b (conj I eq_refl) (conj I eq_refl)).
  destruct (m_gcd (arith EXACT) a b); cbn [rel] in H; try discriminate. destruct H as [_ H]. f_equal. exact H.
Qed.
Print Assumptions C22_gcd_exact.

Theorem C22_gcd_all_types : forall t a b g,
  t <> INT16 -> representable t a -> representable t b -> m_gcd (arith t) a b = Ok g ->
  0 <= g /\ (g | a) /\ (g | b) /\ forall d, (d | a) -> (d | b) -> (d | g).
Proof.
  intros t a b g Ht Ha Hb Hg.
  assert (H : g = Z.gcd a b).
  { assert (Hva : vr (sound_type t Ht) a a) by (destruct t; [exfalso; auto|..]; split; auto).
    assert (Hvb : vr (sound_type t Ht) b b) by (destruct t; [exfalso; auto|..]; split; auto).
    assert (H := gcd_rel _ _ (arith t) (sound_type t Ht) a b a b Hva Hvb). rewrite Hg in H. cbn [rel] in H.
    destruct H as [_ H]. destruct t; [exfalso; auto|..]; exact H. }
  subst g. split; [apply Z.gcd_nonneg|]. split; [apply Z.gcd_divide_l|]. split; [apply Z.gcd_divide_r|].
  intros d Hda Hdb. apply Z.gcd_greatest; auto.
Qed.
Print Assumptions C22_gcd_all_types.

Theorem C22_lcm_exact : forall a b, a <> 0 \/ b <> 0 -> m_lcm (arith EXACT) a b = Ok (Z.lcm a b).
Proof.
  intros a b Hne. assert (H := lcm_rel _ _ (arith EXACT) sound_ideal a b a b (conj I eq_refl) (conj I eq_refl) Hne).
  destruct (m_lcm (arith EXACT) a b); cbn [rel] in H; try discriminate. destruct H as [_ H]. f_equal. exact H.
Qed.
Print Assumptions C22_lcm_exact.

(** For two zeros the division by the gcd is undefined. *)
Theorem C22_lcm_of_zeros_undefined : forall t, t <> SAFE -> m_lcm (arith t) 0 0 = UB.
Proof. destruct t; intros H; try reflexivity. congruence. Qed.
Print Assumptions C22_lcm_of_zeros_undefined.

Theorem C22_row_gcd_exact : forall r, m_row_gcd (arith EXACT) r = Ok (fold_right Z.gcd 0 r).
Proof.
  intros r. assert (H := row_gcd_rel _ _ (arith EXACT) sound_ideal r r (vec_rel EXACT ltac:(discriminate) r ltac:(apply Forall_forall; intros; exact I))).
  destruct (m_row_gcd (arith EXACT) r); cbn [rel] in H; try discriminate. destruct H as [_ H]. f_equal. exact H.
Qed.
Print Assumptions C22_row_gcd_exact.

Example C22_example : m_gcd (arith INT32) (-12) 18 = Ok 6 /\ m_lcm (arith INT32) (-12) 18 = Ok 36 /\ m_row_gcd (arith INT32) [0; 6; -9; 4] = Ok 1.
Proof. repeat split; reflexivity. Qed.

(** ** C23: normalising a row preserves the inequality *)
Theorem C23_normalize : forall t n (V : list vec) (E : list vec) (r : vec) (r' : vec),
  t <> INT16 -> rows_representable t V -> rows_representable t [r] -> dims n V -> (0 < length V)%nat -> (0 < n)%nat -> length r = n ->
  m_extract_equations (arith t) V = Ok E -> m_normalize (arith t) r E = Ok r' ->
  length r' = n /\ (r' = vzero n \/ primitive r') /\
  (forall i, (i < length E)%nat -> exists z, nth z (nth i E []) 0 <> 0 /\ (forall c, (c < z)%nat -> nth c (nth i E []) 0 = 0) /\ nth z r' 0 = 0) /\
  forall x, length x = n -> (forall e, In e E -> dot e x = 0) ->
    (dot r' x <= 0 <-> dot r x <= 0) /\ (dot r' x = 0 <-> dot r x = 0).
Proof.
  intros t n V E r r' Ht HR Hr HV H1 H2 Hl HE HN.
  assert (EE := result_equations t n V Ht HR HV E H1 H2 HE).
  assert (HL := extracted_leads n V HV). rewrite <- EE in HL.
  assert (HRE : matr (sound_type t Ht) E E).
  { assert (H := extract_equations_rel _ _ (arith t) (sound_type t Ht) n V V (rows_rel t Ht V HR) HV H1 H2).
    rewrite HE in H. cbn [rel] in H. assert (H' := H). apply rel_rows in H'. destruct H' as (_ & Hrep). apply rows_rel; auto. }
  assert (N := normalize_rel _ _ (arith t) (sound_type t Ht) n r r E E (vec_rel t Ht r (Forall_inv Hr)) HRE Hl HL).
  rewrite HN in N. cbn [rel] in N. apply rel_vec in N. destruct N as (-> & _).
  destruct (normalize_spec n E HL r Hl) as (L & Z0 & _).
  split; auto. split; [apply normalize_primitive; auto|]. split.
  - intros i Hi. exists (first_nz (nth i E [])). destruct (proj2 HL i Hi) as (Hz & Hp & _).
    split; [lia|]. split; [|apply Z0; apply nth_In; auto].
    apply (first_nz_spec (nth i E [])). rewrite (dims_in n E (nth i E [])); auto; [apply HL|apply nth_In; auto].
  - intros x Hx He. destruct (normalize_sat n E HL r x Hl Hx He) as (g & k & Hg & Hk & Eq). split; nia.
Qed.
Print Assumptions C23_normalize.

(** ** C24: the normal form is unique *)
Theorem C24_normal_form_unique : forall t n (V : list vec) (E : list vec) (r : vec) (s : vec) (r' : vec) (s' : vec),
  t <> INT16 -> rows_representable t V -> rows_representable t [r; s] -> dims n V -> (0 < length V)%nat -> (0 < n)%nat ->
  length r = n -> length s = n ->
  m_extract_equations (arith t) V = Ok E -> m_normalize (arith t) r E = Ok r' -> m_normalize (arith t) s E = Ok s' ->
  equivalent_ineq V r s -> r' = s'.
Proof.
  intros t n V E r s r' s' Ht HR Hrs HV H1 H2 Hr Hs HE HN HN' (k & m & Hk & Hm & Hvan).
  assert (EE := result_equations t n V Ht HR HV E H1 H2 HE).
  assert (HL := extracted_leads n V HV). rewrite <- EE in HL.
  assert (HRE : matr (sound_type t Ht) E E).
  { assert (H := extract_equations_rel _ _ (arith t) (sound_type t Ht) n V V (rows_rel t Ht V HR) HV H1 H2).
    rewrite HE in H. cbn [rel] in H. apply rel_rows in H. destruct H as (_ & Hrep). apply rows_rel; auto. }
  assert (N := normalize_rel _ _ (arith t) (sound_type t Ht) n r r E E (vec_rel t Ht r (Forall_inv Hrs)) HRE Hr HL).
  assert (N' := normalize_rel _ _ (arith t) (sound_type t Ht) n s s E E (vec_rel t Ht s (Forall_inv (Forall_inv_tail Hrs))) HRE Hs HL).
  rewrite HN in N. rewrite HN' in N'. cbn [rel] in N, N'. apply rel_vec in N. apply rel_vec in N'.
  destruct N as (-> & _). destruct N' as (-> & _).
  apply (normalize_unique n E HL r s k m); auto. rewrite EE.
  apply (po_eqs_span _ _ _ (prepare_ok n V HV)); auto.
  rewrite (vadd_length_eq n); auto; rewrite vscale_length; auto.
Qed.
Print Assumptions C24_normal_form_unique.

Example C24_example :
  m_normalize (arith INT32) [0; 1; -1; -1] [[1; 1; 1; -1]] = Ok [0; 1; -1; -1] /\
  m_normalize (arith INT32) [3; 5; 1; -5] [[1; 1; 1; -1]] = Ok [0; 1; -1; -1].
Proof. split; reflexivity. Qed.

(** ** C41: vertex enumeration inverts facet enumeration *)
(** The input rows [A] are the inequalities [a.x <= 0], with the homogenising one. *)
Theorem C41_generators : forall t order n (A : list vec) (F : list vec),
  t <> INT16 -> sort_order order -> rows_representable t A -> dims n A -> (0 < n)%nat ->
  no_line n A -> In (unit_vec n (n - 1) (-1)) A -> m_fme (arith t) order A = Ok F ->
  forall x, solution n A x <-> length x = n /\ in_cone n F x.
Proof.
  intros t order n A F Ht Ho HR HA Hn Hp Hu HF. apply (generators t order n A Ht Ho HR HA F); auto.
  intros x Hx Hv. apply Hp; auto. intros a Ha. rewrite dot_comm. auto.
Qed.
Print Assumptions C41_generators.

Theorem C41_extreme_rays : forall t order n (A : list vec) (F : list vec),
  t <> INT16 -> sort_order order -> rows_representable t A -> dims n A -> (0 < n)%nat ->
  no_line n A -> In (unit_vec n (n - 1) (-1)) A -> m_fme (arith t) order A = Ok F ->
  (forall f, In f F -> extreme_ray n A f /\ primitive f) /\
  (forall x, extreme_ray n A x -> exists f k s, In f F /\ 0 < k /\ 0 < s /\ vscale k x = vscale s f) /\
  NoDup F.
Proof.
  intros t order n A F Ht Ho HR HA Hn Hp Hu HF.
  assert (Hp' : forall x, length x = n -> vanishes A x -> x = vzero n).
  { intros x Hx Hv. apply Hp; auto. intros a Ha. rewrite dot_comm. auto. }
  assert (Hnz : nonzero n A).
  { exists (unit_vec n (n - 1) (-1)). split; auto. intros E.
    assert (H := f_equal (fun u => nth (n - 1) u 0) E). cbn beta in H. unfold unit_vec in H.
    rewrite nth_upd, nth_vzero, vzero_length, Nat.eqb_refl in H. destruct (Nat.ltb_spec (n - 1) n); [|lia]. cbn in H. lia. }
  split; [|split].
  - intros f Hf. destruct (rows_facets t order n A Ht Ho HR HA F f Hnz HF Hf) as (H1 & H2). split; auto.
    apply facet_extreme; auto.
  - intros x Hx. apply (extreme_found t order n A Ht Ho HR HA F x); auto.
  - apply (rows_distinct t order n A Ht Ho HR HA F Hnz HF).
Qed.
Print Assumptions C41_extreme_rays.

Example C41_example : m_fme (arith INT32) sorted_order square_ineqs = Ok [[1; 0; 1]; [0; 0; 1]; [0; 1; 1]; [1; 1; 1]] /\
  no_line 3 square_ineqs /\ In (unit_vec 3 2 (-1)) square_ineqs.
Proof.
  split; [reflexivity|]. split; [|cbn; tauto].
  intros x Hx H. destruct x as [|a [|b [|c [|]]]]; try discriminate.
  assert (H1 := H [-1; 0; 0] ltac:(cbn; tauto)). assert (H2 := H [0; -1; 0] ltac:(cbn; tauto)). assert (H3 := H [0; 0; -1] ltac:(cbn; tauto)).
  cbn [dot] in H1, H2, H3. unfold vzero. cbn [repeat]. repeat f_equal; lia.
Qed.
