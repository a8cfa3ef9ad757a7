(** * PropertiesSameAd: adjacency decomposition prints the same rows for two descriptions of one set (C65). *)
From Coq Require Import List ZArith QArith Arith Bool Ascii String Lia Permutation.
From Verif Require Import Base Spec LinAlg Cone ListUtil ArithModel MatrixModel FmeModel SafeIntModel IntTypes StreamModel InputModel ClassesModel ClassesProofs MapModel OutputModel
  Hull FmeCore FmePure FmePrepare FmeCorrect FmeRefine FmeTheorems DimTheorems PropertiesFme NormalForm Adjacency OrbitExact GaussSame ConeSame PropertiesProgram PropertiesRotation ListModel ListExec AdModel AdRun
  PropertiesAd PropertiesSame Samples.
Import ListNotations.
Open Scope Z_scope.
Open Scope list_scope.

Lemma facets_carry n V1 V2 : dims n V1 -> dims n V2 -> (forall x, in_cone n V1 x <-> in_cone n V2 x) -> three_different_facets n V1 -> three_different_facets n V2.
Proof.
  intros D1 D2 HC (a & b & c & Fa & Fb & Fc & X & Y & W).
  assert (I12 : included n V1 V2) by (intros v Hv; apply HC, cone_row; auto). assert (I21 : included n V2 V1) by (intros v Hv; apply HC, cone_row; auto).
  assert (E : forall f g, ~ equivalent_ineq V1 f g -> ~ equivalent_ineq V2 f g) by (intros f g N (k & s & K1 & K2 & K3); apply N; exists k, s; split; auto; split; auto; apply (vanishes_included n V1 V2); auto).
  exists a, b, c. split; [apply (facet_included n V1 V2); auto|]. split; [apply (facet_included n V1 V2); auto|]. split; [apply (facet_included n V1 V2); auto|]. auto.
Qed.
Lemma exact_rows order n V : sort_order order -> dims n V -> nonzero n V -> exists F, m_fme (arith EXACT) order V = Ok F.
Proof.
  intros Ho HV Hn. exists (fme order n V). apply outcome_exact. apply fme_outcome; auto; [discriminate|apply representable_exact].
Qed.

(** ** C65 for adjacency decomposition *)
(** Without maps: for two lists of points and rays of the same cone, whatever the number of threads, the schedules, the known facets and even the integer types of the two runs, the same inequalities are
    printed, each once; only 0 <= 1 may be printed in one run and not in the other.  (Their order depends on the schedule and on the order of the input.) *)
Theorem C65_adjacency : forall t1 t2 o1 o2 n (V1 V2 : list vec) names1 names2 fuel1 fuel2 threads1 threads2 known1 known2 s1 s2 out1 out2, t1 <> INT16 -> t2 <> INT16 -> sort_order o1 -> sort_order o2 ->
  rows_representable t1 V1 -> rows_representable t2 V2 -> dims n V1 -> dims n V2 -> homogenised n V1 -> homogenised n V2 -> three_different_facets n V1 ->
  are_facets t1 n V1 known1 -> are_facets t2 n V2 known2 -> (0 < threads1)%nat -> (0 < threads2)%nat ->
  (forall x, in_cone n V1 x <-> in_cone n V2 x) ->
  m_ad_run t1 o1 fuel1 threads1 V1 names1 [] known1 s1 out1 -> m_ad_run t2 o2 fuel2 threads2 V2 names2 [] known2 s2 out2 ->
  NoDup (printed (sh s1)) /\ NoDup (printed (sh s2)) /\ forall r, r <> trivial_row n -> (In r (printed (sh s1)) <-> In r (printed (sh s2))).
Proof.
  intros t1 t2 o1 o2 n V1 V2 names1 names2 fuel1 fuel2 threads1 threads2 known1 known2 s1 s2 out1 out2 T1 T2 O1 O2 R1 R2 D1 D2 H1 H2 X1 K1 K2 N1 N2 HC Y1 Y2.
  assert (X2 := facets_carry n V1 V2 D1 D2 HC X1).
  destruct (homogenised_pos n V1 D1 H1) as (A1 & A2 & A3). destruct (homogenised_pos n V2 D2 H2) as (B1 & B2 & B3).
  destruct (exact_rows o1 n V1 O1 D1 A3) as (F1 & E1). destruct (exact_rows o2 n V2 O2 D2 B3) as (F2 & E2).
  destruct (C52_rows t1 o1 n V1 F1 names1 fuel1 threads1 known1 s1 out1 T1 O1 R1 D1 H1 X1 K1 N1 E1 Y1) as (P1 & Q1 & S1 & _).
  destruct (C52_rows t2 o2 n V2 F2 names2 fuel2 threads2 known2 s2 out2 T2 O2 R2 D2 H2 X2 K2 N2 E2 Y2) as (P2 & Q2 & S2 & _).
  assert (I12 : included n V1 V2) by (intros v Hv; apply HC, cone_row; auto). assert (I21 : included n V2 V1) by (intros v Hv; apply HC, cone_row; auto).
  assert (X : forall V, homogenised n V -> exists v, In v V /\ nth (n - 1) v 0 <> 0) by (intros V (_ & v & Hv & P); exists v; split; auto; lia).
  assert (EF : forall f, In f F1 <-> In f F2).
  { rewrite (result_fme EXACT o1 n V1 ltac:(discriminate) O1 (representable_exact V1) D1 F1 A3 E1), (result_fme EXACT o2 n V2 ltac:(discriminate) O2 (representable_exact V2) D2 F2 B3 E2). intros f; split; apply rows_included; auto. }
  split; auto. split; auto. intros r Hr. split; intros K.
  - destruct (S1 r K) as [J|[J _]]; [|congruence]. apply Q2, EF; auto.
  - destruct (S2 r K) as [J|[J _]]; [|congruence]. apply Q1, EF; auto.
Qed.
Print Assumptions C65_adjacency.
(** With maps that are symmetries of both lists: the same representatives are printed. *)
Theorem C65_adjacency_symmetric : forall t o1 o2 n (V1 V2 E1 E2 : list vec) names1 names2 maps reduced1 reduced2 fuel1 fuel2 threads1 threads2 known1 known2 s1 s2 out1 out2, t <> INT16 -> sort_order o1 -> sort_order o2 ->
  rows_representable t V1 -> rows_representable t V2 -> dims (S n) V1 -> dims (S n) V2 -> homogenised (S n) V1 -> homogenised (S n) V2 -> three_different_facets (S n) V1 ->
  symmetries n V1 maps -> symmetries n V2 maps -> equations_allow t n E1 maps -> m_ad_reduce t V1 maps = Ok (E1, reduced1) -> m_ad_reduce t V2 maps = Ok (E2, reduced2) ->
  are_facets t (S n) V1 known1 -> are_facets t (S n) V2 known2 -> (0 < threads1)%nat -> (0 < threads2)%nat ->
  (forall x, in_cone (S n) V1 x <-> in_cone (S n) V2 x) ->
  m_ad_run t o1 fuel1 threads1 V1 names1 maps known1 s1 out1 -> m_ad_run t o2 fuel2 threads2 V2 names2 maps known2 s2 out2 ->
  NoDup (printed (sh s1)) /\ NoDup (printed (sh s2)) /\ forall r, r <> trivial_row (S n) -> (In r (printed (sh s1)) <-> In r (printed (sh s2))).
Proof.
  intros t o1 o2 n V1 V2 E1 E2 names1 names2 maps reduced1 reduced2 fuel1 fuel2 threads1 threads2 known1 known2 s1 s2 out1 out2 Ht O1 O2 R1 R2 D1 D2 H1 H2 X1 M1 M2 L1 J1 J2 K1 K2 N1 N2 HC Y1 Y2.
  assert (X2 := facets_carry (S n) V1 V2 D1 D2 HC X1).
  destruct (homogenised_pos (S n) V1 D1 H1) as (A1 & A2 & A3). destruct (homogenised_pos (S n) V2 D2 H2) as (B1 & B2 & B3).
  destruct (exact_rows o1 (S n) V1 O1 D1 A3) as (F1 & G1). destruct (exact_rows o2 (S n) V2 O2 D2 B3) as (F2 & G2).
  assert (I12 : included (S n) V1 V2) by (intros v Hv; apply HC, cone_row; auto). assert (I21 : included (S n) V2 V1) by (intros v Hv; apply HC, cone_row; auto).
  assert (X : forall V, homogenised (S n) V -> exists v, In v V /\ nth (S n - 1) v 0 <> 0) by (intros V (_ & v & Hv & P); exists v; split; auto; lia).
  assert (EF : forall f, In f F1 <-> In f F2).
  { rewrite (result_fme EXACT o1 (S n) V1 ltac:(discriminate) O1 (representable_exact V1) D1 F1 A3 G1), (result_fme EXACT o2 (S n) V2 ltac:(discriminate) O2 (representable_exact V2) D2 F2 B3 G2). intros f; split; apply rows_included; auto. }
  assert (EE : E2 = E1 /\ reduced2 = reduced1).
  { unfold m_ad_reduce in J1, J2. change (num (arith t)) with Z in *. destruct (m_extract_equations (arith t) V1) as [E| |] eqn:X3; cbn [bind] in J1; try discriminate. destruct (m_extract_equations (arith t) V2) as [E'| |] eqn:X4; cbn [bind] in J2; try discriminate.
    assert (E = E') by (rewrite (result_equations t (S n) V1 Ht R1 D1 E A2 A1 X3), (result_equations t (S n) V2 Ht R2 D2 E' B2 B1 X4); apply (eqs_included (S n) V1 V2); auto). subst E'. rewrite J1 in J2. inversion J2; auto. }
  destruct EE as [-> ->].
  destruct (C52_symmetric_rows t o1 n V1 E1 F1 names1 maps reduced1 fuel1 threads1 known1 s1 out1 Ht O1 R1 D1 H1 X1 M1 L1 J1 K1 N1 G1 Y1) as (P1 & Q1 & S1 & _).
  destruct (C52_symmetric_rows t o2 n V2 E1 F2 names2 maps reduced1 fuel2 threads2 known2 s2 out2 Ht O2 R2 D2 H2 X2 M2 L1 J2 K2 N2 G2 Y2) as (P2 & Q2 & S2 & _).
  split; auto. split; auto. intros r Hr. split; intros K.
  - destruct (S1 r K) as [[J|[J _]] U1]; [|congruence]. destruct (Q1 r J) as (r1 & I1 & C1 & La). assert (r1 = r) by (apply U1; auto). subst r1.
    destruct (Q2 r (proj1 (EF r) J)) as (r2 & I2 & _ & Lb). rewrite (largest_unique EXACT Facet_tag reduced1 r r r2 La Lb). auto.
  - destruct (S2 r K) as [[J|[J _]] U1]; [|congruence]. destruct (Q2 r J) as (r1 & I1 & C1 & La). assert (r1 = r) by (apply U1; auto). subst r1.
    destruct (Q1 r (proj2 (EF r) J)) as (r2 & I2 & _ & Lb). rewrite (largest_unique EXACT Facet_tag reduced1 r r r2 La Lb). auto.
Qed.
Print Assumptions C65_adjacency_symmetric.

(** ** Example: the unit square of C52_example, and the same square with its corners in another order and with its centre; the same two rows are printed, in another order *)
Definition square_again : list vec := [[1; 1; 1]; [1; 1; 2]; [0; 1; 1]; [1; 0; 1]; [0; 0; 1]].
Example C65_adjacency_example :
  (forall x, in_cone 3 square x <-> in_cone 3 square_again x) /\ symmetries 2 square_again [exchange2] /\
  exists s, m_ad_run INT32 sorted_order 100 1 square_again [lit "x"; lit "y"] [exchange2] [] s (lit "Reduced Inequalities:" ++ newline :: lit "x <= 1" ++ newline :: lit "-y <= 0" ++ [newline]).
Proof.
  assert (D1 : dims 3 square) by (repeat constructor). assert (D2 : dims 3 square_again) by (repeat constructor).
  assert (I12 : included 3 square square_again) by (intros v Hv; apply cone_row; auto; cbn in *; tauto).
  assert (I21 : included 3 square_again square).
  { intros v [<-|[<-|Hv]]; [apply cone_row; auto; cbn; tauto| |apply cone_row; auto; cbn in *; tauto]. exists 1, [1; 0; 0; 1]. split; [lia|]. split; [reflexivity|]. split; [repeat constructor; lia|reflexivity]. }
  split; [|split].
  - intros x. split; intros H; (apply farkas; [auto|destruct H as (k & cs & Hk & Hl & Hp & E); rewrite <- (vscale_length k), E; apply lincomb_length; auto|]).
    + intros a La Va. apply (in_cone_valid 3 square); auto. apply (valid_included 3 square square_again); auto.
    + intros a La Va. apply (in_cone_valid 3 square_again); auto. apply (valid_included 3 square_again square); auto.
  - intros m [<-|[]]. split; [split; [reflexivity|repeat constructor]|]. split; [reflexivity|]. exists [[1; 1; 1]; [1; 1; 2]; [1; 0; 1]; [0; 1; 1]; [0; 0; 1]]. split.
    + repeat constructor; exists 1, 1; (split; [lia|split; [lia|reflexivity]]).
    + apply perm_skip, perm_skip, perm_swap.
  - exists (State (Jobs 1 [[1; 0; -1]; [0; -1; 0]; []] [[]] [[1; 0; -1]; [0; -1; 0]] [[1; 0; -1]; [0; -1; 0]]) None [Stopped] []).
    assert (R : exists ls, ListModel.run (m_ad_neighbours INT32 sorted_order 100 square_again [exchange2]) (initial [[1; 0; -1]] [] 1 0) ls
      (State (Jobs 1 [[1; 0; -1]; [0; -1; 0]; []] [[]] [[1; 0; -1]; [0; -1; 0]] [[1; 0; -1]; [0; -1; 0]]) None [Stopped] [])).
    { apply (exec_all_ok _ (repeat CMain 2 ++ repeat (CThread 0) 17)). vm_compute. reflexivity. }
    destruct R as (ls & R). exists [], [exchange2], [[1; 0; -1]], [], ls, [], (lit "x <= 1" ++ newline :: lit "-y <= 0" ++ [newline]).
    split; [vm_compute; reflexivity|]. split; [vm_compute; reflexivity|]. split; [exists 0%nat; split; [reflexivity|left; cbn; auto]|]. split; [exact R|]. split; [split; [reflexivity|split; [reflexivity|]]; cbn; intuition|].
    split; [|split; [reflexivity|split; [vm_compute; reflexivity|reflexivity]]].
    intros r [<-|[<-|[]]]; unfold m_ad_processed; eexists; vm_compute; reflexivity.
Qed.
