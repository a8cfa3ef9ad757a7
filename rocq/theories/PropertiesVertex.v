(** * PropertiesVertex: adjacency decomposition for vertex enumeration (C43). *)
From Coq Require Import List ZArith Arith Lia Bool.
From Verif Require Import Base Spec LinAlg ListUtil Cone FmeCore FmePure FmeCorrect ArithModel MatrixModel FmeModel Refine FmeRefine SafeIntModel IntTypes FmeTheorems
  HeuristicTheorems Samples ClassesModel RotationModel Adjacency NormalForm RotationTheorems PropertiesRotation VertexTheorems.
Import ListNotations.
Open Scope Z_scope.

(** The rows of [V] are the inequalities a x + c <= 0 as (a, c), with (0, ..., 0, -1) among them (input.cpp, inequalities<int>).  The vertices and rays
    of the described polyhedron are the facets of the cone generated by [V]; the vertex p/q is the row (p, q), the origin (0, ..., 0, 1). *)
Definition contains_origin (n : nat) (V : list vec) : Prop := (forall v, In v V -> nth (n - 1) v 0 <= 0) /\ exists v, In v V /\ nth (n - 1) v 0 < 0.
Definition is_vertex (n : nat) (V : list vec) (f : vec) : Prop := facet n V f.

(** Full statement: exploring from the start rows finds the same rows as double description.  Proved when the polyhedron contains the origin
    (no inequality has a positive constant) and the origin is not one of its vertices; missing: the other polyhedra, see [C43_refuted]. *)
Theorem C43_origin_inside_partial : forall t order n (V S F : list vec) (g : vec),
  t <> INT16 -> sort_order order -> rows_representable t V -> dims n V ->
  contains_origin n V -> ~ is_vertex n V (unit_vec n (n - 1) 1) ->
  (exists a b, is_vertex n V a /\ is_vertex n V b /\ ~ equivalent_ineq V a b) ->
  m_fme_heuristic (arith t) order V = Ok S -> m_fme (arith t) order V = Ok F -> no_rotation_fails t order V S ->
  In g F <-> explored t order V S g.
Proof.
  intros t order n V S F g Ht Ho HR HV (Hle & Hlt) Hor (a & b & Fa & Fb & Dab) HS HF Hok.
  assert (Hnz : nonzero n V).
  { destruct Hlt as (v & Hv & Hn). exists v. split; auto. intros ->. rewrite nth_vzero in Hn. lia. }
  assert (Hex := v_ex n V Hlt).
  assert (ES := result_heuristic t order n V Ht Ho HR HV S Hnz HS). rewrite (result_fme t order n V Ht Ho HR HV F Hnz HF).
  assert (HSr : rows_representable t S).
  { assert (H := fme_heuristic_rel _ _ (arith t) (sound_type t Ht) order Ho n V V (rows_rel t Ht V HR) HV Hnz). rewrite HS in H. cbn [rel] in H. apply rel_rows in H. tauto. }
  assert (Hi : incl S (all_rows order n V)) by (rewrite ES; intros f; apply heuristic_incl; auto).
  assert (HSne : S <> []).
  { rewrite ES. intros E. apply heuristic_empty in E; auto. destruct (all_rows_complete order Ho n V HV a Fa) as (r & Hr & _). rewrite E in Hr. destruct Hr. }
  destruct S as [|s0 S']; [contradiction|].
  rewrite (v_all_fme order n V Ho HV Hle Hlt Hor a b Fa Fb). apply (v_explored t order n V Ht Ho HR HV Hle Hlt Hor a b Fa Fb Dab (s0 :: S') s0 g); auto. left; auto.
Qed.
Print Assumptions C43_origin_inside_partial.

(** The square [-1,1]^2: hypotheses met, all four vertices are found. *)
Definition centred_square : list vec := [[1; 0; -1]; [-1; 0; -1]; [0; 1; -1]; [0; -1; -1]; [0; 0; -1]].
Example C43_instance : contains_origin 3 centred_square /\ ~ is_vertex 3 centred_square [0; 0; 1] /\
  is_vertex 3 centred_square [1; 1; 1] /\ is_vertex 3 centred_square [-1; 1; 1] /\
  m_fme (arith EXACT) sorted_order centred_square = Ok [[-1; 1; 1]; [1; 1; 1]; [1; -1; 1]; [-1; -1; 1]].
Proof.
  assert (HF : m_fme (arith EXACT) sorted_order centred_square = Ok [[-1; 1; 1]; [1; 1; 1]; [1; -1; 1]; [-1; -1; 1]]) by reflexivity.
  assert (HV : dims 3 centred_square) by solve_rows.
  assert (Hnz : nonzero 3 centred_square) by (exists [1; 0; -1]; split; [cbn; auto|discriminate]).
  split; [split; [intros v Hv; cbn in Hv; intuition (subst; cbn; lia)|exists [0; 0; -1]; split; [cbn; tauto|cbn; lia]]|].
  split; [|split; [|split; auto]].
  - intros Hf. assert (Hex : exists v, In v centred_square /\ nth (3 - 1) v 0 <> 0) by (exists [0; 0; -1]; split; [cbn; tauto|discriminate]).
    destruct (all_rows_complete sorted_order sorted_order_ok 3 centred_square HV [0; 0; 1] Hf) as (r & Hr & (k & s & Hk & Hs & H)).
    destruct (list_eq_dec Z.eq_dec r (unit_vec 3 2 (-1))) as [->|Hne].
    + specialize (H [0; 0; -1] ltac:(cbn; tauto)). cbn in H. lia.
    + assert (Hr' : In r (fme sorted_order 3 centred_square)) by (exact (proj2 (fme_in_iff sorted_order sorted_order_ok 3 centred_square HV r Hex) (conj Hr Hne))).
      rewrite <- (result_fme EXACT sorted_order 3 centred_square ltac:(discriminate) sorted_order_ok (representable_exact _) HV _ Hnz HF) in Hr'.
      assert (H1 := H [1; 0; -1] ltac:(cbn; tauto)). assert (H2 := H [-1; 0; -1] ltac:(cbn; tauto)). assert (H3 := H [0; 0; -1] ltac:(cbn; tauto)).
      cbn in Hr'. destruct Hr' as [<-|[<-|[<-|[<-|[]]]]]; cbn in H1, H2, H3; lia.
  - apply (rows_facets EXACT sorted_order 3 _ ltac:(discriminate) sorted_order_ok (representable_exact _) HV _ [1; 1; 1] Hnz) in HF; [tauto|cbn; tauto].
  - apply (rows_facets EXACT sorted_order 3 _ ltac:(discriminate) sorted_order_ok (representable_exact _) HV _ [-1; 1; 1] Hnz) in HF; [tauto|cbn; tauto].
Qed.

(** The full statement is false: for the quadrilateral 1 <= x <= 2, 0 <= y <= x, two of the four vertices are never found, although nothing fails. *)
Theorem C43_refuted : exists V S F g,
  dims 3 V /\ In [0; 0; -1] V /\ m_fme_heuristic (arith EXACT) sorted_order V = Ok S /\ m_fme (arith EXACT) sorted_order V = Ok F /\
  no_rotation_fails EXACT sorted_order V S /\ In g F /\ ~ explored EXACT sorted_order V S g.
Proof.
  set (V := [[-1; 0; 1]; [0; -1; 0]; [-1; 1; 0]; [1; 0; -2]; [0; 0; -1]] : list vec).
  destruct (m_fme_heuristic (arith EXACT) sorted_order V) as [S0| |] eqn:E0; [|vm_compute in E0; discriminate|vm_compute in E0; discriminate].
  destruct (m_fme (arith EXACT) sorted_order V) as [F0| |] eqn:E1; [|vm_compute in E1; discriminate|vm_compute in E1; discriminate].
  assert (Hall : forall f, explored EXACT sorted_order V S0 f -> f = [1; 0; 1] \/ f = [1; 1; 1]).
  { vm_compute in E0. injection E0 as <-. induction 1 as [f Hf|f R g _ IH HR Hg].
    - cbn in Hf. intuition congruence.
    - destruct IH as [-> | ->]; vm_compute in HR; injection HR as <-; cbn in Hg; intuition congruence. }
  exists V, S0, F0, [2; 0; 1]. split; [solve_rows|]. split; [cbn; tauto|]. split; [auto|]. split; [auto|]. split.
  - intros f Hf. destruct (Hall f Hf) as [-> | ->]; eexists; vm_compute; reflexivity.
  - split; [vm_compute in E1; injection E1 as <-; cbn; tauto|]. intros Hf. destruct (Hall _ Hf); discriminate.
Qed.
Print Assumptions C43_refuted.
