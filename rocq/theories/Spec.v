(** * Spec: the mathematical notions the properties are stated with.

    Vectors are lists of integers.  A rational (or real-homogeneous) statement about cones is expressed with
    integers and an explicit positive denominator.  Nothing in this file mentions the code. *)
From Coq Require Import List ZArith.
Import ListNotations.
Open Scope Z_scope.

Definition vec := list Z.

(** Scalar product. *)
Fixpoint dot (a b : vec) : Z :=
  match a, b with
  | x :: a', y :: b' => x * y + dot a' b'
  | _, _ => 0
  end.

Definition vscale (k : Z) (a : vec) : vec := map (Z.mul k) a.

Fixpoint vadd (a b : vec) : vec :=
  match a, b with
  | x :: a', y :: b' => (x + y) :: vadd a' b'
  | _, _ => []
  end.

Definition vzero (n : nat) : vec := repeat 0 n.

(** [c1*v1 + c2*v2 + ...] in dimension [n]. *)
Fixpoint lincomb (n : nat) (cs : list Z) (vs : list vec) : vec :=
  match cs, vs with
  | c :: cs', v :: vs' => vadd (vscale c v) (lincomb n cs' vs')
  | _, _ => vzero n
  end.

(** All vectors of [V] have dimension [n]. *)
Definition dims (n : nat) (V : list vec) : Prop := Forall (fun v => length v = n) V.

(** [x] is a non-negative rational combination of [V]. *)
Definition in_cone (n : nat) (V : list vec) (x : vec) : Prop :=
  exists (k : Z) (cs : list Z),
    0 < k /\ length cs = length V /\ Forall (fun c => 0 <= c) cs /\
    vscale k x = lincomb n cs V.

(** [x] is a rational linear combination of [V]. *)
Definition in_span (n : nat) (V : list vec) (x : vec) : Prop :=
  exists (k : Z) (cs : list Z),
    0 < k /\ length cs = length V /\ vscale k x = lincomb n cs V.

(** The inequality [a.x <= 0] holds on all of [V]; the equation [a.x = 0] holds on all of [V]. *)
Definition valid (V : list vec) (a : vec) : Prop := forall v, In v V -> dot a v <= 0.
Definition vanishes (V : list vec) (a : vec) : Prop := forall v, In v V -> dot a v = 0.

(** The rows are linearly independent over the rationals. *)
Definition independent (n : nat) (V : list vec) : Prop :=
  forall cs, length cs = length V -> lincomb n cs V = vzero n -> Forall (fun c => c = 0) cs.

(** [r] is the rank of [V]: some [r] of the vectors are independent and span all of them. *)
Definition is_rank (n : nat) (V : list vec) (r : nat) : Prop :=
  exists B, length B = r /\ incl B V /\ independent n B /\ forall v, In v V -> in_span n B v.

(** [a] defines a facet of the cone generated by [V] (dimension [n]): it is valid, not an equation, and every
    linear form vanishing on all generators on which [a] is tight is [a] (up to scaling) plus an equation
    of the cone, i.e. the face is of codimension one. *)
Definition facet (n : nat) (V : list vec) (a : vec) : Prop :=
  length a = n /\ valid V a /\ ~ vanishes V a /\
  forall b, length b = n ->
    (forall v, In v V -> dot a v = 0 -> dot b v = 0) ->
    exists k t, k <> 0 /\ vanishes V (vadd (vscale k b) (vscale t a)).

(** Two valid inequalities describe the same face up to equations: a positive multiple of one is a positive
    multiple of the other plus an equation. *)
Definition equivalent_ineq (V : list vec) (a b : vec) : Prop :=
  exists k t, 0 < k /\ 0 < t /\ vanishes V (vadd (vscale k a) (vscale (- t) b)).

(** Entries without a common factor. *)
Definition primitive (a : vec) : Prop :=
  forall g, 0 <= g -> (forall x, In x a -> (g | x)) -> g = 1.

(** [x] solves the homogeneous system [a.x <= 0] for all [a] in [A]. *)
Definition solution (n : nat) (A : list vec) (x : vec) : Prop := length x = n /\ forall a, In a A -> dot a x <= 0.

(** [x] spans an extreme ray of the solution cone: it is a non-zero solution, and whenever a multiple of it is the sum
    of two solutions, these are multiples of [x]. *)
Definition extreme_ray (n : nat) (A : list vec) (x : vec) : Prop :=
  solution n A x /\ x <> vzero n /\
  forall k y z, 0 < k -> solution n A y -> solution n A z -> vscale k x = vadd y z ->
    exists m t, 0 < m /\ 0 <= t /\ vscale m y = vscale t x.

(** The solution cone contains no line. *)
Definition no_line (n : nat) (A : list vec) : Prop :=
  forall x, length x = n -> (forall a, In a A -> dot a x = 0) -> x = vzero n.
