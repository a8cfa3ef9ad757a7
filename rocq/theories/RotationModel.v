(** * RotationModel: algorithm_rotation.cpp over an arbitrary integer type. *)
From Coq Require Import List ZArith Arith Bool.
From Verif Require Import Base ListUtil ArithModel MatrixModel FmeModel ClassesModel.
Import ListNotations.
Open Scope nat_scope.

Section Rotation.
  Variable A : Arith.
  Variable order : list nat -> list nat.
  Notation T := (num A).
  Notation row := (list (num A)).
  Notation matrix := (list (list (num A))).

  (** The body of the loop of [rotate] (algorithm_rotation.cpp 62-80): the new ridge and the distances of the nearest vertex. *)
  Definition m_rotate_body (vertices : matrix) (facet ridge : row) (d_f d_r : T) : res (row * T * T) :=
    do g <- m_gcd A d_f d_r;
    do d <- (if a_gti A g 1 then do x <- a_div A d_f g; do y <- a_div A d_r g; Ok (x, y) else Ok (d_f, d_r));
    do r1 <- m_row_mul A ridge (fst d);
    do r2 <- m_row_mul A facet (snd d);
    do r3 <- m_row_sub A r1 r2;
    do ridge' <- m_row_reduce A r3;
    do vertex <- m_nearest A vertices ridge';
    do d_f' <- m_distance A facet vertex;
    do d_r' <- m_distance A ridge' vertex;
    Ok (ridge', d_f', d_r').
  (** [rotate] (algorithm_rotation.cpp 56-83); the theorems exclude running out of fuel. *)
  Fixpoint m_rotate_loop (fuel : nat) (vertices : matrix) (facet ridge : row) (d_f d_r : T) : res row :=
    match fuel with
    | O => UB
    | S fuel' =>
        do s <- m_rotate_body vertices facet ridge d_f d_r;
        let '(ridge', d_f', d_r') := s in
        if negb (a_eqi A d_r' 0) then m_rotate_loop fuel' vertices facet ridge' d_f' d_r' else Ok ridge'
    end.
  (** Also algorithm_rotation.cpp 56-83. *)
  Definition m_rotate (vertices : matrix) (vertex facet ridge : row) : res row :=
    do d_f <- m_distance A facet vertex;
    do d_r <- m_distance A ridge vertex;
    m_rotate_loop (length vertices + 1) vertices facet ridge d_f d_r.

  (** [verticesWithZeroDistance] (algorithm_rotation.cpp 93-102). *)
  Fixpoint m_on_facet (vertices : matrix) (facet : row) : res matrix :=
    match vertices with
    | [] => Ok []
    | v :: vs =>
        do d <- m_distance A facet v;
        do rest <- m_on_facet vs facet;
        Ok (if a_eqi A d 0 then v :: rest else rest)
    end.
  (** [getRidges] (algorithm_rotation.cpp 85-91). *)
  Definition m_ridges (vertices : matrix) (facet : row) : res matrix :=
    do sel <- m_on_facet vertices facet; m_fme A order sel.

  (** The rows collected by [rotation] (algorithm_rotation.cpp 43-50), in the order of the ridges. *)
  Definition m_rotated (vertices : matrix) (facet : row) : res matrix :=
    do furthest <- m_furthest A vertices facet;
    do ridges <- m_ridges vertices facet;
    mapM (fun ridge => m_rotate vertices furthest facet ridge) ridges.
  (** [rotation] (algorithm_rotation.cpp 35-52); [fuel] is that of [getClass]. *)
  Definition m_rotation (fuel : nat) (vertices : matrix) (facet : row) (maps : list lmap) (t : tag) : res (option matrix) :=
    do rows <- m_rotated vertices facet;
    m_classes A fuel t maps (m_set_of A rows).
End Rotation.
