(** * Base: outcomes of C++ computations. *)
From Coq Require Export List Arith ZArith Lia Bool Permutation.
Export ListNotations.

(** Outcome of a piece of C++ code.
    - [Ok a]: it returns normally;
    - [Throw]: an exception leaves it (or, below a [noexcept] function, [std::terminate] ends the program):
      in both cases no result is produced;
    - [UB]: undefined behaviour was reached (out-of-range access, signed overflow, ...). *)
Inductive res (A : Type) : Type :=
| Ok (a : A)
| Throw
| UB.
Arguments Ok {A} a.
Arguments Throw {A}.
Arguments UB {A}.

Definition bind {A B : Type} (m : res A) (f : A -> res B) : res B :=
  match m with
  | Ok a => f a
  | Throw => Throw
  | UB => UB
  end.

Declare Scope res_scope.
Delimit Scope res_scope with res.
Notation "'do' x <- m ; f" := (bind m (fun x => f))
  (at level 200, x pattern, m at level 100, f at level 200, right associativity) : res_scope.
Open Scope res_scope.

(** Mapping a partial computation over a list from left to right (a range-for loop collecting results). *)
Fixpoint mapM {A B : Type} (f : A -> res B) (l : list A) : res (list B) :=
  match l with
  | [] => Ok []
  | x :: l' => do y <- f x; do ys <- mapM f l'; Ok (y :: ys)
  end.

(** A loop carrying a state through a list. *)
Fixpoint foldM {A S : Type} (f : S -> A -> res S) (s : S) (l : list A) : res S :=
  match l with
  | [] => Ok s
  | x :: l' => do s' <- f s x; foldM f s' l'
  end.

Lemma bind_assoc {A B C} (m : res A) (f : A -> res B) (g : B -> res C) :
  bind (bind m f) g = bind m (fun x => bind (f x) g).
Proof. destruct m; reflexivity. Qed.

Lemma bind_ok_r {A} (m : res A) : bind m Ok = m.
Proof. destruct m; reflexivity. Qed.

Lemma foldM_app {A S} (f : S -> A -> res S) s l l' : foldM f s (l ++ l') = bind (foldM f s l) (fun s' => foldM f s' l').
Proof. revert s; induction l as [|y l IH]; intros s; cbn [app foldM bind]; auto. rewrite bind_assoc. destruct (f s y); cbn [bind]; auto. Qed.

Lemma foldM_snoc {A S} (f : S -> A -> res S) s l x : foldM f s (l ++ [x]) = bind (foldM f s l) (fun s' => f s' x).
Proof. rewrite foldM_app. destruct (foldM f s l); cbn [bind foldM]; auto. apply bind_ok_r. Qed.
