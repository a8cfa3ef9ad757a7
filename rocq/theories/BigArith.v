(** * BigArith: BigInteger as the integer type of the algorithms ("-i inf", integer_type_selection.tpp). *)
From Coq Require Import List ZArith Bool.
From Verif Require Import Base ArithModel BigIntModel BigIntProofs.
Import ListNotations.
Open Scope Z_scope.

(** The algorithms compare only with the literals 0, 1 and -1, for which comparing always returns (eqi_spec). *)
Definition returned (m : res bool) : bool := match m with Ok b => b | _ => false end.
(** Digits of 64 bits; [-INT_MIN] wraps, so that nothing below comes from undefined behaviour. *)
Definition BIG : Arith :=
  mk_arith big (b_of_signed 64) (fun a => Ok (b_neg a)) (b_add 64 false) (b_sub 64 false) (b_mul 64 false) (b_div 64 false) (b_mod 64 false)
    (fun a => Ok (b_abs a)) b_gt (fun a v => returned (b_eqi 64 false a v)) (fun a v => returned (b_lti 64 false a v))
    (fun a v => returned (b_gti 64 false a v)) (fun a v => returned (b_lei 64 false a v)) (fun a => 64 * length (limbs a))%nat.

(** Conversion of an input of [int]s (cast.cpp), and the numbers denoted by a result. *)
Definition big_rows (V : list (list Z)) : list (list big) := map (map (b_of_signed 64)) V.
Definition rows_of (F : list (list big)) : list (list Z) := map (map (bval 64)) F.
