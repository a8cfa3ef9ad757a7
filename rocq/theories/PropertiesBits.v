(** * PropertiesBits: both bitset implementations behave like finite sets of indices (C30). *)
From Coq Require Import List NArith Arith Lia Bool.
From Verif Require Import Base BitsetModel BitsetProofs PopcountProofs BitsetTheorems.
Import ListNotations.
Open Scope nat_scope.

(** [build e I] sets the indices [I] one after the other in the bitset [e]; [bs_fixed K] is an empty [BitsetFixedSize]
    of [K] words, [bs_variable bits] a [BitsetVariableSize] constructed for [bits] bits; [cardinal I] is the number of
    different elements of [I].  The last argument [max] is the bound passed by the caller. *)

Definition bounded (max : nat) (I : list nat) : Prop := forall i, In i I -> i < max.

Theorem C30_build : forall K I, bounded (32 * K) I ->
  exists a, build (bs_fixed K) I = Ok a /\ length a = K.
Proof. intros K I H. destruct (build_repr K I H) as (a & E & _ & L & _). eauto. Qed.
Print Assumptions C30_build.

(** The variable size bitset has enough words for the bits it was constructed for (and the constructor needs a bit). *)
Theorem C30_variable : forall bits, (0 < bits -> exists K, bs_variable bits = Ok (bs_fixed K) /\ bits <= 32 * K) /\
  (bits = 0 -> bs_variable bits = UB).
Proof.
  intros bits. split.
  - intros H. unfold bs_variable. rewrite word_end_pos by auto. cbn [bind]. exists (1 + (bits - 1) / 32). split; auto.
    pose proof (Nat.div_mod (bits - 1) 32 ltac:(lia)). pose proof (Nat.mod_upper_bound (bits - 1) 32 ltac:(lia)). lia.
  - intros ->. reflexivity.
Qed.
Print Assumptions C30_variable.

Theorem C30_count : forall K max I a, 0 < max -> max <= 32 * K -> bounded max I ->
  build (bs_fixed K) I = Ok a -> bs_count a max = Ok (cardinal I).
Proof.
  intros K max I a H0 HK HI HA. destruct (build_repr K I) as (a' & E & R).
  { intros i Hi. specialize (HI i Hi). lia. }
  rewrite HA in E. injection E as <-. apply (count_set K max H0 HK); auto.
Qed.
Print Assumptions C30_count.

Theorem C30_contains : forall K max I J a b, 0 < max -> max <= 32 * K -> bounded max I -> bounded max J ->
  build (bs_fixed K) I = Ok a -> build (bs_fixed K) J = Ok b ->
  exists r, bs_contains a b max = Ok r /\ (r = true <-> incl J I).
Proof.
  intros K max I J a b H0 HK HI HJ HA HB.
  destruct (build_repr K I) as (a' & E & R). { intros i Hi. specialize (HI i Hi). lia. }
  rewrite HA in E. injection E as <-.
  destruct (build_repr K J) as (b' & E & R'). { intros i Hi. specialize (HJ i Hi). lia. }
  rewrite HB in E. injection E as <-. apply (contains_set K max H0 HK); auto.
Qed.
Print Assumptions C30_contains.

Theorem C30_equals : forall K max I J a b, 0 < max -> max <= 32 * K -> bounded max I -> bounded max J ->
  build (bs_fixed K) I = Ok a -> build (bs_fixed K) J = Ok b ->
  exists r, bs_equals a b max = Ok r /\ (r = true <-> incl I J /\ incl J I).
Proof.
  intros K max I J a b H0 HK HI HJ HA HB.
  destruct (build_repr K I) as (a' & E & R). { intros i Hi. specialize (HI i Hi). lia. }
  rewrite HA in E. injection E as <-.
  destruct (build_repr K J) as (b' & E & R'). { intros i Hi. specialize (HJ i Hi). lia. }
  rewrite HB in E. injection E as <-. apply (equals_set K max H0 HK); auto.
Qed.
Print Assumptions C30_equals.

(** Merging gives the set union: membership of every index is that of the union, also beyond [max]. *)
Theorem C30_merge : forall K max I J a b, 0 < max -> max <= 32 * K -> bounded max I -> bounded max J ->
  build (bs_fixed K) I = Ok a -> build (bs_fixed K) J = Ok b ->
  exists r, bs_merge a b max = Ok r /\ build (bs_fixed K) (I ++ J) = Ok r.
Proof.
  intros K max I J a b H0 HK HI HJ HA HB.
  destruct (build_repr K I) as (a' & E & R). { intros i Hi. specialize (HI i Hi). lia. }
  rewrite HA in E. injection E as <-.
  destruct (build_repr K J) as (b' & E & R'). { intros i Hi. specialize (HJ i Hi). lia. }
  rewrite HB in E. injection E as <-. destruct (merge_set K max H0 HK a b I J R R' HJ) as (r & E & Rr).
  exists r. split; auto.
  destruct (build_repr K (I ++ J)) as (c & E' & Rc).
  { intros i Hi. apply in_app_iff in Hi as [Hi|Hi]; [specialize (HI i Hi)|specialize (HJ i Hi)]; lia. }
  rewrite E'. f_equal. apply (repr_unique K c r (I ++ J)); auto.
Qed.
Print Assumptions C30_merge.

Theorem C30_unionCount : forall K max I J a b, 0 < max -> max <= 32 * K -> bounded max I -> bounded max J ->
  build (bs_fixed K) I = Ok a -> build (bs_fixed K) J = Ok b ->
  bs_unionCount a b max = Ok (cardinal (I ++ J)).
Proof.
  intros K max I J a b H0 HK HI HJ HA HB.
  destruct (build_repr K I) as (a' & E & R). { intros i Hi. specialize (HI i Hi). lia. }
  rewrite HA in E. injection E as <-.
  destruct (build_repr K J) as (b' & E & R'). { intros i Hi. specialize (HJ i Hi). lia. }
  rewrite HB in E. injection E as <-. apply (unionCount_set K max H0 HK); auto.
  intros i Hi. apply in_app_iff in Hi as [Hi|Hi]; auto.
Qed.
Print Assumptions C30_unionCount.

Theorem C30_unionContains : forall K max I J L a b c, 0 < max -> max <= 32 * K ->
  bounded max I -> bounded max J -> bounded max L ->
  build (bs_fixed K) I = Ok a -> build (bs_fixed K) J = Ok b -> build (bs_fixed K) L = Ok c ->
  exists r, bs_unionContains a b c max = Ok r /\ (r = true <-> incl L (I ++ J)).
Proof.
  intros K max I J L a b c H0 HK HI HJ HL HA HB HC.
  destruct (build_repr K I) as (a' & E & R). { intros i Hi. specialize (HI i Hi). lia. }
  rewrite HA in E. injection E as <-.
  destruct (build_repr K J) as (b' & E & R'). { intros i Hi. specialize (HJ i Hi). lia. }
  rewrite HB in E. injection E as <-.
  destruct (build_repr K L) as (c' & E & R''). { intros i Hi. specialize (HL i Hi). lia. }
  rewrite HC in E. injection E as <-. apply (unionContains_set K max H0 HK); auto.
Qed.
Print Assumptions C30_unionContains.

(** The portable popcount (used when the compiler has no builtin) counts the set bits of every 32-bit word. *)
Theorem C30_popcount : forall n, (n < 2 ^ 32)%N ->
  popcount_portable n = N.of_nat (length (filter (fun i => N.testbit n (N.of_nat i)) (seq 0 32))).
Proof.
  intros n H. rewrite popcount_portable_correct by exact H. f_equal. apply popcount_filter. exact H.
Qed.
Print Assumptions C30_popcount.

(** Indices 31, 32 and 70 in three words: the word boundaries are crossed. *)
Example C30_example : exists a b, build (bs_fixed 3) [31; 32; 70; 32] = Ok a /\ build (bs_fixed 3) [32; 5] = Ok b /\
  bs_count a 71 = Ok 3 /\ bs_contains a b 71 = Ok false /\ bs_unionCount a b 71 = Ok 4 /\
  bs_variable 71 = Ok (bs_fixed 3) /\ bounded 71 [31; 32; 70; 32].
Proof.
  do 2 eexists. split; [reflexivity|]. split; [reflexivity|]. repeat split.
  intros i Hi. cbn in Hi. lia.
Qed.
