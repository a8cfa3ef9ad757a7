(** * PropertiesMaps: applying maps, classes and representatives (C25, C26, C27). *)
From Coq Require Import List ZArith Arith Lia Bool Permutation.
From Verif Require Import Base Spec LinAlg ListUtil FmeCore ArithModel SafeIntModel Refine IntTypes FmeTheorems Samples
  ClassesModel ClassesProofs ApplyTheorems OrbitTheorems.
Import ListNotations.
Open Scope Z_scope.

(** [m_apply (arith t) Facet_tag m a] is [apply(m, a, tag::facet{})], [m_apply (arith t) Vertex_tag m x] is [apply(m, x, tag::vertex{})].
    [substitute m x] is the point whose coordinates are the values of the images of the map at [x]. *)

(** ** C25: applying a map *)
Theorem C25_point : forall t n m (x y : vec),
  t <> INT16 -> map_in n m -> length x = n -> Forall (representable t) x -> m_apply (arith t) Vertex_tag m x = Ok y ->
  exists g, 0 < g /\ vscale g y = substitute m x /\ (primitive y \/ y = vzero n).
Proof.
  intros t n m x y Ht Hm Hx Hr E. destruct (apply_result t Vertex_tag n m x y Ht Hm Hx Hr E) as (-> & _).
  rewrite (vertex_raw n) by auto. exists (rfac (substitute m x)). split; [apply rfac_pos|]. split; [apply rnorm_spec|].
  destruct (list_eq_dec Z.eq_dec (substitute m x) (vzero n)) as [->|Hne].
  - right. assert (Q := rnorm_spec (vzero n)). unfold rnorm in *. destruct (Z.ltb_spec 1 (rgcd (vzero n))) as [H|]; auto.
    assert (rgcd (vzero n) = 0) by (apply rgcd_0; rewrite vzero_length; auto). lia.
  - left. apply rnorm_primitive. rewrite (substitute_length n); auto.
Qed.
Print Assumptions C25_point.

Theorem C25_inequality : forall t n m (a b : vec),
  t <> INT16 -> map_in n m -> length a = n -> Forall (representable t) a -> m_apply (arith t) Facet_tag m a = Ok b ->
  length b = n /\ (primitive b \/ b = vzero n) /\
  exists g, 0 < g /\ forall x, length x = n -> g * dot b x = dot a (substitute m x).
Proof.
  intros t n m a b Ht Hm Ha Hr E. destruct (apply_result t Facet_tag n m a b Ht Hm Ha Hr E) as (-> & _).
  assert (Hl : length (praw Facet_tag m a) = n) by (rewrite praw_length; auto).
  split; [rewrite rnorm_length; auto|]. split.
  - destruct (list_eq_dec Z.eq_dec (praw Facet_tag m a) (vzero n)) as [->|Hne].
    + right. unfold rnorm. destruct (Z.ltb_spec 1 (rgcd (vzero n))) as [H|]; auto.
      assert (rgcd (vzero n) = 0) by (apply rgcd_0; rewrite vzero_length; auto). lia.
    + left. apply rnorm_primitive. congruence.
  - exists (rfac (praw Facet_tag m a)). split; [apply rfac_pos|]. intros x Hx. rewrite <- dot_rnorm. apply (facet_dot n); auto.
Qed.
Print Assumptions C25_inequality.

(** The mapped inequality at a point has the sign of the inequality at the mapped point: they agree up to positive factors. *)
Theorem C25_adjoint : forall t n m (a b x y : vec),
  t <> INT16 -> map_in n m -> length a = n -> length x = n -> rows_representable t [a; x] ->
  m_apply (arith t) Facet_tag m a = Ok b -> m_apply (arith t) Vertex_tag m x = Ok y ->
  exists k l, 0 < k /\ 0 < l /\ k * dot b x = l * dot a y.
Proof.
  intros t n m a b x y Ht Hm Ha Hx Hr Eb Ey. assert (Hra := Forall_inv Hr). assert (Hrx := Forall_inv (Forall_inv_tail Hr)).
  destruct (C25_inequality t n m a b Ht Hm Ha Hra Eb) as (_ & _ & g & Hg & Hb).
  destruct (C25_point t n m x y Ht Hm Hx Hrx Ey) as (h & Hh & Hy & _).
  exists g, h. split; auto. split; auto. rewrite (Hb x Hx), <- Hy, dot_vscale_r. reflexivity.
Qed.
Print Assumptions C25_adjoint.

(** Applying is linear up to the positive common factors removed. *)
Lemma substitute_vadd m x y : length x = length y -> substitute m (vadd x y) = vadd (substitute m x) (substitute m y).
Proof.
  intros Hl. unfold substitute. induction m as [|im m IH]; cbn [map vadd]; auto. f_equal; auto.
  unfold image_value. induction im as [|[k c] im IHi]; cbn [fold_right fst snd]; auto. rewrite IHi.
  assert (E : nth k (vadd x y) 0 = nth k x 0 + nth k y 0); [|rewrite E; lia].
  clear -Hl. revert y Hl k. induction x as [|u x IHx]; intros [|v y] Hl k; try discriminate; [destruct k; reflexivity|].
  destruct k as [|k]; cbn [vadd nth]; auto.
Qed.
Theorem C25_linear : forall t tg n m (x y z x' y' z' : vec) c d,
  t <> INT16 -> map_in n m -> length x = n -> length y = n -> z = vadd (vscale c x) (vscale d y) -> rows_representable t [x; y; z] ->
  m_apply (arith t) tg m x = Ok x' -> m_apply (arith t) tg m y = Ok y' -> m_apply (arith t) tg m z = Ok z' ->
  exists i j k, 0 < i /\ 0 < j /\ 0 < k /\ vscale k z' = vadd (vscale (c * i) x') (vscale (d * j) y').
Proof.
  intros t tg n m x y z x' y' z' c d Ht Hm Hx Hy -> Hr E1 E2 E3.
  assert (R1 := Forall_inv Hr). assert (R2 := Forall_inv (Forall_inv_tail Hr)). assert (R3 := Forall_inv (Forall_inv_tail (Forall_inv_tail Hr))).
  set (z := vadd (vscale c x) (vscale d y)) in *.
  assert (Hz : length z = n) by (unfold z; apply vadd_length_eq; rewrite vscale_length; auto).
  destruct (apply_result t tg n m x x' Ht Hm Hx R1 E1) as (-> & _).
  destruct (apply_result t tg n m y y' Ht Hm Hy R2 E2) as (-> & _).
  destruct (apply_result t tg n m z z' Ht Hm Hz R3 E3) as (-> & _).
  exists (rfac (praw tg m x)), (rfac (praw tg m y)), (rfac (praw tg m z)). split; [apply rfac_pos|]. split; [apply rfac_pos|]. split; [apply rfac_pos|].
  rewrite rnorm_spec.
  assert (Hv : forall k l u, vscale (k * l) u = vscale k (vscale l u)).
  { intros k l u. unfold vscale. rewrite map_map. apply map_ext. intros; lia. }
  rewrite !Hv, !rnorm_spec.
  assert (L : forall u : vec, length u = n -> length (praw tg m u) = n) by (intros u Hu; rewrite praw_length; auto).
  apply (dot_ext n); [auto|apply vadd_length_eq; rewrite vscale_length; auto|]. intros p Hp.
  rewrite dot_vadd_l by (rewrite !vscale_length, !L; auto). rewrite !dot_vscale_l.
  destruct tg.
  - rewrite !(facet_dot n) by auto. unfold z. rewrite dot_vadd_l by (rewrite !vscale_length; congruence). rewrite !dot_vscale_l. reflexivity.
  - rewrite !(vertex_raw n) by auto. unfold z. rewrite substitute_vadd by (rewrite !vscale_length; congruence).
    assert (S : forall k u, substitute m (vscale k u) = vscale k (substitute m u)).
    { intros k u. unfold substitute, vscale. rewrite map_map. apply map_ext. intros im. unfold image_value.
      induction im as [|[i f] im IH]; cbn [fold_right fst snd]; [lia|]. rewrite IH.
      assert (E : nth i (map (Z.mul k) u) 0 = k * nth i u 0) by (rewrite <- (map_nth (Z.mul k)); f_equal; lia). rewrite E. lia. }
    rewrite !S, dot_vadd_l by (rewrite !vscale_length, !(substitute_length n); auto). rewrite !dot_vscale_l. reflexivity.
Qed.
Print Assumptions C25_linear.

(** With unbounded integers it always returns; with SafeInteger it returns the same or throws. *)
Theorem C25_defined : forall tg n m (x : vec), map_in n m -> length x = n ->
  exists y : vec, m_apply (arith EXACT) tg m x = Ok y /\
    (rows_representable SAFE [x] -> m_apply (arith SAFE) tg m x = Ok y \/ m_apply (arith SAFE) tg m x = Throw).
Proof.
  intros tg n m x Hm Hx. eexists. split; [apply (apply_exact tg n); auto|]. intros Hr.
  assert (O := apply_outcome SAFE tg n m x ltac:(discriminate) Hm Hx (Forall_inv Hr)).
  destruct (m_apply (arith SAFE) tg m x) as [y| |]; cbn [bind outcome] in O; [left; f_equal; congruence|right; reflexivity|intuition discriminate].
Qed.
Print Assumptions C25_defined.

(** A map of the unit square: the quarter turn x -> y, y -> 1 - x. *)
Definition quarter_turn : lmap := [[(1%nat, 1)]; [(2%nat, 1); (0%nat, -1)]; [(2%nat, 1)]].
Lemma quarter_turn_map : map_in 3 quarter_turn.
Proof. split; auto. repeat constructor; cbn; auto. Qed.
Example C25_example : substitute quarter_turn [1; 0; 1] = [0; 0; 1] /\
  m_apply (arith INT32) Vertex_tag quarter_turn [1; 0; 1] = Ok [0; 0; 1] /\
  m_apply (arith INT32) Facet_tag quarter_turn [0; -1; 0] = Ok [1; 0; -1] /\
  m_apply (arith INT32) Vertex_tag quarter_turn [2; 0; 2] = Ok [0; 0; 1].
Proof. repeat split; reflexivity. Qed.

(** ** C26: getClass *)
(** [orbit t tg maps r x]: [x] is reached from [r] by applying maps of the list one after the other.  [Some S] is the set
    returned; [None] means that more than [fuel] rows were taken from the work list. *)
Theorem C26_class_is_orbit : forall t tg maps fuel (r : vec) (S : list vec),
  m_get_class (arith t) fuel tg maps r = Ok (Some S) -> NoDup S /\ forall x, In x S <-> orbit t tg maps r x.
Proof. intros t tg maps fuel r S E. destruct (get_class_spec t tg maps r fuel S E). split; [apply (sorted_NoDup t); auto|auto]. Qed.
Print Assumptions C26_class_is_orbit.

(** It returns whenever the orbit is finite and no application in it fails. *)
Theorem C26_returns : forall t tg maps (r : vec) (L : list vec),
  (forall x, orbit t tg maps r x -> In x L) ->
  (forall x m, orbit t tg maps r x -> In m maps -> exists y, m_apply (arith t) tg m x = Ok y) ->
  forall fuel, (length L <= fuel)%nat -> exists S, m_get_class (arith t) fuel tg maps r = Ok (Some S).
Proof. intros t tg maps r L HL Ha fuel Hf. apply (get_class_total t tg maps r L); auto. Qed.
Print Assumptions C26_returns.

(** With unbounded integers and well-formed maps no application fails: it returns if and only if the orbit is finite. *)
Theorem C26_returns_iff_finite : forall tg n maps (r : vec), Forall (map_in n) maps -> length r = n ->
  (exists fuel S, m_get_class (arith EXACT) fuel tg maps r = Ok (Some S)) <-> (exists L : list vec, forall x, orbit EXACT tg maps r x -> In x L).
Proof.
  intros tg n maps r Hm Hr. split.
  - intros (fuel & S & E). exists S. intros x Hx. apply (C26_class_is_orbit EXACT tg maps fuel r S E). auto.
  - intros (L & HL). exists (length L).
    assert (Hlen : forall x, orbit EXACT tg maps r x -> length x = n).
    { induction 1 as [|x m y _ IH Hin E]; auto. rewrite Forall_forall in Hm. rewrite (apply_exact tg n m x (Hm m Hin) IH) in E.
      assert (y = rnorm (praw tg m x)) as -> by congruence. rewrite rnorm_length, praw_length. auto. }
    apply (C26_returns EXACT tg maps r L HL); auto. intros x m Hx Hin. rewrite Forall_forall in Hm.
    eexists. apply (apply_exact tg n m x (Hm m Hin)). auto.
Qed.
Print Assumptions C26_returns_iff_finite.

Example C26_example : m_get_class (arith INT32) 4 Facet_tag [quarter_turn] [0; -1; 0] = Ok (Some [[-1; 0; 0]; [0; -1; 0]; [0; 1; -1]; [1; 0; -1]]).
Proof. reflexivity. Qed.

(** ** C27: classes and representatives *)
(** [largest t tg maps r x]: [x] is the lexicographically largest row of the orbit of [r]. *)
Theorem C27_representative : forall t tg maps fuel (r x : vec),
  m_representative (arith t) fuel tg maps r = Ok (Some x) -> largest t tg maps r x.
Proof. intros. apply representative_spec with (fuel := fuel). auto. Qed.
Print Assumptions C27_representative.

(** When the maps are injective on the class, all rows of the class have the same representative. *)
Theorem C27_representative_constant : forall t tg maps fuel fuel' (r s x y : vec),
  acts_injectively t tg maps r -> orbit t tg maps r s ->
  m_representative (arith t) fuel tg maps r = Ok (Some x) -> m_representative (arith t) fuel' tg maps s = Ok (Some y) -> x = y.
Proof.
  intros t tg maps fuel fuel' r s x y Hi Hs Ex Ey. assert (Lx := representative_spec t fuel tg maps r x Ex). assert (Ly := representative_spec t fuel' tg maps s y Ey).
  unfold m_representative in Ex. match type of Ex with (bind ?m _ = _) => destruct m as [[S|]| |] eqn:Ec end; cbn [bind] in Ex; try discriminate.
  destruct (get_class_spec t tg maps r fuel S Ec) as (_ & HS).
  assert (Hrev := injective_reversible t tg maps r S Hi (fun z Hz => proj2 (HS z) Hz)).
  apply (largest_unique t tg maps s x y); auto. apply (largest_orbit t tg maps r s x Hrev Hs). auto.
Qed.
Print Assumptions C27_representative_constant.

(** [classes(matrix)]: one row per class of the input rows, the largest one. *)
Theorem C27_classes : forall t tg maps fuel (rows out : list vec),
  (forall r, In r rows -> acts_injectively t tg maps r) ->
  m_classes_of (arith t) fuel tg maps rows = Ok (Some out) ->
  (forall x, In x out -> exists r, In r rows /\ largest t tg maps r x) /\
  (forall r, In r rows -> exists x, In x out /\ largest t tg maps r x) /\
  NoDup out /\
  (forall x y, In x out -> In y out -> orbit t tg maps x y -> x = y).
Proof.
  intros t tg maps fuel rows out Hi E. unfold m_classes_of, m_classes in E.
  destruct (set_of_spec t rows) as (Hs & Hin).
  destruct (classes_loop_spec t _ fuel tg maps _ out Hs E) as (heads & H1 & H2 & H3 & H4 & H5).
  assert (Hrev : forall h, In h heads -> reversible t tg maps h).
  { intros h Hh. destruct (H5 h Hh) as (L & HL). apply (injective_reversible t tg maps h L); auto. apply Hi. apply Hin. auto. }
  assert (Hpair : forall i j h k, i <> j -> nth_error heads i = Some h -> nth_error heads j = Some k -> ~ orbit t tg maps h k).
  { intros i j h k Hij Eh Ek Ho. assert (i < j \/ j < i)%nat as [Hlt|Hlt] by lia.
    - exact (H4 i j h k Hlt Eh Ek Ho).
    - apply (H4 j i k h Hlt Ek Eh). apply (Hrev h (nth_error_In _ _ Eh) h k); auto. constructor. }
  assert (Hout : forall i x, nth_error out i = Some x -> exists h, nth_error heads i = Some h /\ largest t tg maps h x).
  { clear -H2. induction H2 as [|h y heads out Hy _ IH]; intros [|i] x Ex; try discriminate; cbn [nth_error] in *; eauto.
    injection Ex as <-. eauto. }
  assert (Horb : forall i j x y, nth_error out i = Some x -> nth_error out j = Some y -> orbit t tg maps x y -> i = j).
  { intros i j x y Ex Ey Hxy. destruct (Nat.eq_dec i j) as [|Hne]; auto. exfalso.
    destruct (Hout i x Ex) as (h & Eh & Lh & _). destruct (Hout j y Ey) as (k & Ek & Lk & _).
    apply (Hpair i j h k Hne Eh Ek). apply (orbit_trans t tg maps h x); auto. apply (orbit_trans t tg maps x y); auto.
    apply (Hrev k (nth_error_In _ _ Ek) k y); auto. constructor. }
  split; [|split; [|split]].
  - intros x Hx. apply In_nth_error in Hx. destruct Hx as (i & Ei). destruct (Hout i x Ei) as (h & Eh & Lh).
    exists h. split; auto. apply Hin. apply H1. apply (nth_error_In _ _ Eh).
  - intros r Hr. apply Hin in Hr. destruct (H3 r Hr) as (h & Hh & Ho).
    assert (Hx : exists x, In x out /\ largest t tg maps h x).
    { clear -H2 Hh. induction H2 as [|h' y heads out Hy _ IH]; [destruct Hh|]. destruct Hh as [<-|Hh]; [exists y; split; [left; auto|auto]|].
      destruct (IH Hh) as (x & Hx & Lx). exists x. split; [right; auto|auto]. }
    destruct Hx as (x & Hx & Lx). exists x. split; auto. apply (largest_orbit t tg maps h r x (Hrev h Hh) Ho). auto.
  - apply NoDup_nth_error. intros i j Hi' E'. destruct (nth_error out i) as [x|] eqn:Ex; [|apply nth_error_None in Ex; lia].
    apply (Horb i j x x); auto. constructor.
  - intros x y Hx Hy Hxy. apply In_nth_error in Hx. apply In_nth_error in Hy. destruct Hx as (i & Ex), Hy as (j & Ey).
    assert (i = j) by (apply (Horb i j x y); auto). subst j. congruence.
Qed.
Print Assumptions C27_classes.

(** Without any hypothesis on the maps: every returned row is the largest of the class of an input row, and every input row is in the
    class of an input row whose representative is returned. *)
Theorem C27_covering : forall t tg maps fuel (rows out : list vec),
  m_classes_of (arith t) fuel tg maps rows = Ok (Some out) ->
  (forall x, In x out -> exists r, In r rows /\ largest t tg maps r x) /\
  (forall r, In r rows -> exists s x, In s rows /\ orbit t tg maps s r /\ In x out /\ largest t tg maps s x).
Proof.
  intros t tg maps fuel rows out E. unfold m_classes_of, m_classes in E.
  destruct (set_of_spec t rows) as (Hs & Hin).
  destruct (classes_loop_spec t _ fuel tg maps _ out Hs E) as (heads & H1 & H2 & H3 & H4 & H5). split.
  - intros x Hx. assert (Hh : exists h, In h heads /\ largest t tg maps h x).
    { clear -H2 Hx. induction H2 as [|h' y heads out Hy _ IH]; [destruct Hx|]. destruct Hx as [<-|Hx]; [exists h'; split; [left; auto|auto]|].
      destruct (IH Hx) as (h & Hh & Lx). exists h. split; [right; auto|auto]. }
    destruct Hh as (h & Hh & Lh). exists h. split; auto. apply Hin. auto.
  - intros r Hr. apply Hin in Hr. destruct (H3 r Hr) as (h & Hh & Ho). exists h.
    assert (Hx : exists x, In x out /\ largest t tg maps h x).
    { clear -H2 Hh. induction H2 as [|h' y heads out Hy _ IH]; [destruct Hh|]. destruct Hh as [<-|Hh]; [exists y; split; [left; auto|auto]|].
      destruct (IH Hh) as (x & Hx & Lx). exists x. split; [right; auto|auto]. }
    destruct Hx as (x & Hx & Lx). exists x. split; [apply Hin; auto|]. auto.
Qed.
Print Assumptions C27_covering.

(** It returns when the classes are finite and no application in them fails. *)
Theorem C27_returns : forall t tg maps (rows : list vec) (L : list vec),
  (forall r x, In r rows -> orbit t tg maps r x -> In x L) ->
  (forall r x m, In r rows -> orbit t tg maps r x -> In m maps -> exists y, m_apply (arith t) tg m x = Ok y) ->
  forall fuel, (length L <= fuel)%nat -> exists out, m_classes_of (arith t) fuel tg maps rows = Ok (Some out).
Proof.
  intros t tg maps rows L HL Ha fuel Hf. unfold m_classes_of, m_classes. destruct (set_of_spec t rows) as (Hs & Hin).
  apply classes_loop_total; auto. intros r Hr. apply Hin in Hr. apply (C26_returns t tg maps r L); auto; [intros x; apply HL; auto|].
  intros x m Hx Hm. apply (Ha r); auto.
Qed.
Print Assumptions C27_returns.

(** Injectivity is needed: a map that is not injective can make the returned rows equivalent. *)
Definition projection : lmap := [[]; [(1%nat, 1)]].
Theorem C27_injectivity_needed : exists (rows out : list vec) x y,
  m_classes_of (arith EXACT) 10 Facet_tag [projection] rows = Ok (Some out) /\ In x out /\ In y out /\ x <> y /\ orbit EXACT Facet_tag [projection] x y.
Proof.
  exists [[0; 1]; [1; 1]], [[0; 1]; [1; 1]], [1; 1], [0; 1]. split; [reflexivity|]. split; [right; left; reflexivity|]. split; [left; reflexivity|].
  split; [discriminate|]. apply (orbit_apply EXACT Facet_tag [projection] [1; 1] [1; 1] projection); [constructor|left; auto|reflexivity].
Qed.
Print Assumptions C27_injectivity_needed.

Example C27_example :
  m_classes_of (arith INT32) 4 Facet_tag [quarter_turn] [[-1; 0; 0]; [0; -1; 0]; [1; 0; -1]; [0; 1; -1]] = Ok (Some [[1; 0; -1]]) /\
  acts_injectively INT32 Facet_tag [quarter_turn] [0; -1; 0].
Proof.
  split; [reflexivity|].
  assert (Ho := C26_class_is_orbit INT32 Facet_tag [quarter_turn] 4 [0; -1; 0] _ C26_example). destruct Ho as (_ & Ho).
  intros m [<-|[]]. split.
  - intros x Hx. apply Ho in Hx. cbn [In] in Hx. intuition (subst; eexists; reflexivity).
  - intros x x' y Hx Hx' E1 E2. apply Ho in Hx. apply Ho in Hx'. cbn [In] in Hx, Hx'.
    destruct Hx as [<-|[<-|[<-|[<-|[]]]]], Hx' as [<-|[<-|[<-|[<-|[]]]]]; try reflexivity; exfalso; vm_compute in E1, E2; congruence.
Qed.
