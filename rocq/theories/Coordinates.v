(** * Coordinates: changes of coordinates act on facets and on extreme rays (for C67). *)
From Coq Require Import List ZArith QArith Arith Bool Lia Lqa Permutation.
From Verif Require Import Base Spec LinAlg Cone ListUtil ArithModel MatrixModel FmeModel IntTypes ClassesModel ClassesProofs ApplyTheorems PropertiesMaps
  ConstraintModel PropertiesConstraints Hull Corners FmeCore FmePure FmePrepare FmeCorrect FmeTheorems PropertiesFme Adjacency NormalForm Symmetry VertexImages PropertiesAd ConeSame PropertiesMapFile HullSame PropertiesSame
  PropertiesExpand PropertiesExpandSystem PropertiesProgram.
Import ListNotations.
Open Scope nat_scope.
Open Scope Z_scope.
Open Scope list_scope.

Section Change.
  Variables (n : nat) (m : lmap).
  Hypothesis Hm : maps_of_dimension n [m].
  Hypothesis Ho : PropertiesExpandSystem.onto n m.
  Notation N := (S n).
  Notation sub := (substitute m).
  Notation pull := (praw Facet_tag m).
  Let Mi : map_in N m.
  Proof. apply Hm. left. reflexivity. Qed.
  Let Ml : nth (N - 1) m [] = [((N - 1)%nat, 1)].
  Proof. replace (N - 1)%nat with n by lia. apply Hm. left. reflexivity. Qed.

  (** ** Rows *)
  Lemma change_dot f x : length f = N -> length x = N -> dot (pull f) x = dot f (sub x).
  Proof. apply (pull_dot N m Mi). Qed.
  Lemma change_injective b : length b = N -> pull b = vzero N -> b = vzero N.
  Proof.
    intros Lb E. apply (onto_rows n m); auto; [apply vzero_length|]. intros x Lx. rewrite <- change_dot, E by auto. rewrite !dot_vzero_l. reflexivity.
  Qed.
  Lemma change_unit : pull (unit_vec N n (-1)) = unit_vec N n (-1).
  Proof. assert (E := pull_trivial N m Mi Ml ltac:(lia)). replace (N - 1)%nat with n in E by lia. exact E. Qed.
  Lemma change_last x : nth n (sub x) 0 = nth n x 0.
  Proof. assert (E := sub_last N m Ml x). replace (N - 1)%nat with n in E by lia. exact E. Qed.
  Lemma change_length x : length (sub x) = N.
  Proof. apply (substitute_length N m Mi). Qed.

  Lemma split_solution (rows : list vec) : dims (S N) rows -> (length rows = N)%nat -> (forall x, length x = N -> (forall r, In r rows -> dot r (x ++ [0]) = 0) -> x = vzero N) ->
    exists x k, length x = N /\ k <> 0 /\ forall r, In r rows -> dot r (x ++ [k]) = 0.
  Proof.
    intros D L Inj. destruct (underdetermined (S N) rows D ltac:(lia)) as (y & Ly & Hy & HY). destruct (exists_last (l := y)) as (x & k & ->); [intros ->; cbn in Ly; lia|].
    rewrite app_length in Ly. cbn [length] in Ly. assert (Lx : length x = N) by lia. exists x, k. split; auto. split; auto. intros ->. apply Hy. rewrite (Inj x Lx HY). unfold vzero. change [0] with (repeat 0 1). rewrite <- repeat_app. f_equal. lia.
  Qed.
  (** Every row is the pull of a row, up to a factor. *)
  Lemma change_onto a : length a = N -> exists b k, length b = N /\ 0 < k /\ pull b = vscale k a.
  Proof.
    intros La. assert (C : forall i b, (i < N)%nat -> length b = N -> dot (sub (unit_vec N i 1)) b = nth i (pull b) 0).
    { intros i b Hi Lb. rewrite dot_comm, <- change_dot by (auto; apply unit_vec_length). rewrite dot_comm, dot_unit by (auto; rewrite praw_length; auto). ring. }
    assert (K : exists b k, length b = N /\ k <> 0 /\ pull b = vscale k a).
    { destruct (split_solution (map (fun i => sub (unit_vec N i 1) ++ [- nth i a 0]) (seq 0 N))) as (b & k & Lb & Hk & H).
      - apply Forall_forall. intros r Hr. apply in_map_iff in Hr as (i & <- & _). rewrite app_length, change_length. cbn. lia.
      - rewrite map_length, seq_length. reflexivity.
      - intros x Lx H. apply change_injective; auto. apply (vec_ext_nth N); [rewrite praw_length; auto|apply vzero_length|]. intros i Hi. rewrite nth_vzero.
        assert (Q := H (sub (unit_vec N i 1) ++ [- nth i a 0]) ltac:(apply in_map_iff; exists i; split; auto; apply in_seq; lia)). rewrite dot_snoc in Q by (rewrite change_length; auto). rewrite C in Q by auto. lia.
      - exists b, k. split; auto. split; auto. apply (vec_ext_nth N); [rewrite praw_length; auto|rewrite vscale_length; auto|]. intros i Hi. rewrite nth_vscale.
        assert (Q := H (sub (unit_vec N i 1) ++ [- nth i a 0]) ltac:(apply in_map_iff; exists i; split; auto; apply in_seq; lia)). rewrite dot_snoc in Q by (rewrite change_length; auto). rewrite C in Q by auto. lia. }
    destruct K as (b & k & Lb & Hk & E). destruct (Z_lt_ge_dec 0 k) as [P|P]; [exists b, k; auto|]. exists (vscale (-1) b), (- k). split; [rewrite vscale_length; auto|]. split; [lia|].
    apply (dot_ext N); [rewrite praw_length, vscale_length; auto|rewrite vscale_length; auto|]. intros x Lx. rewrite change_dot by (rewrite ?vscale_length; auto). rewrite !dot_vscale_l, <- change_dot, E, dot_vscale_l by auto. ring.
  Qed.

  (** ** Columns *)
  Lemma column_injective x : length x = N -> sub x = vzero N -> x = vzero N.
  Proof.
    intros Lx E. apply (dot_ext N); [auto|apply vzero_length|]. intros a La. rewrite !(dot_comm _ a). destruct (change_onto a La) as (b & k & Lb & Hk & EB).
    assert (Q := change_dot b x Lb Lx). rewrite EB, E, dot_vscale_l, (dot_comm b), dot_vzero_l in Q. rewrite (dot_comm a (vzero N)), dot_vzero_l. nia.
  Qed.
  Lemma column_onto y : length y = N -> exists x k, length x = N /\ 0 < k /\ sub x = vscale k y.
  Proof.
    intros Ly. assert (C : forall i x, (i < N)%nat -> length x = N -> dot (pull (unit_vec N i 1)) x = nth i (sub x) 0).
    { intros i x Hi Lx. rewrite change_dot by (auto; apply unit_vec_length). rewrite dot_unit by (auto using change_length). ring. }
    assert (LP : forall i, length (pull (unit_vec N i 1)) = N) by (intros; rewrite praw_length; apply unit_vec_length).
    assert (K : exists x k, length x = N /\ k <> 0 /\ sub x = vscale k y).
    { destruct (split_solution (map (fun i => pull (unit_vec N i 1) ++ [- nth i y 0]) (seq 0 N))) as (x & k & Lx & Hk & H).
      - apply Forall_forall. intros r Hr. apply in_map_iff in Hr as (i & <- & _). rewrite app_length, LP. cbn. lia.
      - rewrite map_length, seq_length. reflexivity.
      - intros x Lx H. apply column_injective; auto. apply (vec_ext_nth N); [apply change_length|apply vzero_length|]. intros i Hi. rewrite nth_vzero.
        assert (Q := H (pull (unit_vec N i 1) ++ [- nth i y 0]) ltac:(apply in_map_iff; exists i; split; auto; apply in_seq; lia)). rewrite dot_snoc in Q by (rewrite LP; auto). rewrite C in Q by auto. lia.
      - exists x, k. split; auto. split; auto. apply (vec_ext_nth N); [apply change_length|rewrite vscale_length; auto|]. intros i Hi. rewrite nth_vscale.
        assert (Q := H (pull (unit_vec N i 1) ++ [- nth i y 0]) ltac:(apply in_map_iff; exists i; split; auto; apply in_seq; lia)). rewrite dot_snoc in Q by (rewrite LP; auto). rewrite C in Q by auto. lia. }
    destruct K as (x & k & Lx & Hk & E). destruct (Z_lt_ge_dec 0 k) as [P|P]; [exists x, k; auto|]. exists (vscale (-1) x), (- k). split; [rewrite vscale_length; auto|]. split; [lia|].
    rewrite sub_scale, E. apply (vec_ext_nth N); [rewrite !vscale_length; auto|rewrite vscale_length; auto|]. intros i Hi. rewrite !nth_vscale. ring.
  Qed.

  (** ** Facets *)
  Variable V : list vec.
  Hypothesis HV : dims N V.
  Let W := map sub V.
  Lemma image_dims : dims N W.
  Proof. apply Forall_forall. intros w Hw. apply in_map_iff in Hw as (v & <- & _). apply change_length. Qed.
  Lemma image_onto : Symmetry.onto m V W.
  Proof.
    split.
    - intros v Hv. exists (sub v), 1, 1. split; [apply in_map; auto|]. split; [lia|]. split; [lia|]. reflexivity.
    - intros w Hw. apply in_map_iff in Hw as (v & <- & Hv). exists v, 1, 1. split; auto. split; [lia|]. split; [lia|]. reflexivity.
  Qed.
  Lemma image_facet f : length f = N -> facet N W f <-> facet N V (pull f).
  Proof.
    intros Lf. split.
    - apply (pull_facet N m Mi V W HV image_onto). intros a La. destruct (change_onto a La) as (b & k & Lb & Hk & E). exists b, k. split; auto. split; [lia|]. intros v _. rewrite E, dot_vscale_l. reflexivity.
    - intros (_ & A1 & A2 & A3). split; auto. split; [apply (pull_valid N m Mi V W HV image_onto); auto|]. split; [intros H; apply A2, (pull_vanishes N m Mi V W HV image_onto); auto|].
      intros b Lb Hb. destruct (A3 (pull b)) as (k & t & Hk & H); [rewrite praw_length; auto| |].
      + intros v Hv E. assert (Lv := dims_in N V v HV Hv). rewrite change_dot in * by auto. apply Hb; auto. apply in_map; auto.
      + exists k, t. split; auto. intros w Hw. apply in_map_iff in Hw as (v & <- & Hv). assert (Lv := dims_in N V v HV Hv). assert (Q := H v Hv).
        rewrite dot_vadd_l, !dot_vscale_l in * by (rewrite !vscale_length, ?praw_length; congruence). rewrite !change_dot in Q by auto. exact Q.
  Qed.
  Lemma image_sim f g : length f = N -> length g = N -> simn W f g <-> simn V (pull f) (pull g).
  Proof. apply (pull_sim N m Mi V W HV image_onto). Qed.
  Lemma image_vanishes f : length f = N -> vanishes W f <-> vanishes V (pull f).
  Proof. apply (pull_vanishes N m Mi V W HV image_onto). Qed.
End Change.

(** ** Sets of points *)
Local Notation clears l := (Forall2 (fun q x => q * inject_Z l == inject_Z x)%Q).
Section Sets.
  Variables (n : nat) (m : lmap).
  Hypothesis Hm : maps_of_dimension n [m].
  Hypothesis Ho : PropertiesExpandSystem.onto n m.
  Notation N := (S n).
  Notation sub := (substitute m).

  Lemma clears_same l p q xs : same_point p q -> clears l p xs -> clears l q xs.
  Proof.
    intros H. revert xs. induction H as [|a b p q E _ IH]; intros xs K; inversion K; subst; constructor; auto. rewrite <- E. auto.
  Qed.
  Lemma hull_image (V1 V2 : list vec) : dims N V1 -> dims N V2 -> homogenised N V1 -> homogenised N V2 ->
    (forall p : list Q, length p = n -> (hull n (points_of V1) (rays_of V1) p <-> hull n (points_of V2) (rays_of V2) (moved_by m p))) ->
    included N (map sub V1) V2 /\ included N V2 (map sub V1).
  Proof.
    intros D1 D2 H1 H2 H. assert (Mi : map_in N m) by (apply Hm; left; reflexivity). assert (DW := image_dims n m Hm V1).
    assert (Q1 := homogenised_rows n V1 D1 H1). assert (Q2 := homogenised_rows n V2 D2 H2). split.
    - intros w Hw. apply in_map_iff in Hw as (v & <- & Hv). assert (Lv := dims_in _ _ v D1 Hv). destruct (proj2 H1) as (u & Hu & Pu). assert (Lu := dims_in _ _ u D1 Hu). replace (N - 1)%nat with n in Pu by lia.
      apply farkas; auto; [apply (change_length n m Hm)|]. intros a La Va.
      apply (far_along a (sub u) (sub v)); [rewrite (change_length n m Hm); auto|rewrite !(change_length n m Hm); auto|]. intros s Hs.
      rewrite <- sub_scale, <- substitute_vadd by (rewrite vscale_length; congruence).
      set (y := vadd u (vscale s v)). assert (Ly : length y = N) by (apply vadd_length_eq; rewrite ?vscale_length; auto).
      destruct (point_last n y Ly) as (xs & l & E & Hx & Hl & HX).
      { unfold y. assert (B := proj1 H1 v Hv). replace (N - 1)%nat with n in B by lia. rewrite nth_vadd by (rewrite vscale_length; congruence). rewrite nth_vscale. nia. }
      set (p := map (fun x => inject_Z x / inject_Z l)%Q xs) in *. assert (Lp : length p = n) by (unfold p; rewrite map_length; auto).
      assert (HP : hull n (points_of V1) (rays_of V1) p) by (apply (hull_in_cone n V1 xs l p Q1 Hx Hl HX); rewrite <- E; apply cone_ray; auto).
      apply H in HP; auto. destruct (moved_substitute n [m] Hm m p xs l (or_introl eq_refl) Hx HX) as (ys & EY & Hy & CY). rewrite E, EY.
      apply (in_cone_valid N V2); auto. apply (hull_in_cone n V2 ys l (moved_by m p) Q2 Hy Hl CY). exact HP.
    - intros v Hv. assert (Lv := dims_in _ _ v D2 Hv). destruct (proj2 H2) as (u & Hu & Pu). assert (Lu := dims_in _ _ u D2 Hu). replace (N - 1)%nat with n in Pu by lia.
      apply farkas; auto. intros a La Va. apply (far_along a u v); try congruence. intros s Hs.
      set (y := vadd u (vscale s v)). assert (Ly : length y = N) by (apply vadd_length_eq; rewrite ?vscale_length; auto).
      destruct (point_last n y Ly) as (xs & l & E & Hx & Hl & HX).
      { unfold y. assert (B := proj1 H2 v Hv). replace (N - 1)%nat with n in B by lia. rewrite nth_vadd by (rewrite vscale_length; congruence). rewrite nth_vscale. nia. }
      set (q := map (fun x => inject_Z x / inject_Z l)%Q xs) in *. assert (Lq : length q = n) by (unfold q; rewrite map_length; auto).
      assert (HP : hull n (points_of V2) (rays_of V2) q) by (apply (hull_in_cone n V2 xs l q Q2 Hx Hl HX); rewrite <- E; apply cone_ray; auto).
      destruct (Ho q Lq) as (p & Lp & HS). destruct (clear_point p) as (k & us & Hk & CU). assert (Lus : length us = n) by (rewrite <- (forall2_length _ _ _ CU); auto).
      destruct (moved_substitute n [m] Hm m p us k (or_introl eq_refl) Lus CU) as (ys & EY & Hy & CY).
      assert (C2 := clears_same k _ _ ys HS CY).
      assert (HM : hull n (points_of V2) (rays_of V2) (moved_by m p)).
      { apply (hull_in_cone n V2 ys k _ Q2 Hy Hk CY). apply (hull_in_cone n V2 ys k q Q2 Hy Hk C2). exact HP. }
      apply H in HM; auto. assert (HC := proj1 (hull_in_cone n V1 us k p Q1 Lus Hk CU) HM).
      assert (Va' : valid V1 (praw Facet_tag m a)) by (apply (pull_valid N m Mi V1 (map sub V1) D1 (image_onto m V1)); auto).
      assert (R := in_cone_valid N V1 _ _ D1 Va' HC). rewrite (change_dot n m Hm) in R by (auto; rewrite app_length; cbn; lia). rewrite EY in R. rewrite E.
      assert (A1 := affine_dot a q xs l HX ltac:(rewrite Hx; auto)). assert (A2 := affine_dot a q ys k C2 ltac:(rewrite Hy; auto)).
      assert (EE : k * dot a (xs ++ [l]) = l * dot a (ys ++ [k])).
      { apply inject_eq. rewrite !inject_Z_mult, <- A1, <- A2. ring. }
      nia.
  Qed.
End Sets.

(** ** Lists of rows that correspond one to one *)
Definition paired {A} (R : A -> A -> Prop) (L1 L2 : list A) : Prop := exists L, Permutation L1 L /\ Forall2 R L L2.
Lemma paired_from {A} (R : A -> A -> Prop) (L1 L2 : list A) : NoDup L1 -> NoDup L2 ->
  (forall y, In y L2 -> exists x, In x L1 /\ R x y) -> (forall x, In x L1 -> exists y, In y L2 /\ R x y) ->
  (forall x x' y, In x L1 -> In x' L1 -> In y L2 -> R x y -> R x' y -> x = x') -> (forall x y y', In x L1 -> In y L2 -> In y' L2 -> R x y -> R x y' -> y = y') -> paired R L1 L2.
Proof.
  intros N1 N2 T2 T1 U1 U2.
  assert (C : exists L, Forall2 R L L2 /\ incl L L1).
  { clear - T2. induction L2 as [|y L2 IH]; [exists []; split; [constructor|intros x []]|]. destruct IH as (L & H & I); [intros z Hz; apply T2; right; auto|]. destruct (T2 y (or_introl eq_refl)) as (x & Hx & Hr).
    exists (x :: L). split; [constructor; auto|]. intros z [<-|Hz]; auto. }
  destruct C as (L & H & I). exists L. split; auto.
  assert (P1 : forall x, In x L -> exists y, In y L2 /\ R x y) by (clear - H; induction H as [|x y L L2 Hr _ IH]; intros z Hz; [destruct Hz|destruct Hz as [<-|Hz]; [exists y; split; [left|]; auto|destruct (IH z Hz) as (w & Hw & Hr'); exists w; split; [right|]; auto]]).
  assert (P2 : forall y, In y L2 -> exists x, In x L /\ R x y) by (clear - H; induction H as [|x y L L2 Hr _ IH]; intros z Hz; [destruct Hz|destruct Hz as [<-|Hz]; [exists x; split; [left|]; auto|destruct (IH z Hz) as (w & Hw & Hr'); exists w; split; [right|]; auto]]).
  apply NoDup_Permutation; auto.
  - clear - H N2 I U2. induction H as [|x y L L2 Hr H IH]; constructor.
    + intros Hx. inversion N2 as [|? ? Hn N2']; subst. apply Hn.
      assert (K : exists z, In z L2 /\ R x z) by (clear - H Hx; induction H as [|a b L L2 Hr H IH]; [destruct Hx|destruct Hx as [->|Hx]; [exists b; split; [left|]; auto|destruct (IH Hx) as (z & Hz & Hr'); exists z; split; [right|]; auto]]).
      destruct K as (z & Hz & Hrz). rewrite (U2 x y z); auto; [apply I; left; auto|left; auto|right; auto].
    + inversion N2 as [|? ? Hn N2']; subst. apply IH; auto; [|intros z Hz; apply I; right; auto]. intros a b b' Ha Hb Hb'. apply (U2 a b b'); auto; right; auto.
  - intros x. split; intros Hx; [|apply I; auto]. destruct (T1 x Hx) as (y & Hy & Hr). destruct (P2 y Hy) as (x' & Hx' & Hr'). rewrite (U1 x x' y); auto.
Qed.

(** ** Slacks on the hull *)
Lemma slack_on_hull n m (V : list vec) (f g : vec) : maps_of_dimension n [m] -> dims (S n) V -> homogenised (S n) V -> length f = S n -> length g = S n -> simn V f (praw Facet_tag m g) ->
  exists a b, 0 < a /\ 0 < b /\ forall p : list Q, length p = n -> hull n (points_of V) (rays_of V) p -> (inject_Z a * affine f p == inject_Z b * affine g (moved_by m p))%Q.
Proof.
  intros Hm HV HH Lf Lg (a & b & Ha & Hb & E). exists a, b. split; auto. split; auto. intros p Lp Hp.
  destruct (clear_point p) as (l & xs & Hl & CX). assert (Lx : length xs = n) by (rewrite <- (forall2_length _ _ _ CX); auto).
  apply (hull_in_cone n V xs l p (homogenised_rows n V HV HH) Lx Hl CX) in Hp. assert (Lxl : length (xs ++ [l]) = S n) by (rewrite app_length; cbn; lia).
  destruct (moved_substitute n [m] Hm m p xs l (or_introl eq_refl) Lx CX) as (ys & EY & Ly & CY).
  destruct (cone_form (S n) V _ HV Hp) as (k & cs & Hk & Hc & Hcs & EK).
  assert (D : k * (a * dot f (xs ++ [l])) = k * (b * dot g (ys ++ [l]))).
  { transitivity (a * (k * dot f (xs ++ [l]))); [ring|]. rewrite EK. rewrite <- EY, <- (change_dot n m Hm) by auto. transitivity (b * (k * dot (praw Facet_tag m g) (xs ++ [l]))); [|ring]. rewrite EK.
    clear - E. revert cs. induction V as [|v V IH]; intros [|c cs]; cbn [map dot]; try lia. assert (Ev := E v (or_introl eq_refl)). specialize (IH (fun w Hw => E w (or_intror Hw)) cs).
    transitivity (c * (a * dot f v) + a * dot cs (map (fun w => dot f w) V)); [ring|]. rewrite Ev, IH. ring. }
  assert (D' : a * dot f (xs ++ [l]) = b * dot g (ys ++ [l])) by nia.
  assert (A1 := affine_dot f p xs l CX ltac:(rewrite Lx; auto)). assert (A2 := affine_dot g _ ys l CY ltac:(rewrite Ly; auto)).
  assert (Pl : ~ (inject_Z l == 0)%Q) by (unfold Qeq, inject_Z; cbn; lia). apply (Qmult_inj_r _ _ _ Pl).
  transitivity (inject_Z a * (affine f p * inject_Z l))%Q; [ring|]. rewrite A1. transitivity (inject_Z b * (affine g (moved_by m p) * inject_Z l))%Q; [|ring]. rewrite A2, <- !inject_Z_mult, D'. reflexivity.
Qed.

(** ** Extreme rays *)
Section Rays.
  Variables (n : nat) (m : lmap).
  Hypothesis Hm : maps_of_dimension n [m].
  Hypothesis Ho : PropertiesExpandSystem.onto n m.
  Notation N := (S n).
  Notation sub := (substitute m).
  Variables A1 A2 : list vec.
  Hypotheses (D1 : dims N A1) (D2 : dims N A2).
  Hypothesis HS : forall x, length x = N -> (solution N A1 x <-> solution N A2 (sub x)).

  Lemma sub_cancel x y : length x = N -> length y = N -> sub x = sub y -> x = y.
  Proof.
    intros Lx Ly E. assert (Z0 : vadd x (vscale (-1) y) = vzero N).
    { apply (column_injective n m Hm Ho); [apply vadd_length_eq; rewrite ?vscale_length; auto|]. rewrite substitute_vadd by (rewrite vscale_length; congruence). rewrite sub_scale, E.
      apply (vec_ext_nth N); [apply vadd_length_eq; rewrite ?vscale_length; apply (change_length n m Hm)|apply vzero_length|]. intros i Hi. rewrite nth_vadd by (rewrite vscale_length; reflexivity). rewrite nth_vscale, nth_vzero. ring. }
    apply (vec_ext_nth N); auto. intros i Hi. assert (Q := f_equal (fun u => nth i u 0) Z0). cbn beta in Q. rewrite nth_vadd in Q by (rewrite vscale_length; congruence). rewrite nth_vscale, nth_vzero in Q. lia.
  Qed.
  Lemma solution_scaled (A : list vec) k x : 0 < k -> (solution N A x <-> solution N A (vscale k x)).
  Proof.
    intros Hk. unfold solution. rewrite vscale_length. split; intros (L & H); split; auto; intros a Ha; specialize (H a Ha); rewrite dot_vscale_r in *; nia.
  Qed.
  Lemma extreme_change x : length x = N -> (extreme_ray N A1 x <-> extreme_ray N A2 (sub x)).
  Proof.
    intros Lx. split; intros (Sx & Nx & Ex).
    - split; [apply HS; auto|]. split; [intros E; apply Nx, (column_injective n m Hm Ho); auto|]. intros k y z Hk Sy Sz E.
      destruct (column_onto n m Hm Ho y (proj1 Sy)) as (y' & a & Ly & Ha & Ey). destruct (column_onto n m Hm Ho z (proj1 Sz)) as (z' & b & Lz & Hb & Ez).
      destruct (Ex (k * a * b) (vscale b y') (vscale a z')) as (c & t & Hc & Ht & Et).
      + nia.
      + apply solution_scaled; auto. apply HS; auto. rewrite Ey. apply solution_scaled; auto.
      + apply solution_scaled; auto. apply HS; auto. rewrite Ez. apply solution_scaled; auto.
      + apply sub_cancel; [rewrite vscale_length; auto|apply vadd_length_eq; rewrite vscale_length; auto|]. rewrite substitute_vadd by (rewrite !vscale_length; congruence). rewrite !sub_scale, Ey, Ez.
        assert (Ly2 := proj1 Sy). assert (Lz2 := proj1 Sz).
        apply (vec_ext_nth N); [rewrite vscale_length; apply (change_length n m Hm)|apply vadd_length_eq; rewrite !vscale_length; auto|]. intros i Hi. assert (Q := f_equal (fun u => nth i u 0) E). cbn beta in Q.
        rewrite nth_vadd in Q by congruence. rewrite nth_vadd by (rewrite !vscale_length; congruence). rewrite !nth_vscale in *. transitivity (a * b * (k * nth i (sub x) 0)); [ring|]. rewrite Q. ring.
      + exists (c * b * a), t. split; [nia|]. split; auto. rewrite <- sub_scale, <- Et, !sub_scale, Ey. apply (vec_ext_nth N); [rewrite vscale_length; apply Sy|rewrite !vscale_length; apply Sy|]. intros i Hi. rewrite !nth_vscale. ring.
    - split; [apply HS; auto|]. split; [intros ->; apply Nx; apply (vec_ext_nth N); [apply (change_length n m Hm)|apply vzero_length|]|].
      + intros i Hi. rewrite <- (vscale_vzero 0 N). rewrite sub_scale, !nth_vscale. ring.
      + intros k y z Hk Sy Sz E. assert (Ly := proj1 Sy). assert (Lz := proj1 Sz). destruct (Ex k (sub y) (sub z) Hk) as (c & t & Hc & Ht & Et).
        * apply HS; auto.
        * apply HS; auto.
        * rewrite <- sub_scale, E. apply substitute_vadd. congruence.
        * exists c, t. split; auto. split; auto. apply sub_cancel; [rewrite vscale_length; auto|rewrite vscale_length; auto|]. rewrite !sub_scale. exact Et.
  Qed.
  Lemma extreme_scaled (A : list vec) k x : 0 < k -> (extreme_ray N A x <-> extreme_ray N A (vscale k x)).
  Proof.
    intros Hk. assert (Z0 : forall y : vec, length y = N -> (vscale k y = vzero N <-> y = vzero N)).
    { intros y Ly. split; [intros E|intros ->; apply vscale_vzero]. apply (vec_ext_nth N); auto; [apply vzero_length|]. intros i Hi. assert (Q := f_equal (fun u => nth i u 0) E). cbn beta in Q. rewrite nth_vscale, nth_vzero in *. nia. }
    split; intros (Sx & Nx & Ex).
    - assert (Lx := proj1 Sx). split; [apply solution_scaled; auto|]. split; [rewrite Z0; auto|]. intros j y z Hj Sy Sz E. destruct (Ex (j * k) y z ltac:(nia) Sy Sz) as (c & t & Hc & Ht & Et).
      + rewrite <- E. apply (vec_ext_nth N); rewrite ?vscale_length; auto. intros i Hi. rewrite !nth_vscale. ring.
      + exists (c * k), t. split; [nia|]. split; auto. apply (vec_ext_nth N); rewrite ?vscale_length; auto; [apply Sy|]. intros i Hi. assert (Q := f_equal (fun u => nth i u 0) Et). cbn beta in Q. rewrite !nth_vscale in *. rewrite <- Z.mul_assoc, (Z.mul_comm k), Z.mul_assoc, Q. ring.
    - apply solution_scaled in Sx; auto. assert (Lx := proj1 Sx). split; auto. split; [rewrite <- Z0; auto|]. intros j y z Hj Sy Sz E. destruct (Ex j (vscale k y) (vscale k z) Hj) as (c & t & Hc & Ht & Et).
      + apply solution_scaled; auto.
      + apply solution_scaled; auto.
      + assert (Ly := proj1 Sy). assert (Lz := proj1 Sz). apply (vec_ext_nth N); [rewrite !vscale_length; auto|apply vadd_length_eq; rewrite vscale_length; auto|]. intros i Hi. assert (Q := f_equal (fun u => nth i u 0) E). cbn beta in Q. rewrite nth_vadd in Q by congruence. rewrite nth_vadd by (rewrite !vscale_length; congruence). rewrite !nth_vscale in *. transitivity (k * (j * nth i x 0)); [ring|]. rewrite Q. ring.
      + exists c, t. split; auto. split; auto. apply (vec_ext_nth N); rewrite ?vscale_length; auto; [apply Sy|]. intros i Hi. assert (Q := f_equal (fun u => nth i u 0) Et). cbn beta in Q. rewrite !nth_vscale in *. nia.
  Qed.
End Rays.

(** ** Systems *)
Lemma system_image n m (A1 A2 : list vec) : maps_of_dimension n [m] -> dims (S n) A1 -> dims (S n) A2 -> In (unit_vec (S n) n (-1)) A1 -> In (unit_vec (S n) n (-1)) A2 ->
  (exists p : list Q, length p = n /\ solves A1 p) -> (forall p : list Q, length p = n -> (solves A1 p <-> solves A2 (moved_by m p))) ->
  forall x, length x = S n -> (solution (S n) A1 x <-> solution (S n) A2 (substitute m x)).
Proof.
  intros Hm D1 D2 U1 U2 HE HS x Lx. assert (Mi : map_in (S n) m) by (apply Hm; left; reflexivity). set (B := map (praw Facet_tag m) A2).
  assert (DB : dims (S n) B) by (apply Forall_forall; intros b Hb; apply in_map_iff in Hb as (a & <- & Ha); rewrite praw_length; apply (dims_in _ _ a D2 Ha)).
  assert (UB : In (unit_vec (S n) n (-1)) B) by (rewrite <- (change_unit n m Hm); apply in_map; auto).
  assert (SB : forall y, length y = S n -> (solution (S n) B y <-> solution (S n) A2 (substitute m y))).
  { intros y Ly. unfold solution. rewrite (change_length n m Hm). split; intros (_ & H); split; auto.
    - intros a Ha. rewrite <- (change_dot n m Hm) by (auto; apply (dims_in _ _ a D2 Ha)). apply H. apply in_map; auto.
    - intros b Hb. apply in_map_iff in Hb as (a & <- & Ha). rewrite (change_dot n m Hm) by (auto; apply (dims_in _ _ a D2 Ha)). auto. }
  assert (PB : forall p : list Q, length p = n -> (solves A1 p <-> solves B p)).
  { intros p Lp. rewrite HS by auto. destruct (clear_point p) as (l & xs & Hl & CX). assert (Lxs : length xs = n) by (rewrite <- (forall2_length _ _ _ CX); auto).
    destruct (moved_substitute n [m] Hm m p xs l (or_introl eq_refl) Lxs CX) as (ys & EY & Ly & CY).
    unfold solves. rewrite (solution_rows n A2 _ ys l D2 Ly Hl CY), (solution_rows n B p xs l DB Lxs Hl CX), SB, EY by (rewrite app_length; cbn; lia). reflexivity. }
  rewrite <- SB by auto.
  assert (I1 : included (S n) A1 B) by (apply solutions_included; auto; [destruct HE as (p & Lp & Sp); exists p; split; auto; apply PB; auto|intros p Lp Sp; apply PB; auto]).
  assert (I2 : included (S n) B A1) by (apply solutions_included; auto; intros p Lp Sp; apply PB; auto).
  split; intros (_ & H); split; auto; intros a Ha; rewrite dot_comm.
  - apply (valid_included (S n) B A1 x D1 I2); auto. intros b Hb. rewrite dot_comm; auto.
  - apply (valid_included (S n) A1 B x DB I1); auto. intros b Hb. rewrite dot_comm; auto.
Qed.

(** ** Points and rays of rows *)
Lemma image_along im (xs : vec) (p q : list Q) (s : Q) : length p = length xs -> length q = length xs -> (forall j, (nth j q 0 == nth j p 0 + s * nth j (map inject_Z xs) 0)%Q) ->
  (fold_right (fun tm s => inject_Z (snd tm) * nth (fst tm) (q ++ [1%Q]) 0 + s)%Q 0%Q im ==
   fold_right (fun tm s => inject_Z (snd tm) * nth (fst tm) (p ++ [1%Q]) 0 + s)%Q 0%Q im + s * inject_Z (image_value im (xs ++ [0%Z])))%Q.
Proof.
  intros Lp Lq H. induction im as [|[i c] im IH]; cbn [fold_right image_value fst snd]; [unfold inject_Z; ring|].
  fold (image_value im (xs ++ [0])). rewrite IH, inject_Z_plus, inject_Z_mult.
  assert (E : (nth i (q ++ [1%Q]) 0 == nth i (p ++ [1%Q]) 0 + s * inject_Z (nth i (xs ++ [0%Z]) 0%Z))%Q).
  { destruct (Nat.lt_trichotomy i (length xs)) as [L|[L|L]].
    - rewrite !app_nth1 by lia. rewrite H, (nth_map_default _ _ _ _ 0%Z) by auto. reflexivity.
    - rewrite !app_nth2 by lia. rewrite Lp, Lq, L, Nat.sub_diag. cbn [nth]. unfold inject_Z. ring.
    - rewrite !nth_overflow by (rewrite app_length; cbn; lia). unfold inject_Z. ring. }
  rewrite E. ring.
Qed.
Lemma removelast_length n (y : vec) : length y = S n -> length (removelast y) = n.
Proof. intros L. destruct (row_split n y L) as (xs & b & _ & Lxs & _ & _ & ->). exact Lxs. Qed.
Section Corner.
  Variables (n : nat) (m : lmap) (x y : vec) (a b : Z).
  Hypotheses (Hm : maps_of_dimension n [m]) (Lx : length x = S n) (Ly : length y = S n) (Ha : 0 < a) (Hb : 0 < b) (Px : 0 <= nth n x 0) (E : vscale a y = vscale b (substitute m x)).
  Lemma corner_last : a * nth n y 0 = b * nth n x 0.
  Proof. assert (Q := f_equal (fun u => nth n u 0) E). cbn beta in Q. rewrite !nth_vscale, (change_last n m Hm) in Q. exact Q. Qed.
  Lemma corner_kind : is_point x = is_point y.
  Proof.
    assert (Q := corner_last). assert (X := is_point_spec n x Lx Px). assert (Y := is_point_spec n y Ly ltac:(nia)). destruct (is_point x), (is_point y); auto; nia.
  Qed.
  Lemma corner_point : is_point x = true -> same_point (moved_by m (point_of_row x)) (point_of_row y).
  Proof.
    intros X. assert (Q := corner_last). assert (P := is_point_spec n x Lx Px). rewrite X in P. assert (Py : 0 < nth n y 0) by nia.
    destruct (row_split n x Lx) as (xs & l & Ex & Lxs & Nx & Bx & Rx). destruct (row_split n y Ly) as (zs & k & Ey & Lzs & Ny & By & Ry). rewrite Nx in *. rewrite Ny in *.
    assert (CX := over l xs ltac:(lia)). assert (CZ := over k zs ltac:(lia)). unfold point_of_row. rewrite Rx, Ry, Bx, By. set (p := map (fun x => inject_Z x / inject_Z l)%Q xs) in *. set (q := map (fun x => inject_Z x / inject_Z k)%Q zs) in *.
    destruct (moved_substitute n [m] Hm m p xs l (or_introl eq_refl) Lxs CX) as (ys & EY & Lys & CY).
    apply (same_nth_all n); [rewrite (forall2_length _ _ _ CY); auto|unfold q; rewrite map_length; auto|]. intros j.
    assert (A1 := cleared_nth _ _ _ j CY). assert (A2 := cleared_nth _ _ _ j CZ).
    assert (E3 : a * nth j zs 0 = b * nth j ys 0).
    { destruct (Nat.lt_ge_cases j n) as [L|L]; [|rewrite !nth_overflow by lia; ring]. assert (R := f_equal (fun u => nth j u 0) E). cbn beta in R. rewrite !nth_vscale, Ex, EY, Ey in R. rewrite !app_nth1 in R by lia. exact R. }
    assert (Pl : ~ (inject_Z (a * k) == 0)%Q) by (unfold Qeq, inject_Z; cbn; nia). apply (Qmult_inj_r _ _ _ Pl).
    transitivity (inject_Z b * (nth j (moved_by m p) 0 * inject_Z l))%Q; [rewrite Q, inject_Z_mult; ring|]. rewrite A1. transitivity (inject_Z a * (nth j q 0 * inject_Z k))%Q; [|rewrite inject_Z_mult; ring]. rewrite A2, <- !inject_Z_mult, E3. reflexivity.
  Qed.
  Lemma corner_ray : is_point x = false -> exists c, (0 < c)%Q /\ forall (p q : list Q) s, length p = n -> length q = n -> (forall j, (nth j q 0 == nth j p 0 + s * nth j (ray_of_row x) 0)%Q) ->
    forall j, (nth j (moved_by m q) 0 == nth j (moved_by m p) 0 + s * c * nth j (ray_of_row y) 0)%Q.
  Proof.
    intros X. assert (P := is_point_spec n x Lx Px). rewrite X in P.
    destruct (row_split n x Lx) as (xs & l & Ex & Lxs & Nx & Bx & Rx). rewrite Nx in *. subst l.
    assert (Pb : ~ (inject_Z b == 0)%Q) by (unfold Qeq, inject_Z; cbn; lia). exists (inject_Z a / inject_Z b)%Q.
    split; [apply Qlt_shift_div_l; [unfold Qlt, inject_Z; cbn; lia|rewrite Qmult_0_l; unfold Qlt, inject_Z; cbn; lia]|].
    assert (Mi : map_in (S n) m) by (apply Hm; left; reflexivity). destruct (exists_last (l := m)) as (m0 & im & Em); [intros ->; destruct Mi; discriminate|].
    assert (Lm0 : length m0 = n) by (destruct Mi as (Lm & _); rewrite Em, app_length in Lm; cbn in Lm; lia).
    intros p q s Lp Lq H j. unfold moved_by. rewrite Em, removelast_last.
    destruct (Nat.lt_ge_cases j n) as [L|L]; [|unfold ray_of_row; rewrite !nth_overflow by (rewrite ?map_length, ?(removelast_length n y Ly); lia); ring].
    rewrite !(@nth_map_default image Q _ _ _ _ []) by lia. rewrite (image_along (nth j m0 []) xs p q s); [|congruence|congruence|intros i; rewrite H; unfold ray_of_row; rewrite Rx; reflexivity].
    rewrite (ray_coordinate n y j) by auto.
    assert (R := f_equal (fun u => nth j u 0) E). cbn beta in R. rewrite !nth_vscale, nth_substitute, Ex, Em, app_nth1 in R by lia.
    apply Qplus_inj_l. apply (Qmult_inj_r _ _ _ Pb). transitivity (s * (inject_Z (b * image_value (nth j m0 []) (xs ++ [0%Z]))))%Q; [rewrite inject_Z_mult; ring|]. rewrite <- R, inject_Z_mult. field. exact Pb.
  Qed.
End Corner.
