(** * Lines: systems whose solutions contain lines; generators, vertices and extreme directions up to the lines. *)
From Coq Require Import List ZArith QArith Arith Bool Lia Lqa Wf_nat.
From Verif Require Import Base Spec LinAlg Cone ListUtil ArithModel MatrixModel FmeModel SafeIntModel IntTypes FmeRefine FmeCorrect FmeTheorems ConstraintModel PropertiesConstraints Hull Corners.
Import ListNotations.
Open Scope Z_scope.
Open Scope list_scope.

(** ** Specification *)
(** All linear forms of a system have the same value at two points: the points differ by a direction in which the solutions contain a line. *)
Definition alike (A : list vec) (p q : list Q) : Prop := forall a, In a A -> (linear a p == linear a q)%Q.
(** A direction is a positive multiple of another one, up to lines. *)
Definition alike_multiple (A : list vec) (d u : list Q) : Prop := exists s, (0 < s)%Q /\ forall a, In a A -> (linear a d == s * linear a u)%Q.
(** A solution that lies only between solutions that differ from it by a line. *)
Definition flat_corner (n : nat) (A : list vec) (p : list Q) : Prop :=
  length p = n /\ solves A p /\
  forall q r c, length q = n -> length r = n -> solves A q -> solves A r -> (0 < c)%Q -> (c < 1)%Q -> between c q r p -> alike A q p.
(** A direction, not of a line, that is the sum only of directions that are multiples of it up to lines. *)
Definition flat_direction (n : nat) (A : list vec) (d : list Q) : Prop :=
  length d = n /\ recedes A d /\ ~ (forall a, In a A -> (linear a d == 0)%Q) /\
  forall u v, length u = n -> length v = n -> recedes A u -> recedes A v -> (forall j, (nth j d 0 == nth j u 0 + nth j v 0)%Q) ->
    exists s, (0 <= s)%Q /\ forall a, In a A -> (linear a u == s * linear a d)%Q.

(** ** Generators up to lines *)
Lemma covers_gen_lines n V G : dims n G -> (forall g, In g G -> valid V g /\ nz V g) -> covers n V G ->
  forall x, dual n V x -> exists k l, 0 < k /\ length l = n /\ vanishes V l /\ gen n G (vadd (vscale k x) (vscale (-1) l)).
Proof.
  intros HG HGv Hc x. induction x as [x IH] using (induction_ltof1 _ (nsupp V)). unfold ltof in IH. intros Hx.
  destruct (nz_dec V x) as [Hz|Hz].
  - destruct (Hc x Hx Hz) as (g & Hg & Hs). destruct (HGv g Hg) as (Hgv & Hgz). assert (Hlg := dims_in _ _ _ HG Hg).
    destruct (support_reduce n V x g) as (k & t & Hk & Ht & Hd & _ & Hlt); auto. { split; auto. }
    destruct (IH _ Hlt Hd) as (m & l & Hm & Hl & Hv & K). exists (m * k), l. split; [nia|]. split; auto. split; auto.
    destruct Hx as (Hlx & _).
    assert (E : vadd (vscale (m * k) x) (vscale (-1) l) = vadd (vscale (m * t) g) (vadd (vscale m (vadd (vscale k x) (vscale (- t) g))) (vscale (-1) l))).
    { apply (vec_ext_nth n).
      - repeat apply vadd_length_eq; rewrite ?vscale_length; auto.
      - repeat apply vadd_length_eq; rewrite ?vscale_length; auto. repeat apply vadd_length_eq; rewrite ?vscale_length; auto.
      - intros j _. rewrite !nth_vadd, !nth_vscale, nth_vadd, !nth_vscale; try ring; rewrite ?vadd_length, ?vscale_length, ?vadd_length, ?vscale_length; lia. }
    rewrite E. apply gen_add; auto. nia.
  - exists 1, x. split; [lia|]. split; [apply Hx|]. split; auto.
    assert (E : vadd (vscale 1 x) (vscale (-1) x) = vzero n).
    { apply (vec_ext_nth n); [apply vadd_length_eq; rewrite vscale_length; apply Hx|apply vzero_length|]. intros j _. rewrite nth_vadd, !nth_vscale, nth_vzero by (rewrite !vscale_length; auto). ring. }
    rewrite E. constructor.
Qed.

Section Rows.
  Variables (t : int_type) (order : list nat -> list nat) (n : nat) (V : list vec).
  Hypothesis Ht : t <> INT16.
  Hypothesis Ho : sort_order order.
  Hypothesis HR : rows_representable t V.
  Hypothesis HV : dims (S n) V.
  Hypothesis HU : In (unit_vec (S n) n (-1)) V.

  Lemma unit_last : nth n (unit_vec (S n) n (-1)) 0 = -1.
  Proof. unfold unit_vec. rewrite nth_upd, vzero_length, Nat.eqb_refl. destruct (Nat.ltb_spec n (S n)); [|lia]. reflexivity. Qed.
  Lemma unit_nonzero : nonzero (S n) V.
  Proof. exists (unit_vec (S n) n (-1)). split; auto. intros E. assert (K := f_equal (fun v => nth n v 0) E). cbn beta in K. rewrite unit_last, nth_vzero in K. lia. Qed.
  Lemma unit_nonlast : exists v, In v V /\ nth (S n - 1) v 0 <> 0.
  Proof. exists (unit_vec (S n) n (-1)). split; auto. replace (S n - 1)%nat with n by lia. rewrite unit_last. lia. Qed.
  (** Valid vectors have a last coordinate that is not negative; vanishing ones have zero there. *)
  Lemma valid_last x : length x = S n -> valid V x -> 0 <= nth n x 0.
  Proof. intros Hx Hv. specialize (Hv _ HU). rewrite dot_comm, dot_unit in Hv by (auto; lia). lia. Qed.
  Lemma vanishes_last x : length x = S n -> vanishes V x -> nth n x 0 = 0.
  Proof. intros Hx Hv. specialize (Hv _ HU). rewrite dot_comm, dot_unit in Hv by (auto; lia). lia. Qed.

  Lemma line_generators (F : list vec) x : m_fme (arith t) order V = Ok F -> solution (S n) V x ->
    exists k l, 0 < k /\ length l = S n /\ vanishes V l /\ in_cone (S n) F (vadd (vscale k x) (vscale (-1) l)).
  Proof.
    intros HF (Hx & Hs). assert (Hnz := unit_nonzero). assert (Hex := unit_nonlast).
    assert (HFd : dims (S n) F) by (apply Forall_forall; intros f Hf; apply (rows_facets t order (S n) V Ht Ho HR HV F f Hnz HF Hf)).
    assert (Hall : incl (all_rows order (S n) V) F).
    { intros r Hr. rewrite (result_fme t order (S n) V Ht Ho HR HV F Hnz HF). apply (fme_in_iff order Ho (S n) V HV r Hex). split; auto.
      intros ->. destruct (all_rows_facet order Ho (S n) V HV _ Hr) as ((_ & Hv & _) & _). assert (K := valid_last _ ltac:(apply unit_vec_length) Hv). replace (S n - 1)%nat with n in K by lia. rewrite unit_last in K. lia. }
    destruct (covers_gen_lines (S n) V F HFd) with (x := x) as (k & l & Hk & Hl & Hv & K).
    - intros f Hf. destruct (rows_facets t order (S n) V Ht Ho HR HV F f Hnz HF Hf) as ((_ & Hv & Hnv & _) & _). split; auto. destruct (nz_dec V f); auto. contradiction.
    - intros y Hy Hnzy. destruct (all_rows_covers order (S n) V Ho HV y Hy Hnzy) as (g & Hg & Hsub). exists g. auto.
    - split; auto. intros a Ha. rewrite dot_comm. auto.
    - exists k, l. split; auto. split; auto. split; auto. apply gen_in_cone; auto.
  Qed.
  Lemma cone_solution (F : list vec) x : m_fme (arith t) order V = Ok F -> length x = S n -> in_cone (S n) F x -> solution (S n) V x.
  Proof.
    intros HF Hx Hc. assert (Hnz := unit_nonzero). assert (HFd : dims (S n) F) by (apply Forall_forall; intros f Hf; apply (rows_facets t order (S n) V Ht Ho HR HV F f Hnz HF Hf)).
    split; auto. intros a Ha. apply (in_cone_valid (S n) F); auto. intros f Hf. rewrite dot_comm. destruct (rows_facets t order (S n) V Ht Ho HR HV F f Hnz HF Hf) as ((_ & Hv & _) & _). apply Hv. auto.
  Qed.
  (** Every facet is equivalent to a row of the result: the trivial row is no solution. *)
  Lemma facet_listed (F : list vec) x : m_fme (arith t) order V = Ok F -> facet (S n) V x -> exists f, In f F /\ equivalent_ineq V f x.
  Proof.
    intros HF Hx. destruct (rows_complete t order (S n) V Ht Ho HR HV F x unit_nonlast HF Hx) as [K|(k & s & Hk & Hs & K)]; auto. exfalso. destruct Hx as (Hl & Hv & _). replace (S n - 1)%nat with n in K by lia.
    assert (Lx := valid_last x Hl Hv). assert (LL : length (vadd (vscale k (unit_vec (S n) n (-1))) (vscale (- s) x)) = S n) by (apply vadd_length_eq; rewrite vscale_length; [apply unit_vec_length|auto]).
    assert (L0 := vanishes_last _ LL K).
    rewrite nth_vadd, !nth_vscale, unit_last in L0 by (rewrite !vscale_length, unit_vec_length; auto). nia.
  Qed.

  (** *** Rows and points *)
  Notation clears l := (Forall2 (fun q x => q * inject_Z l == inject_Z x)%Q).
  Lemma row_length a : In a V -> length a = S n.
  Proof. intros Ha. apply (dims_in (S n) V); auto. Qed.
  Lemma dot_snoc (a xs : vec) l : length a = S n -> length xs = n -> dot a (xs ++ [l]) = dot a (xs ++ [0]) + l * nth n a 0.
  Proof.
    clear. revert n xs. induction a as [|y a IH]; intros n xs Ha Hx; cbn [length] in Ha; [lia|]. destruct xs as [|x xs]; cbn [length] in Hx; subst n.
    - destruct a; [|discriminate]. cbn. ring.
    - cbn [app dot nth]. rewrite (IH (length xs) xs) by lia. ring.
  Qed.
  Lemma alike_rows p q xs ys l m : length xs = n -> length ys = n -> 0 < l -> 0 < m -> clears l p xs -> clears m q ys ->
    (alike V p q <-> vanishes V (vadd (vscale m (xs ++ [l])) (vscale (- l) (ys ++ [m])))).
  Proof.
    intros Hx Hy Hl Hm HX HY. assert (Pl := inject_pos l Hl). assert (Pm := inject_pos m Hm).
    assert (G : forall a, In a V -> ((linear a p == linear a q)%Q <-> dot (vadd (vscale m (xs ++ [l])) (vscale (- l) (ys ++ [m]))) a = 0)).
    { intros a Ha. assert (La := row_length a Ha). assert (E1 := linear_dot a p xs l HX ltac:(lia)). assert (E2 := linear_dot a q ys m HY ltac:(lia)).
      rewrite dot_vadd_l by (rewrite !vscale_length, !app_length; cbn; lia). rewrite !dot_vscale_l, (dot_comm _ a), (dot_comm (ys ++ [m]) a), (dot_snoc a xs l La Hx), (dot_snoc a ys m La Hy).
      assert (EQ : (inject_Z (m * (dot a (xs ++ [0]) + l * nth n a 0) + - l * (dot a (ys ++ [0]) + m * nth n a 0))%Z == (linear a p - linear a q) * (inject_Z l * inject_Z m))%Q).
      { rewrite inject_Z_plus, !inject_Z_mult, !inject_Z_plus, !inject_Z_mult, inject_Z_opp, <- E1, <- E2. ring. }
      split; intros K.
      - apply inject_eq. rewrite EQ, K. change (inject_Z 0) with 0%Q. ring.
      - rewrite K in EQ. change (inject_Z 0) with 0%Q in EQ. symmetry in EQ. apply Qmult_integral in EQ as [EQ|EQ]; [lra|]. apply Qmult_integral in EQ as [EQ|EQ]; [rewrite EQ in Pl|rewrite EQ in Pm]; discriminate. }
    split; intros H a Ha; apply (G a Ha); auto.
  Qed.
  (** A direction and a multiple of another one. *)
  Lemma alike_direction_rows d u xs ys l m (b c : Z) : length xs = n -> length ys = n -> 0 < l -> 0 < m -> clears l d xs -> clears m u ys -> b <> 0 ->
    ((forall a, In a V -> (linear a d == (inject_Z c / inject_Z b) * linear a u)%Q) <-> vanishes V (vadd (vscale (b * m) (xs ++ [0])) (vscale (- (c * l)) (ys ++ [0])))).
  Proof.
    intros Hx Hy Hl Hm HX HY Hb. assert (Pl := inject_pos l Hl). assert (Pm := inject_pos m Hm). assert (Nb : ~ (inject_Z b == 0)%Q) by (change 0%Q with (inject_Z 0); intros K; apply inject_eq in K; lia).
    assert (G : forall a, In a V -> ((linear a d == (inject_Z c / inject_Z b) * linear a u)%Q <-> dot (vadd (vscale (b * m) (xs ++ [0])) (vscale (- (c * l)) (ys ++ [0]))) a = 0)).
    { intros a Ha. assert (La := row_length a Ha). assert (E1 := linear_dot a d xs l HX ltac:(lia)). assert (E2 := linear_dot a u ys m HY ltac:(lia)).
      rewrite dot_vadd_l by (rewrite !vscale_length, !app_length; cbn; lia). rewrite !dot_vscale_l, (dot_comm _ a), (dot_comm (ys ++ [0]) a).
      assert (EQ : (inject_Z (b * m * dot a (xs ++ [0]) + - (c * l) * dot a (ys ++ [0]))%Z == (linear a d - inject_Z c / inject_Z b * linear a u) * (inject_Z b * (inject_Z l * inject_Z m)))%Q).
      { rewrite inject_Z_plus, !inject_Z_mult, inject_Z_opp, !inject_Z_mult, <- E1, <- E2. field. auto. }
      split; intros K.
      - apply inject_eq. rewrite EQ, K. change (inject_Z 0) with 0%Q. ring.
      - rewrite K in EQ. change (inject_Z 0) with 0%Q in EQ. symmetry in EQ. apply Qmult_integral in EQ as [EQ|EQ]; [lra|]. apply Qmult_integral in EQ as [EQ|EQ]; [contradiction|]. apply Qmult_integral in EQ as [EQ|EQ]; [rewrite EQ in Pl|rewrite EQ in Pm]; discriminate. }
    split; intros H a Ha; apply (G a Ha); auto.
  Qed.
  (** *** Vertices and directions up to lines are facets of the dual *)
  Lemma affine_between a : forall p q r c, length a = S (length p) -> length q = length p -> length r = length p -> between c q r p -> (affine a p == c * affine a q + (1 - c) * affine a r)%Q.
  Proof.
    clear. induction a as [|x a IH]; intros p q r c Ha Hq Hr H; cbn [length] in Ha; [lia|]. destruct p as [|y p], q as [|z q], r as [|w r]; cbn [length] in *; try lia.
    - destruct a; [|discriminate]. cbn [affine]. ring.
    - cbn [affine]. rewrite (IH p q r c) by (try lia; intros j; exact (H (S j))). assert (H0 := H 0%nat). cbn [nth] in H0. rewrite H0. ring.
  Qed.
  Lemma linear_sum a : forall d u v, length a = S (length d) -> length u = length d -> length v = length d -> (forall j, (nth j d 0 == nth j u 0 + nth j v 0)%Q) -> (linear a d == linear a u + linear a v)%Q.
  Proof.
    clear. induction a as [|x a IH]; intros p q r Ha Hq Hr H; cbn [length] in Ha; [lia|]. destruct p as [|y p], q as [|z q], r as [|w r]; cbn [length] in *; try lia.
    - cbn [linear]. ring.
    - cbn [linear]. rewrite (IH p q r) by (try lia; intros j; exact (H (S j))). assert (H0 := H 0%nat). cbn [nth] in H0. rewrite H0. ring.
  Qed.
  Lemma bound b : exists K, 0 < K /\ forall v, In v V -> Z.abs (dot b v) < K.
  Proof.
    clear. induction V as [|v W IH]; [exists 1; split; [lia|intros v []]|]. destruct IH as (K & H1 & H2). exists (K + Z.abs (dot b v)). split; [lia|]. intros w [<-|Hw]; [lia|]. specialize (H2 w Hw). lia.
  Qed.
  Lemma solution_valid x : solution (S n) V x <-> length x = S n /\ valid V x.
  Proof. unfold solution, valid. split; intros [H1 H2]; split; auto; intros a Ha; rewrite dot_comm; auto. Qed.
  (** A little more or less of [b] is still a solution. *)
  Lemma nudge x b : length x = S n -> valid V x -> length b = S n -> (forall v, In v V -> dot x v = 0 -> dot b v = 0) ->
    exists K y z, 0 < K /\ length y = S n /\ length z = S n /\ valid V y /\ valid V z /\ (forall j, nth j y 0 = K * nth j x 0 + nth j b 0) /\ (forall j, nth j z 0 = K * nth j x 0 - nth j b 0) /\
      (0 < nth n x 0 -> 0 < nth n y 0 /\ 0 < nth n z 0).
  Proof.
    intros Hx Hv Hb Hs. destruct (bound b) as (K & HK & HB). exists K, (vadd (vscale K x) b), (vadd (vscale K x) (vscale (-1) b)).
    assert (L1 : length (vscale K x) = S n) by (rewrite vscale_length; auto). assert (L2 : length (vscale (-1) b) = S n) by (rewrite vscale_length; auto).
    assert (G : forall v, In v V -> (dot x v = 0 /\ dot b v = 0) \/ (dot x v < 0 /\ Z.abs (dot b v) < K)).
    { intros v Hin. specialize (Hv v Hin). specialize (HB v Hin). destruct (Z.eq_dec (dot x v) 0) as [E|E]; [left; auto|right; lia]. }
    assert (D1 : forall v, dot (vadd (vscale K x) b) v = K * dot x v + dot b v) by (intros v; rewrite dot_vadd_l, dot_vscale_l by congruence; ring).
    assert (D2 : forall v, dot (vadd (vscale K x) (vscale (-1) b)) v = K * dot x v - dot b v) by (intros v; rewrite dot_vadd_l, !dot_vscale_l by congruence; ring).
    split; auto. split; [apply vadd_length_eq; auto|]. split; [apply vadd_length_eq; auto|]. split; [|split; [|split; [|split]]].
    - intros v Hin. rewrite D1. destruct (G v Hin) as [[E1 E2]|[E1 E2]]; [rewrite E1, E2; lia|nia].
    - intros v Hin. rewrite D2. destruct (G v Hin) as [[E1 E2]|[E1 E2]]; [rewrite E1, E2; lia|nia].
    - intros j. rewrite nth_vadd, nth_vscale by congruence. ring.
    - intros j. rewrite nth_vadd, !nth_vscale by congruence. ring.
    - intros Hp. assert (KB := HB _ HU). rewrite dot_comm, dot_unit in KB by (auto; lia). rewrite !nth_vadd, !nth_vscale by congruence. nia.
  Qed.

  Lemma facet_corner p xs l : length xs = n -> 0 < l -> clears l p xs -> (flat_corner n V p <-> facet (S n) V (xs ++ [l])).
  Proof.
    intros Hx Hl HX. assert (Hp : length p = n) by (rewrite (forall2_length _ _ _ HX); auto). assert (HS := solution_rows n V p xs l HV Hx Hl HX). assert (Pl := inject_pos l Hl).
    assert (Lx : length (xs ++ [l]) = S n) by (rewrite app_length; cbn; lia). split.
    - intros (_ & Hs & Hc). apply HS in Hs. apply solution_valid in Hs as [_ Hv]. split; auto. split; auto. split.
      { intros K. assert (K0 := vanishes_last _ Lx K). rewrite (nth_snoc n), Nat.eqb_refl in K0 by auto. lia. }
      intros b Hb Htight. destruct (nudge (xs ++ [l]) b Lx Hv Hb Htight) as (K & y & z & HK & Ly & Lz & Vy & Vz & Ey & Ez & Hpos).
      destruct Hpos as [Py Pz]. { rewrite (nth_snoc n), Nat.eqb_refl by auto. auto. }
      destruct (row_split n y Ly) as (ys & m & -> & Hys & Em & _). destruct (row_split n z Lz) as (zs & m' & -> & Hzs & Em' & _). rewrite Em in Py. rewrite Em' in Pz.
      assert (EL := Ey n). assert (EL' := Ez n). rewrite !(nth_snoc n), Nat.eqb_refl in EL, EL' by auto.
      assert (N1 := inject_zero m Py). assert (N2 := inject_zero m' Pz). assert (HKl : 0 < 2 * K * l) by nia. assert (N3 := inject_zero _ HKl). assert (P1 := inject_pos m Py). assert (P2 := inject_pos m' Pz). assert (P3 := inject_pos _ HKl).
      set (q := map (fun x => inject_Z x / inject_Z m)%Q ys). set (r := map (fun x => inject_Z x / inject_Z m')%Q zs).
      assert (HY : clears m q ys) by (apply over; lia). assert (HZ : clears m' r zs) by (apply over; lia).
      assert (Hq : length q = n) by (unfold q; rewrite map_length; auto). assert (Hr : length r = n) by (unfold r; rewrite map_length; auto).
      assert (EM : (inject_Z m + inject_Z m' == inject_Z (2 * K * l))%Q) by (rewrite <- inject_Z_plus; f_equiv; lia).
      assert (HA : alike V q p).
      { apply (Hc q r (inject_Z m / inject_Z (2 * K * l))%Q); auto.
        - refine (proj2 (solution_rows n V q ys m HV Hys Py HY) _). apply solution_valid. auto.
        - refine (proj2 (solution_rows n V r zs m' HV Hzs Pz HZ) _). apply solution_valid. auto.
        - apply Qlt_shift_div_l; auto.
        - apply Qlt_shift_div_r; auto. rewrite <- EM. lra.
        - intros j. destruct (Nat.lt_ge_cases j n) as [Hj|Hj]; [|rewrite !nth_overflow by lia; ring].
          assert (C1 := cleared_nth _ _ _ j HY). assert (C2 := cleared_nth _ _ _ j HZ). assert (C3 := cleared_nth _ _ _ j HX).
          assert (E1 := Ey j). assert (E2 := Ez j). rewrite !(nth_snoc n) in E1, E2 by auto. destruct (Nat.eqb_spec j n); [lia|].
          apply (Qmult_inj_r _ _ (inject_Z (2 * K * l))); auto.
          transitivity (inject_Z (nth j ys 0%Z + nth j zs 0%Z)).
          + rewrite E1, E2. transitivity (inject_Z (2 * K * nth j xs 0%Z)); [|f_equiv; ring]. rewrite (inject_Z_mult (2 * K) l), (inject_Z_mult (2 * K) (nth j xs 0)), <- C3. ring.
          + rewrite inject_Z_plus, <- C1, <- C2. setoid_replace ((inject_Z m / inject_Z (2 * K * l) * nth j q 0 + (1 - inject_Z m / inject_Z (2 * K * l)) * nth j r 0) * inject_Z (2 * K * l))%Q
              with (inject_Z m * nth j q 0 + (inject_Z (2 * K * l) - inject_Z m) * nth j r 0)%Q by (field; auto). rewrite <- EM. ring. }
      apply (alike_rows q p ys xs m l) in HA; auto. exists l, (l * K - m). split; [lia|]. intros v Hin. rewrite <- (HA v Hin).
      f_equal. apply (vec_ext_nth (S n)); try (apply vadd_length_eq; rewrite vscale_length; auto). intros j _. rewrite !nth_vadd, !nth_vscale by (rewrite !vscale_length; congruence). rewrite (Ey j). ring.
    - intros (_ & Hv & Hnv & Hf). split; auto. split; [refine (proj2 HS _); apply solution_valid; auto|]. intros q r c Hq Hr Sq Sr H0 H1 HB. destruct (clear_point q) as (m & ys & Hm & HY).
      assert (Hys : length ys = n) by (rewrite <- (forall2_length _ _ _ HY); auto). assert (Ly : length (ys ++ [m]) = S n) by (rewrite app_length; cbn; lia).
      destruct (Hf (ys ++ [m]) Ly) as (k & s & Hk & Hvan).
      { intros a Ha E0. assert (La := row_length a Ha). assert (E1 := affine_dot a p xs l HX ltac:(lia)). rewrite (dot_comm a), E0 in E1. change (inject_Z 0) with 0%Q in E1.
        assert (E2 : (affine a p == 0)%Q). { apply Qmult_integral in E1 as [E1|E1]; auto. rewrite E1 in Pl. discriminate. }
        rewrite (affine_between a p q r c) in E2 by (auto; lia). assert (A1 := Sq a Ha). assert (A2 := Sr a Ha). unfold row_holds in A1, A2.
        assert (E3 : (affine a q == 0)%Q). { set (x := affine a q) in *. set (y := affine a r) in *. destruct (Qlt_le_dec x 0) as [Hx0|Hx0]; [|lra]. assert (c * (- x) > 0)%Q by (apply Qmult_lt_0_compat; lra). assert (0 <= (1 - c) * (- y))%Q by (apply Qmult_le_0_compat; lra). lra. } assert (E4 := affine_dot a q ys m HY ltac:(lia)). rewrite E3 in E4. rewrite dot_comm. apply inject_eq. rewrite <- E4. change (inject_Z 0) with 0%Q. ring. }
      assert (Lk : length (vadd (vscale k (ys ++ [m])) (vscale s (xs ++ [l]))) = S n) by (apply vadd_length_eq; rewrite vscale_length; auto).
      assert (E := vanishes_last _ Lk Hvan). rewrite nth_vadd, !nth_vscale, !(nth_snoc n), Nat.eqb_refl in E by (auto; rewrite !vscale_length; congruence).
      apply (alike_rows q p ys xs m l); auto. intros v Hin. specialize (Hvan v Hin). rewrite dot_vadd_l, !dot_vscale_l in * by (rewrite !vscale_length; congruence).
      set (Y := dot (ys ++ [m]) v) in *. set (X := dot (xs ++ [l]) v) in *. assert (Z0 : k * (l * Y + - m * X) = 0) by (transitivity (l * (k * Y + s * X) - X * (k * m + s * l)); [ring|rewrite Hvan, E; ring]). nia.
  Qed.

  Lemma facet_direction d xs l : length xs = n -> 0 < l -> clears l d xs -> (flat_direction n V d <-> facet (S n) V (xs ++ [0])).
  Proof.
    intros Hx Hl HX. assert (Hp : length d = n) by (rewrite (forall2_length _ _ _ HX); auto). assert (HS := recedes_rows n V d xs l HV Hx Hl HX). assert (Pl := inject_pos l Hl).
    assert (Lx : length (xs ++ [0]) = S n) by (rewrite app_length; cbn; lia).
    assert (HZ0 : forall a, In a V -> ((linear a d == 0)%Q <-> dot (xs ++ [0]) a = 0)).
    { intros a Ha. assert (La := row_length a Ha). assert (E1 := linear_dot a d xs l HX ltac:(lia)). rewrite dot_comm. split; intros K.
      - apply inject_eq. rewrite <- E1, K. change (inject_Z 0) with 0%Q. ring.
      - rewrite K in E1. change (inject_Z 0) with 0%Q in E1. apply Qmult_integral in E1 as [E1|E1]; auto. rewrite E1 in Pl. discriminate. }
    split.
    - intros (_ & Hs & Hn0 & Hc). apply HS in Hs. apply solution_valid in Hs as [_ Hv]. split; auto. split; auto. split.
      { intros K. apply Hn0. intros a Ha. apply (HZ0 a Ha). auto. }
      intros b Hb Htight. destruct (nudge (xs ++ [0]) b Lx Hv Hb Htight) as (K & y & z & HK & Ly & Lz & Vy & Vz & Ey & Ez & _).
      assert (B0 : nth n b 0 = 0). { assert (T := Htight _ HU). rewrite !(dot_comm _ (unit_vec _ _ _)), !dot_unit, (nth_snoc n), Nat.eqb_refl in T by (auto; lia). lia. }
      destruct (row_split n y Ly) as (ys & m & -> & Hys & Em & _). destruct (row_split n z Lz) as (zs & m' & -> & Hzs & Em' & _).
      rewrite (Ey n), (nth_snoc n), Nat.eqb_refl, B0 in Em by auto. rewrite (Ez n), (nth_snoc n), Nat.eqb_refl, B0 in Em' by auto. assert (m = 0) by lia. assert (m' = 0) by lia. clear Em Em'. subst m m'.
      assert (HKl : 0 < 2 * K * l) by nia. assert (N3 := inject_zero _ HKl).
      set (u := map (fun x => inject_Z x / inject_Z (2 * K * l))%Q ys). set (v := map (fun x => inject_Z x / inject_Z (2 * K * l))%Q zs).
      assert (HY : clears (2 * K * l) u ys) by (apply over; lia). assert (HZ : clears (2 * K * l) v zs) by (apply over; lia).
      assert (Hu : length u = n) by (unfold u; rewrite map_length; auto). assert (Hw : length v = n) by (unfold v; rewrite map_length; auto).
      destruct (Hc u v) as ([c b0] & Hs0 & HA); auto.
      + refine (proj2 (recedes_rows n V u ys (2 * K * l) HV Hys HKl HY) _). apply solution_valid. auto.
      + refine (proj2 (recedes_rows n V v zs (2 * K * l) HV Hzs HKl HZ) _). apply solution_valid. auto.
      + intros j. destruct (Nat.lt_ge_cases j n) as [Hj|Hj]; [|rewrite !nth_overflow by lia; ring].
        assert (C1 := cleared_nth _ _ _ j HY). assert (C2 := cleared_nth _ _ _ j HZ). assert (C3 := cleared_nth _ _ _ j HX).
        assert (E1 := Ey j). assert (E2 := Ez j). rewrite !(nth_snoc n) in E1, E2 by auto. destruct (Nat.eqb_spec j n); [lia|].
        apply (Qmult_inj_r _ _ (inject_Z (2 * K * l))); auto. transitivity (inject_Z (nth j ys 0%Z + nth j zs 0%Z)).
        * rewrite E1, E2. transitivity (inject_Z (2 * K * nth j xs 0%Z)); [|f_equiv; ring]. rewrite (inject_Z_mult (2 * K) l), (inject_Z_mult (2 * K) (nth j xs 0)), <- C3. ring.
        * rewrite inject_Z_plus, <- C1, <- C2. ring.
      + assert (HA2 : forall a, In a V -> (linear a u == (inject_Z c / inject_Z (Z.pos b0)) * linear a d)%Q) by (intros a Ha; rewrite <- Qmake_Qdiv; exact (HA a Ha)).
        assert (HA' := proj1 (alike_direction_rows u d ys xs (2 * K * l) l (Z.pos b0) c Hys Hx HKl Hl HY HX ltac:(lia)) HA2).
        exists (Z.pos b0 * l), (Z.pos b0 * l * K - c * (2 * K * l)). split; [nia|]. intros w Hin. etransitivity; [|exact (HA' w Hin)].
        f_equal. apply (vec_ext_nth (S n)); try (apply vadd_length_eq; rewrite vscale_length; auto). intros j _. rewrite !nth_vadd, !nth_vscale by (rewrite !vscale_length; congruence). rewrite (Ey j). ring.
    - intros (_ & Hv & Hnv & Hf). split; auto. split; [refine (proj2 HS _); apply solution_valid; auto|]. destruct (nz_dec V (xs ++ [0])) as [(a0 & Ha0 & Hn0)|]; [|contradiction].
      assert (Hd0 : ~ (linear a0 d == 0)%Q) by (intros K; apply Hn0; apply HZ0; auto). split; [intros K; apply Hd0; apply K; auto|].
      assert (Sd := proj2 HS (proj2 (solution_valid _) (conj Lx Hv))).
      intros u v Hu Hw Su Sv HB. destruct (clear_point u) as (m & ys & Hm & HY). assert (Pm := inject_pos m Hm).
      assert (Hys : length ys = n) by (rewrite <- (forall2_length _ _ _ HY); auto). assert (Ly : length (ys ++ [0]) = S n) by (rewrite app_length; cbn; lia).
      destruct (Hf (ys ++ [0]) Ly) as (k & s & Hk & Hvan).
      { intros a Ha E0. assert (La := row_length a Ha). apply (HZ0 a Ha) in E0. rewrite (linear_sum a d u v) in E0 by (auto; lia). assert (A1 := Su a Ha). assert (A2 := Sv a Ha).
        assert (E3 : (linear a u == 0)%Q) by lra. assert (E4 := linear_dot a u ys m HY ltac:(lia)). rewrite E3 in E4. rewrite dot_comm. apply inject_eq. rewrite <- E4. change (inject_Z 0) with 0%Q. ring. }
      assert (HA : forall a, In a V -> (linear a u == (inject_Z (- (s * l)) / inject_Z (k * m)) * linear a d)%Q).
      { apply (alike_direction_rows u d ys xs m l (k * m) (- (s * l))); auto; [nia|]. intros w Hin. specialize (Hvan w Hin). rewrite dot_vadd_l, !dot_vscale_l in * by (rewrite !vscale_length; congruence).
        transitivity (m * l * (k * dot (ys ++ [0]) w + s * dot (xs ++ [0]) w)); [ring|rewrite Hvan; ring]. }
      exists (inject_Z (- (s * l)) / inject_Z (k * m))%Q. split; auto. set (e := (inject_Z (- (s * l)) / inject_Z (k * m))%Q) in *. assert (A1 := Sd a0 Ha0). assert (A2 := Su a0 Ha0). rewrite (HA a0 Ha0) in A2.
      destruct (Qlt_le_dec e 0) as [He|He]; auto. exfalso. apply Hd0. set (x := linear a0 d) in *. destruct (Qlt_le_dec x 0) as [Hx0|Hx0]; [|lra]. assert (0 < (- e) * (- x))%Q by (apply Qmult_lt_0_compat; lra). lra.
  Qed.
  (** Being a facet does not change up to scaling and equations. *)
  Lemma facet_same x y k s : facet (S n) V y -> length x = S n -> 0 < k -> 0 < s -> vanishes V (vadd (vscale k x) (vscale (- s) y)) -> facet (S n) V x.
  Proof.
    intros (Hl & Hv & Hnv & Hf) Lx Hk Hs HE. assert (E : forall v, In v V -> k * dot x v = s * dot y v).
    { intros v Hin. specialize (HE v Hin). rewrite dot_vadd_l, !dot_vscale_l in HE by (rewrite !vscale_length; congruence). lia. }
    split; auto. split; [intros v Hin; specialize (E v Hin); specialize (Hv v Hin); nia|]. split; [intros K; apply Hnv; intros v Hin; specialize (E v Hin); specialize (K v Hin); nia|].
    intros b Hb Hz. destruct (Hf b Hb) as (m & r & Hm & Hvan). { intros v Hin H0. apply Hz; auto. specialize (E v Hin). nia. }
    exists (m * s), (r * k). split; [nia|]. intros v Hin. specialize (E v Hin). specialize (Hvan v Hin). rewrite dot_vadd_l, !dot_vscale_l in * by (rewrite !vscale_length; congruence).
    transitivity (s * (m * dot b v + r * dot y v)); [|rewrite Hvan; ring]. transitivity (s * m * dot b v + r * (k * dot x v)); [ring|rewrite E; ring].
  Qed.
End Rows.
