(** * PropertiesLines: vertex enumeration for systems whose solutions may contain lines (C61). *)
From Coq Require Import List ZArith QArith Arith Bool Ascii String Lia Lqa Permutation.
From Verif Require Import Base Spec LinAlg Cone ListUtil ArithModel MatrixModel FmeModel SafeIntModel IntTypes StreamModel StreamProofs ClassesModel ClassesProofs MapModel ValidityModel SortModel SortProofs PropertiesSort CliModel PropertiesCli
  IntLcm FmeRefine InputModel InputProofs VertexInput ConstraintModel ConstraintInput ConstraintSection PropertiesVertices PropertiesConstraints MapInput OutputModel OutputProofs PropertiesOutput FileModel FileProofs Hull Corners
  FmeTheorems PropertiesFme PropertiesMaps PropertiesProgram FileInput HullSame SystemFile PropertiesFile Samples PropertiesSystem MainModel PropertiesMain Lines.
Import ListNotations.
Open Scope Z_scope.
Open Scope list_scope.

(** ** Specification *)
(** The points differ by a direction along which every constraint keeps its value: the solutions contain the line through them, if they contain one of them. *)
Definition differ_by_a_line (K : list constraint) (p q : list Q) : Prop := forall k, In k K -> (linear_form (terms k) p == linear_form (terms k) q)%Q.
(** A solution that does not lie between two others, unless they differ from it by a line. *)
Definition vertex_up_to_lines (n : nat) (K : list constraint) (p : list Q) : Prop :=
  length p = n /\ all_satisfied K p /\
  forall q r c, length q = n -> length r = n -> all_satisfied K q -> all_satisfied K r -> (0 < c)%Q -> (c < 1)%Q -> between c q r p -> differ_by_a_line K q p.
(** A direction that is a positive multiple of another one, up to lines. *)
Definition multiple_up_to_lines (K : list constraint) (d u : list Q) : Prop := exists s, (0 < s)%Q /\ forall k, In k K -> (linear_form (terms k) d == s * linear_form (terms k) u)%Q.
(** A direction in which solutions can be moved without end, but not the opposite one, and which is the sum only of multiples of it, up to lines. *)
Definition extreme_up_to_lines (n : nat) (K : list constraint) (d : list Q) : Prop :=
  length d = n /\ moves K d /\ ~ (forall k, In k K -> (linear_form (terms k) d == 0)%Q) /\
  forall u v, length u = n -> length v = n -> moves K u -> moves K v -> (forall j, (nth j d 0 == nth j u 0 + nth j v 0)%Q) ->
    exists s, (0 <= s)%Q /\ forall k, In k K -> (linear_form (terms k) u == s * linear_form (terms k) d)%Q.

(** ** Rows *)
Lemma line_generator_rows t order n (A F : list vec) : t <> INT16 -> sort_order order -> rows_representable t A -> dims (S n) A -> (0 < n)%nat -> In (unit_vec (S n) n (-1)) A ->
  m_fme (arith t) order A = Ok F -> Forall negatable_row F -> dims (S n) F /\ homogeneous n F /\ Forall printable_generator F.
Proof.
  intros Ht Ho HR HA Hn HU HF BF. assert (NZ := unit_nonzero n A HU). assert (X1 := rows_facets t order (S n) A Ht Ho HR HA F).
  assert (L : forall f, In f F -> length f = S n /\ 0 <= nth n f 0).
  { intros f Hf. destruct (X1 f NZ HF Hf) as [(Hlen & Hs & _) _]. split; auto. apply (valid_last n A HU f); auto. }
  split; [apply Forall_forall; intros f Hf; apply (L f Hf)|]. split; [apply Forall_forall; auto|]. apply Forall_forall. intros f Hf. destruct (L f Hf) as [H1 H2]. destruct (X1 f NZ HF Hf) as [_ HP].
  destruct (row_split n f H1) as (xs & b & -> & Hx & Hb & _). exists xs, b. split; auto. split; [intros ->; cbn in Hx; lia|]. split; [rewrite Forall_forall in BF; auto|]. intros Hb0. split; [lia|auto].
Qed.
Notation clears l := (Forall2 (fun q x => q * inject_Z l == inject_Z x)%Q).
Lemma clears_length l p xs : clears l p xs -> length p = length xs.
Proof. apply forall2_length. Qed.

Lemma vertex_call_lines : forall t order n (A F : list vec) fuel,
  t <> INT16 -> sort_order order -> rows_representable t A -> dims (S n) A -> (0 < n)%nat -> In (unit_vec (S n) n (-1)) A ->
  m_fme (arith t) order A = Ok F -> Forall negatable_row F -> (length F <= fuel)%nat ->
  exists vertices P rays R,
    m_vertex_call t order fuel A [] = Some (vertex_text vertices rays (match P with [] => true | _ => false end) (match R with [] => true | _ => false end) false, Ok tt) /\
    section_lines vertices P /\ section_lines rays R /\
    (forall p : list Q, length p = n -> (solves A p <-> exists q, length q = n /\ hull n (map coordinates_of P) (map coordinates_of R) q /\ alike A p q)) /\
    (forall p : list Q, flat_corner n A p <-> length p = n /\ exists q, In q (map coordinates_of P) /\ alike A p q) /\
    listed_once (alike A) (map coordinates_of P) /\
    (forall d : list Q, flat_direction n A d <-> length d = n /\ exists u, In u (map coordinates_of R) /\ alike_multiple A d u) /\
    listed_once (alike_multiple A) (map coordinates_of R) /\
    readable_again n P R.
Proof.
  intros t order n A F fuel Ht Ho HR HA Hn HU HF BF Hfuel. destruct (line_generator_rows t order n A F) as (DF & HomF & PF); auto. assert (NZ := unit_nonzero n A HU).
  assert (X1 : forall f, In f F -> facet (S n) A f) by (intros f Hf; apply (rows_facets t order (S n) A Ht Ho HR HA F f NZ HF Hf)).
  destruct (rows_distinct t order (S n) A Ht Ho HR HA F NZ HF) as (_ & X2).
  destruct (classes_none t Vertex_tag F fuel Hfuel) as (out & EO & HO).
  assert (NO : NoDup out).
  { apply (C27_classes t Vertex_tag [] fuel F out); auto. intros r Hr m []. }
  assert (DO : dims (S n) out) by (apply Forall_forall; intros x Hx; apply (dims_in (S n) F); auto; apply HO; auto).
  assert (HomO : homogeneous n out) by (apply Forall_forall; intros x Hx; unfold homogeneous in HomF; rewrite Forall_forall in HomF; apply HomF; apply HO; auto).
  assert (PO : Forall printable_generator out) by (apply Forall_forall; intros x Hx; rewrite Forall_forall in PF; apply PF; apply HO; auto).
  set (conv := filter is_vertex out). set (cone := filter (fun r => negb (is_vertex r)) out).
  assert (IC : forall r, In r conv <-> In r F /\ last r 0 <> 0).
  { intros r. unfold conv. rewrite filter_In, HO. unfold is_vertex. rewrite negb_true_iff, Z.eqb_neq. tauto. }
  assert (IR : forall r, In r cone <-> In r F /\ last r 0 = 0).
  { intros r. unfold cone. rewrite filter_In, HO. unfold is_vertex. rewrite negb_involutive, Z.eqb_eq. tauto. }
  destruct (vertex_lines_ok t conv) as (vertices & P & E1 & S1 & R1 & I1 & HP).
  { apply Forall_forall. intros r Hr. apply filter_In in Hr as [Hr _]. rewrite Forall_forall in PO. auto. }
  { apply Forall_forall. intros r Hr. apply filter_In in Hr as [_ Hr]. auto. }
  destruct (ray_lines_ok t cone) as (rays & R & E2 & S2 & R2 & I2 & HRw).
  { apply Forall_forall. intros r Hr. apply filter_In in Hr as [Hr _]. rewrite Forall_forall in PO. auto. }
  { apply Forall_forall. intros r Hr. apply filter_In in Hr as [_ Hr]. apply negb_true_iff; auto. }
  assert (CV0 := vertices_clear P conv HP R1).
  assert (CV : Forall2 (fun q row => exists xs l, row = xs ++ [l] /\ length xs = n /\ 0 < l /\ clears l q xs /\ In row F) (map coordinates_of P) conv).
  { assert (DC : Forall (fun r => In r F) conv) by (apply Forall_forall; intros r Hr; apply IC; auto). clear - CV0 DC DF. revert DC. induction CV0 as [|q r L C (xs & l & -> & H1 & H2) _ IH]; intros DC; constructor; apply Forall_cons_iff in DC as [D1 D2]; auto.
    exists xs, l. split; auto. assert (Hlen := dims_in (S n) F _ DF D1). rewrite app_length in Hlen. cbn [length] in Hlen. split; [lia|auto]. }
  assert (CR : Forall2 (fun q row => exists xs, row = xs ++ [0] /\ length xs = n /\ clears 1 q xs /\ In row F) (map coordinates_of R) cone).
  { assert (DC : Forall (fun r => In r F /\ last r 0 = 0) cone) by (apply Forall_forall; intros r Hr; apply IR; auto). rewrite HRw. clear - DC DF. induction DC as [|r cone (D1 & D2) _ IH]; cbn [map]; constructor; auto.
    destruct (row_split n r (dims_in (S n) F r DF D1)) as (xs & b & -> & Hx & _ & Hb & _). assert (b = 0) by congruence. subst b. exists xs. rewrite removelast_last. split; auto. split; auto. split; auto. apply whole_clears. }
  clear CV0. assert (NV : NoDup conv) by (apply NoDup_filter; auto). assert (NR : NoDup cone) by (apply NoDup_filter; auto).
  exists vertices, P, rays, R. split; [|split; [exact S1|split; [exact S2|split; [|split; [|split; [|split; [|split]]]]]]].
  - unfold m_vertex_call. change (num (arith t)) with Z in *. rewrite HF. cbn [bind]. rewrite EO. f_equal. unfold m_print_vertices. rewrite split_ok by auto. cbn [calc nonempty m_reduced app]. fold conv cone.
    rewrite E1, E2. clear - R1 R2.
    destruct conv as [|c0 conv']; destruct P as [|p0 P']; try (inversion R1; fail); destruct cone as [|k0 cone']; destruct R as [|r0 R']; try (inversion R2; fail); cbn [say andthen fst snd app]; unfold vertex_text, end_line;
      rewrite <- ?app_assoc; cbn [app]; rewrite ?app_nil_r; reflexivity.
  - intros p Hp. assert (SP : Forall2 same_point (map coordinates_of P) (points_of out)) by (apply points_same; auto).
    assert (SR : Forall2 same_point (map coordinates_of R) (rays_of out)) by (rewrite HRw; apply ray_same).
    destruct (clear_point p) as (l & xs & Hl & HX). assert (Hxs : length xs = n) by (rewrite <- (forall2_length _ _ _ HX); auto). assert (Lx : length (xs ++ [l]) = S n) by (rewrite app_length; cbn; lia). split.
    + intros K. apply (proj1 (solution_rows n A p xs l HA Hxs Hl HX)) in K. destruct (line_generators t order n A Ht Ho HR HA HU F _ HF K) as (k & v & Hk & Lv & Hv & Hc).
      assert (V0 := vanishes_last n A HU v Lv Hv). assert (Lz : length (vadd (vscale k (xs ++ [l])) (vscale (-1) v)) = S n) by (apply vadd_length_eq; rewrite vscale_length; auto).
      assert (Ej : forall j, nth j (vadd (vscale k (xs ++ [l])) (vscale (-1) v)) 0 = k * nth j (xs ++ [l]) 0 - nth j v 0) by (intros j; rewrite nth_vadd, !nth_vscale by (rewrite !vscale_length; congruence); ring).
      destruct (row_split n _ Lz) as (zs & b & EZ & Hzs & Eb & _). rewrite Ej, (nth_snoc n), Nat.eqb_refl, V0 in Eb by auto. assert (Hb : 0 < b) by nia. rewrite EZ in Hc, Ej.
      set (q := map (fun x => inject_Z x / inject_Z b)%Q zs). assert (HZ : clears b q zs) by (apply over; lia). assert (Hq : length q = n) by (unfold q; rewrite map_length; auto).
      exists q. split; auto. split.
      * apply (hull_same n (points_of out) (rays_of out)); auto using same_all_sym. apply (hull_in_cone n out zs b q HomO Hzs Hb HZ). apply (in_cone_same (S n) F out); auto; [rewrite app_length; cbn; lia|]. intros f Hf. apply HO; auto.
      * apply (alike_rows n A HA p q xs zs l b); auto. intros w Hw. transitivity (l * dot v w); [|rewrite (Hv w Hw); ring]. rewrite <- dot_vscale_l. f_equal.
        apply (vec_ext_nth (S n)); [apply vadd_length_eq; rewrite vscale_length; auto; rewrite app_length; cbn; lia|rewrite vscale_length; auto|]. intros j _. rewrite nth_vadd, !nth_vscale by (rewrite !vscale_length, !app_length; cbn; lia). rewrite (Ej j), <- Eb. ring.
    + intros (q & Hq & Hh & Ha). destruct (clear_point q) as (m & ys & Hm & HY). assert (Hys : length ys = n) by (rewrite <- (forall2_length _ _ _ HY); auto). assert (Ly : length (ys ++ [m]) = S n) by (rewrite app_length; cbn; lia).
      assert (Sq : solution (S n) A (ys ++ [m])).
      { apply (cone_solution t order n A Ht Ho HR HA HU F); auto. apply (in_cone_same (S n) out F); auto; [intros f Hf; apply HO; auto|]. apply (hull_in_cone n out ys m q HomO Hys Hm HY). revert Hh. apply hull_same; auto. }
      refine (proj2 (solution_rows n A p xs l HA Hxs Hl HX) _). split; auto. intros a Hin. destruct Sq as [_ Sq]. specialize (Sq a Hin). apply (alike_rows n A HA p q xs ys l m) in Ha; auto. specialize (Ha a Hin).
      rewrite dot_vadd_l, !dot_vscale_l in Ha by (rewrite !vscale_length; congruence). rewrite (dot_comm a) in Sq |- *. nia.
  - intros p. split.
    + intros Hc. assert (Hp := proj1 Hc). split; auto. destruct (clear_point p) as (l & xs & Hl & HX). assert (Hxs : length xs = n) by (rewrite <- (forall2_length _ _ _ HX); auto).
      apply (facet_corner n A HA HU p xs l) in Hc; auto. destruct (facet_listed t order n A Ht Ho HR HA HU F _ HF Hc) as (f & Hf & k & s & Hk & Hs & E).
      assert (Lf := dims_in (S n) F f DF Hf). destruct (row_split n f Lf) as (ys & b & -> & Hys & _ & Hb & _).
      assert (Lx : length (xs ++ [l]) = S n) by (rewrite app_length; cbn; lia).
      assert (LL : length (vadd (vscale k (ys ++ [b])) (vscale (- s) (xs ++ [l]))) = S n) by (apply vadd_length_eq; rewrite vscale_length; auto).
      assert (En := vanishes_last n A HU _ LL E). rewrite nth_vadd, !nth_vscale, !(nth_snoc n), Nat.eqb_refl in En by (auto; rewrite !vscale_length; congruence). assert (Hb0 : 0 < b) by nia.
      destruct (forall2_in_r _ _ _ (ys ++ [b]) CV) as (q & Hq & zs & b' & EZ & Hzs & Hb' & HZ & _); [apply IC; rewrite last_last; split; auto; lia|]. apply app_inj_tail in EZ as [<- <-].
      exists q. split; auto. apply (alike_rows n A HA p q xs ys l b); auto. intros w Hw. specialize (E w Hw). rewrite dot_vadd_l, !dot_vscale_l in * by (rewrite !vscale_length; congruence).
      set (Y := dot (ys ++ [b]) w) in *. set (X := dot (xs ++ [l]) w) in *. assert (Z0 : k * (b * X + - l * Y) = 0) by (transitivity (X * (k * b + - s * l) - l * (k * Y + - s * X)); [ring|rewrite En, E; ring]). nia.
    + intros (Hp & q & Hq & Hqp). destruct (forall2_in_l _ _ _ q CV Hq) as (r & Hr & ys & m & -> & Hys & Hm & HY & Hin). destruct (clear_point p) as (l & xs & Hl & HX). assert (Hxs : length xs = n) by (rewrite <- (forall2_length _ _ _ HX); auto).
      assert (Lx : length (xs ++ [l]) = S n) by (rewrite app_length; cbn; lia).
      apply (facet_corner n A HA HU p xs l); auto. apply (facet_same n A (xs ++ [l]) (ys ++ [m]) m l); auto. apply (alike_rows n A HA p q xs ys l m); auto.
  - intros i j Hi Hj HS. assert (Li := forall2_length _ _ _ CV). destruct (forall2_nth _ _ _ i [] [] CV Hi) as (xs & l & Ei & Hx & Hl & HX & Ii). destruct (forall2_nth _ _ _ j [] [] CV Hj) as (ys & m & Ej & Hy & Hm & HY & Ij).
    apply (proj1 (NoDup_nth conv []) NV i j); [exact (eq_ind _ (fun k => (i < k)%nat) Hi _ Li)|exact (eq_ind _ (fun k => (j < k)%nat) Hj _ Li)|]. apply X2; auto. exists m, l. split; auto. split; auto.
    apply (alike_rows n A HA _ _ xs ys l m) in HS; auto. rewrite <- Ei, <- Ej in HS. exact HS.
  - intros d. split.
    + intros Hc. assert (Hp := proj1 Hc). split; auto. destruct (clear_point d) as (l & xs & Hl & HX). assert (Hxs : length xs = n) by (rewrite <- (forall2_length _ _ _ HX); auto).
      apply (facet_direction n A HA HU d xs l) in Hc; auto. destruct (facet_listed t order n A Ht Ho HR HA HU F _ HF Hc) as (f & Hf & k & s & Hk & Hs & E).
      assert (Lf := dims_in (S n) F f DF Hf). destruct (row_split n f Lf) as (ys & b & -> & Hys & _ & Hb & _).
      assert (Lx : length (xs ++ [0]) = S n) by (rewrite app_length; cbn; lia).
      assert (LL : length (vadd (vscale k (ys ++ [b])) (vscale (- s) (xs ++ [0]))) = S n) by (apply vadd_length_eq; rewrite vscale_length; auto).
      assert (En := vanishes_last n A HU _ LL E). rewrite nth_vadd, !nth_vscale, !(nth_snoc n), Nat.eqb_refl in En by (auto; rewrite !vscale_length; congruence). assert (Hb0 : b = 0) by nia. subst b.
      destruct (forall2_in_r _ _ _ (ys ++ [0]) CR) as (q & Hq & zs & EZ & Hzs & HZ & _); [apply IR; rewrite last_last; split; auto; lia|]. apply app_inj_tail in EZ as [<- _].
      exists q. split; auto. exists (inject_Z k / inject_Z (s * l))%Q. split.
      * assert (P1 := inject_pos k Hk). assert (P2 := inject_pos (s * l) ltac:(nia)). apply Qlt_shift_div_l; auto.
      * apply (alike_direction_rows n A HA d q xs ys l 1 (s * l) k); auto; try lia. intros w Hw. specialize (E w Hw). rewrite dot_vadd_l, !dot_vscale_l in * by (rewrite !vscale_length; congruence).
        transitivity (- l * (k * dot (ys ++ [0]) w + - s * dot (xs ++ [0]) w)); [ring|rewrite E; ring].
    + intros (Hd & u & Hu & [a b] & Hs & Hj). destruct (forall2_in_l _ _ _ u CR Hu) as (r & Hr & ys & -> & Hys & HY & Hin). destruct (clear_point d) as (l & xs & Hl & HX). assert (Hxs : length xs = n) by (rewrite <- (forall2_length _ _ _ HX); auto).
      assert (Ha : 0 < a) by (unfold Qlt in Hs; cbn in Hs; lia). assert (Lx : length (xs ++ [0]) = S n) by (rewrite app_length; cbn; lia).
      apply (facet_direction n A HA HU d xs l); auto. apply (facet_same n A (xs ++ [0]) (ys ++ [0]) (Z.pos b * 1) (a * l)); auto; try nia. apply (alike_direction_rows n A HA d u xs ys l 1 (Z.pos b) a); auto; try lia.
      intros w Hw. rewrite <- Qmake_Qdiv. exact (Hj w Hw).
  - intros i j Hi Hj ([a b] & Hs & HS). assert (Li := forall2_length _ _ _ CR). destruct (forall2_nth _ _ _ i [] [] CR Hi) as (xs & Ei & Hx & HX & Ii). destruct (forall2_nth _ _ _ j [] [] CR Hj) as (ys & Ej & Hy & HY & Ij).
    assert (Ha : 0 < a) by (unfold Qlt in Hs; cbn in Hs; lia).
    apply (proj1 (NoDup_nth cone []) NR i j); [exact (eq_ind _ (fun k => (i < k)%nat) Hi _ Li)|exact (eq_ind _ (fun k => (j < k)%nat) Hj _ Li)|]. apply X2; auto. exists (Z.pos b * 1), (a * 1). split; [lia|]. split; [lia|].
    assert (HS2 : forall w, In w A -> (linear w (nth i (map coordinates_of R) []) == (inject_Z a / inject_Z (Z.pos b)) * linear w (nth j (map coordinates_of R) []))%Q) by (intros w Hw; rewrite <- Qmake_Qdiv; exact (HS w Hw)).
    apply (alike_direction_rows n A HA _ _ xs ys 1 1 (Z.pos b) a) in HS2; auto; try lia. rewrite <- Ei, <- Ej in HS2. exact HS2.
  - split; [exists conv; auto|]. split; [exists cone; auto|]. intros p Hp. apply in_app_iff in Hp as [Hp|Hp].
    + apply (in_map coordinates_of) in Hp. destruct (forall2_in_l _ _ _ _ CV Hp) as (r & Hr & xs & l & -> & Hx & _ & HX & _). assert (L := forall2_length _ _ _ HX). unfold coordinates_of in L. rewrite map_length in L. lia.
    + apply (in_map coordinates_of) in Hp. destruct (forall2_in_l _ _ _ _ CR Hp) as (r & Hr & xs & -> & Hx & HX & _). assert (L := forall2_length _ _ _ HX). unfold coordinates_of in L. rewrite map_length in L. lia.
Qed.

(** ** Constraints *)
Open Scope nat_scope.
Lemma scaled_system s so n e d u : fits_together s n -> equations_fit s n -> sound_system s -> length d = n -> length u = n ->
  ((forall a, In a (system_rows s so) -> (linear a d == e * linear a u)%Q) <-> (forall k, In k (constraints_of s) -> (linear_form (terms k) d == e * linear_form (terms k) u)%Q)).
Proof.
  intros H1 H2 (S1 & S2 & _) Hd Hu. rewrite (in_system_rows s so n H1 H2 (fun a => (linear a d == e * linear a u)%Q)). rewrite Forall_forall in S1, S2.
  assert (T : (linear (unit_vec (S n) n (-1)) d == e * linear (unit_vec (S n) n (-1)) u)%Q).
  { assert (E1 := linear_trivial d). assert (E2 := linear_trivial u). rewrite Hd in E1. rewrite Hu in E2. rewrite E1, E2. ring. }
  assert (G : forall k, fst k = n -> Forall (fun t => fst t < n) (terms (snd k)) -> ((linear (wide_row k) d == e * linear (wide_row k) u)%Q <-> (linear_form (terms (snd k)) d == e * linear_form (terms (snd k)) u)%Q)).
  { intros k Ek I. rewrite (linear_wide k n d I Ek Hd), (linear_wide k n u I Ek Hu). destruct (operator (snd k)); split; intros; lra. }
  assert (E1 : forall k, In k (s_inequalities s) -> ((linear (wide_row k) d == e * linear (wide_row k) u)%Q <-> (linear_form (terms (snd k)) d == e * linear_form (terms (snd k)) u)%Q)).
  { intros k Hk. assert (Ek : fst k = n) by (apply H1; auto). destruct (S2 k Hk) as (_ & I & _). rewrite Ek in I. auto. }
  assert (E2 : forall k, In k (s_equations s) -> ((linear (wide_row k) d == e * linear (wide_row k) u)%Q <-> (linear_form (terms (snd k)) d == e * linear_form (terms (snd k)) u)%Q)).
  { intros k Hk. assert (Ek : fst k = n) by (apply H2; auto). destruct (S1 k Hk) as ((_ & I & _) & _). rewrite Ek in I. auto. }
  split.
  - intros (K1 & K2 & _) c Hc. apply in_map_iff in Hc as (k & <- & Hk). apply in_app_iff in Hk as [Hk|Hk]; [apply E2; auto; apply K2|apply E1]; auto.
  - intros K. assert (K' : forall k, In k (s_equations s ++ s_inequalities s) -> (linear_form (terms (snd k)) d == e * linear_form (terms (snd k)) u)%Q) by (intros k Hk; apply K; apply in_map; auto).
    split; [|split; auto]; intros k Hk; [apply E1; auto; apply K'; apply in_app_iff; auto|]. assert (B : (linear (wide_row k) d == e * linear (wide_row k) u)%Q) by (apply E2; auto; apply K'; apply in_app_iff; auto).
    split; auto. rewrite !linear_opp, B. ring.
Qed.
Lemma alike_system s so n p q : fits_together s n -> equations_fit s n -> sound_system s -> length p = n -> length q = n -> (alike (system_rows s so) p q <-> differ_by_a_line (constraints_of s) p q).
Proof.
  intros H1 H2 HS Hp Hq. assert (K := scaled_system s so n 1%Q p q H1 H2 HS Hp Hq). unfold alike, differ_by_a_line. split; intros H.
  - assert (H' := proj1 K (fun a Ha => Qeq_trans _ _ _ (H a Ha) (Qeq_sym _ _ (Qmult_1_l _)))). intros k Hk. rewrite (H' k Hk). ring.
  - assert (H' := proj2 K (fun a Ha => Qeq_trans _ _ _ (H a Ha) (Qeq_sym _ _ (Qmult_1_l _)))). intros k Hk. rewrite (H' k Hk). ring.
Qed.
Lemma line_system s so n d : fits_together s n -> equations_fit s n -> sound_system s -> length d = n ->
  ((forall a, In a (system_rows s so) -> (linear a d == 0)%Q) <-> (forall k, In k (constraints_of s) -> (linear_form (terms k) d == 0)%Q)).
Proof.
  intros H1 H2 HS Hd. assert (K := scaled_system s so n 0%Q d d H1 H2 HS Hd Hd). split; intros H.
  - intros k Hk. rewrite (proj1 K (fun a Ha => Qeq_trans _ _ _ (H a Ha) (Qeq_sym _ _ (Qmult_0_l _))) k Hk). ring.
  - intros k Hk. rewrite (proj2 K (fun a Ha => Qeq_trans _ _ _ (H a Ha) (Qeq_sym _ _ (Qmult_0_l _))) k Hk). ring.
Qed.

(** ** C61 *)
(** The program for vertices (double description), without maps, whether or not the solutions contain lines: unless an overflow stops the computation it prints points and rays that generate the solutions up to
    the lines; the points are, up to the lines, exactly the solutions that do not lie between two others, and the rays exactly the extreme directions; up to the lines, nothing is printed twice. *)
Theorem C61_program : forall t order fs args name so content s n (F : list vec),
  t <> INT16 -> sort_order order -> asks args name so -> fs name = Some content -> early_keyword content -> system_text no_system (Some content) s ->
  fits_together s n -> equations_fit s n -> 0 < n -> s_maps s = [] ->
  m_fme (arith t) order (system_rows s so) = Ok F -> Forall negatable_row F ->
  exists vertices P rays R,
    section_lines vertices P /\ section_lines rays R /\
    (exists fuel0, forall fuel, fuel0 <= fuel ->
      m_vertex_program t order fs fuel args = Some (vertex_text vertices rays (match P with [] => true | _ => false end) (match R with [] => true | _ => false end) false, Ok tt)) /\
    (forall p, In p (P ++ R) -> length p = n) /\
    (forall p : list Q, length p = n ->
      (all_satisfied (constraints_of s) p <-> exists q, length q = n /\ hull n (map coordinates_of P) (map coordinates_of R) q /\ differ_by_a_line (constraints_of s) p q)) /\
    (forall p : list Q, vertex_up_to_lines n (constraints_of s) p <-> length p = n /\ exists q, In q (map coordinates_of P) /\ differ_by_a_line (constraints_of s) p q) /\
    listed_once (differ_by_a_line (constraints_of s)) (map coordinates_of P) /\
    (forall d : list Q, extreme_up_to_lines n (constraints_of s) d <-> length d = n /\ exists u, In u (map coordinates_of R) /\ multiple_up_to_lines (constraints_of s) d u) /\
    listed_once (multiple_up_to_lines (constraints_of s)) (map coordinates_of R).
Proof.
  intros t order fs args name so content s n F Ht Ho HA HF HK HT Hn He H0 HM HE HB. assert (HS := system_sound _ _ _ HT no_system_sound).
  destruct (system_rows_facts s so n Hn He HS) as (HD & HU & HR). destruct (input_inequalities_ok fs args name so content s HA HF HK HT) as (f0 & K).
  assert (EC := proj2 (fits_together_iff s HS) (ex_intro _ n Hn)).
  destruct (vertex_call_lines t order n (system_rows s so) F (length F) Ht Ho (HR t Ht) HD H0 HU HE HB (le_n _)) as (vertices & P & rays & R & E1 & L1 & L2 & X1 & X2 & X3 & X4 & X5 & (_ & _ & X6)).
  assert (LP : forall q, In q (map coordinates_of P) -> length q = n).
  { intros q Hq. apply in_map_iff in Hq as (q0 & <- & Hq). unfold coordinates_of. rewrite map_length. apply X6. apply in_app_iff; auto. }
  assert (LR : forall q, In q (map coordinates_of R) -> length q = n).
  { intros q Hq. apply in_map_iff in Hq as (q0 & <- & Hq). unfold coordinates_of. rewrite map_length. apply X6. apply in_app_iff; auto. }
  assert (MM : forall d u, length d = n -> length u = n -> (alike_multiple (system_rows s so) d u <-> multiple_up_to_lines (constraints_of s) d u)).
  { intros d u Hd Hu. split; intros (e & He0 & H); exists e; (split; [auto|]); apply (scaled_system s so n e d u Hn He HS Hd Hu); auto. }
  assert (AA := fun p q => alike_system s so n p q Hn He HS).
  exists vertices, P, rays, R. split; auto. split; auto. split; [|split; [auto|split; [|split; [|split; [|split]]]]].
  - exists (f0 + length F). intros fuel Hfuel. unfold m_vertex_program. rewrite (K fuel) by lia. rewrite EC. cbn [calco]. rewrite cast_rows_same by auto. rewrite HM, <- E1. clear - HE Hfuel. unfold m_vertex_call.
    change (num (arith t)) with Z in *. rewrite HE. cbn [bind]. destruct (classes_none t Vertex_tag F (length F) (le_n _)) as (out & EO & _).
    rewrite EO, (classes_mono (arith t) (length F) fuel Vertex_tag [] F out ltac:(lia) EO). reflexivity.
  - intros p Hp. rewrite <- (solves_system s so n p Hn He HS Hp), (X1 p Hp). split; intros (q & Hq & Hh & Ha); exists q; (split; [auto|]); (split; [auto|]); apply AA; auto.
  - intros p. assert (C : vertex_up_to_lines n (constraints_of s) p <-> flat_corner n (system_rows s so) p).
    { unfold vertex_up_to_lines, flat_corner. split; intros (V1 & V2 & V3); split; auto; (split; [apply (solves_system s so n); auto|]); intros q r c Hq Hr Sq Sr C1 C2 B; apply AA; auto; apply (V3 q r c); auto; apply (solves_system s so n); auto. }
    rewrite C, X2. split; intros (Hp & q & Hq & Ha); (split; [auto|]); exists q; (split; [auto|]); apply AA; auto.
  - intros i j Hi Hj HH. apply X3; auto. apply AA; auto; apply LP; apply nth_In; auto.
  - intros d. assert (C : extreme_up_to_lines n (constraints_of s) d <-> flat_direction n (system_rows s so) d).
    { unfold extreme_up_to_lines, flat_direction. split; intros (V1 & V2 & V3 & V4); (split; [auto|]); (split; [apply (recedes_system s so n); auto|]); (split; [intros Z0; apply V3; apply (line_system s so n); auto|]); intros u v Hu Hv Su Sv HH;
        (destruct (V4 u v Hu Hv) as (e & He0 & HE0); [apply (recedes_system s so n); auto|apply (recedes_system s so n); auto|auto|]); exists e; (split; [auto|]); apply (scaled_system s so n e u d Hn He HS Hu V1); auto. }
    rewrite C, X4. split; intros (Hd & u & Hu & Ha); (split; [auto|]); exists u; (split; [auto|]); apply MM; auto.
  - intros i j Hi Hj HH. apply X5; auto. apply MM; auto; apply LR; apply nth_In; auto.
Qed.
Print Assumptions C61_program.
(** The same for the whole command line. *)
Theorem C61_main : forall t order fs args name so content s n (F : list vec),
  t <> INT16 -> sort_order order -> Forall ordinary args -> chooses_method args DoubleDescription -> chooses_type args t ->
  asks args name so -> fs name = Some content -> early_keyword content -> system_text no_system (Some content) s -> ~ describes_hull content -> describes_system content ->
  fits_together s n -> equations_fit s n -> 0 < n -> s_maps s = [] ->
  m_fme (arith t) order (system_rows s so) = Ok F -> Forall negatable_row F ->
  exists vertices P rays R,
    section_lines vertices P /\ section_lines rays R /\
    (exists fuel0, forall texts fuel hardware, fuel0 <= fuel ->
      only_ends (m_main texts order fs fuel hardware args) (vertex_text vertices rays (match P with [] => true | _ => false end) (match R with [] => true | _ => false end) false) (Status 0)) /\
    (forall p : list Q, length p = n ->
      (all_satisfied (constraints_of s) p <-> exists q, length q = n /\ hull n (map coordinates_of P) (map coordinates_of R) q /\ differ_by_a_line (constraints_of s) p q)) /\
    (forall p : list Q, vertex_up_to_lines n (constraints_of s) p <-> length p = n /\ exists q, In q (map coordinates_of P) /\ differ_by_a_line (constraints_of s) p q) /\
    (forall d : list Q, extreme_up_to_lines n (constraints_of s) d <-> length d = n /\ exists u, In u (map coordinates_of R) /\ multiple_up_to_lines (constraints_of s) d u).
Proof.
  intros t order fs args name so content s n F Ht Ho HO HM HT HA HF HK HX HS1 HS2 HG Hq Hn Hm HFm BF.
  destruct (C61_program t order fs args name so content s n F Ht Ho HA HF HK HX HG Hq Hn Hm HFm BF) as (vertices & P & rays & R & W1 & W2 & (f0 & K) & _ & H1 & H2 & _ & H3 & _).
  exists vertices, P, rays, R. split; auto. split; auto. split; auto. exists f0. intros texts fuel hardware Hf out e.
  destruct (C53_mode fs args name content HO (proj1 HA) HF) as (_ & _ & M). rewrite (main_mode texts order fs fuel hardware args _ (M (conj HS1 HS2))), (vertex_main order fs fuel hardware args _ t HM HT).
  rewrite (K fuel Hf), dd_ends. reflexivity.
Qed.
Print Assumptions C61_main.
(** [differ_by_a_line] says what its name says: for a solution [p], the points differ by a line if and only if the solutions contain all points of the line through them. *)
Lemma linear_form_between xs : forall p q r c, between c q r p -> (linear_form xs p == c * linear_form xs q + (1 - c) * linear_form xs r)%Q.
Proof.
  intros p q r c H. unfold linear_form. induction xs as [|x xs IH]; cbn [fold_right]; [ring|]. rewrite IH. unfold coordinate_of. rewrite (H (fst x)). ring.
Qed.
Lemma on_the_line n c (q p : list Q) : exists r, length r = n /\ forall j, j < n -> (nth j r 0 == c * nth j q 0 + (1 - c) * nth j p 0)%Q.
Proof.
  exists (map (fun j => c * nth j q 0 + (1 - c) * nth j p 0)%Q (seq 0 n)). rewrite map_length, seq_length. split; auto. intros j Hj.
  rewrite (nth_indep _ 0%Q ((fun j => c * nth j q 0 + (1 - c) * nth j p 0)%Q 0)) by (rewrite map_length, seq_length; auto). rewrite (map_nth (fun j => (c * nth j q 0 + (1 - c) * nth j p 0)%Q)), seq_nth by auto. reflexivity.
Qed.
Theorem C61_lines : forall n (K : list constraint) (p q : list Q), length p = n -> length q = n -> all_satisfied K p ->
  (differ_by_a_line K p q <-> forall c r, length r = n -> between c q p r -> all_satisfied K r).
Proof.
  intros n K p q Hp Hq HS. split.
  - intros HD c r Hr HB k Hk. assert (E : (linear_form (terms k) r == linear_form (terms k) p)%Q) by (rewrite (linear_form_between _ _ _ _ _ HB), <- (HD k Hk); ring). specialize (HS k Hk). unfold satisfies in *.
    destruct (operator k); cbn [holds] in *; rewrite ?E; auto.
  - intros H k Hk. specialize (HS k Hk). destruct (Qeq_dec (linear_form (terms k) p) (linear_form (terms k) q)) as [E|E]; auto. exfalso.
    set (x := linear_form (terms k) p) in *. set (y := linear_form (terms k) q) in *. set (b := inject_Z (constant k)) in *.
    assert (G : forall c, holds (operator k) (c * y + (1 - c) * x)%Q b).
    { intros c. destruct (on_the_line n c q p) as (r & Hr & HB). assert (HB' : between c q p r).
      { intros j. destruct (Nat.lt_ge_cases j n); [apply HB; auto|]. rewrite !nth_overflow by lia. ring. }
      assert (S := H c r Hr HB' k Hk). unfold satisfies in S. unfold x, y, b. clear - S HB'. assert (L := linear_form_between (terms k) _ _ _ _ HB'). destruct (operator k); cbn [holds] in *; rewrite <- ?L; auto. }
    assert (N : ~ (y - x == 0)%Q) by (intros Z0; apply E; lra).
    assert (F1 : (((b - x + 1) / (y - x)) * y + (1 - (b - x + 1) / (y - x)) * x == b + 1)%Q) by (field; auto).
    assert (F2 : (((b - x - 1) / (y - x)) * y + (1 - (b - x - 1) / (y - x)) * x == b - 1)%Q) by (field; auto).
    assert (G1 := G ((b - x + 1) / (y - x))%Q). assert (G2 := G ((b - x - 1) / (y - x))%Q). destruct (operator k); cbn [holds] in *; try contradiction; rewrite ?F1, ?F2 in *; lra.
Qed.
Print Assumptions C61_lines.

(** ** A concrete file: the half plane x >= 0 *)
Definition half_plane : text := line "Names:" ++ line "x y" ++ line "" ++ line "Inequalities:" ++ line "-x <= 0".
Definition half_plane_system : system :=
  {| s_equations := []; s_inequalities := [(2, {| terms := [(0, (-1)%Z)]; operator := LessEqual; constant := 0 |})]; s_names := [lit "x"; lit "y"]; s_maps := []; s_dimension := None |}.
Example half_plane_text : system_text no_system (Some half_plane) half_plane_system.
Proof.
  apply (system_names no_system (lit "Names:") (lit "x y") [lit "x"; lit "y"] [newline; newline] (lit "Inequalities:") (line "-x <= 0"));
    try (apply keyword_itself; vm_compute; tauto); try discriminate; try apply xy_text.
  - repeat constructor.
  - assert (PL : plain_line []). { destruct (plain_or_keyword [] ltac:(intros [])) as [H|H]; [exact H|discriminate H]. }
    apply (system_line _ []); [left; exact PL|]. apply (system_line _ []); [left; exact PL|].
    apply (system_inequalities _ (lit "Inequalities:") (line "-x <= 0") [(2, {| terms := [(0, (-1)%Z)]; operator := LessEqual; constant := 0 |})] [] [] None); cbn [s_names].
    + exact xy_names.
    + apply keyword_itself. vm_compute. tauto.
    + apply (written_line _ (lit "-x <= 0")); [exact segment_left|constructor].
    + apply follows_end; constructor.
    + apply system_none.
Qed.
(** The hypotheses hold; the solutions contain a line; the vertex (0, 0) and the ray (1, 0) are printed.  The solution (2, 5) is generated up to the line, but not without it. *)
Example C61_example :
  asks [lit "f"] (lit "f") NoSorting /\ one_file half_plane (lit "f") = Some half_plane /\ early_keyword half_plane /\ fits_together half_plane_system 2 /\ equations_fit half_plane_system 2 /\
  m_fme (arith SAFE) sorted_order (system_rows half_plane_system NoSorting) = Ok [[1; 0; 0]; [0; 0; 1]]%Z /\
  m_vertex_program SAFE sorted_order (one_file half_plane) 20 [lit "f"] = Some (line "Vertices:" ++ line "0 0 " ++ line "Rays:" ++ line "  1  0", Ok tt) /\
  ~ pointed 2 (constraints_of half_plane_system) /\ all_satisfied (constraints_of half_plane_system) [2; 5]%Q /\ hull 2 [[0; 0]%Q] [[1; 0]%Q] [2; 0]%Q /\ differ_by_a_line (constraints_of half_plane_system) [2; 5]%Q [2; 0]%Q.
Proof.
  split; [apply asks_plain|]. split; [reflexivity|]. split.
  { exists (lit "Names:"). split; [exists [], (newline :: line "x y" ++ line "" ++ line "Inequalities:" ++ line "-x <= 0")|].
    - split; [reflexivity|]. split; [cbn; lia|]. split; [constructor|]. split; [cbn; intuition discriminate|]. right. eexists. reflexivity.
    - apply keyword_itself. vm_compute. tauto. }
  split. { split; [discriminate|]. split; [cbn; intuition (subst; reflexivity)|]. split; [right; reflexivity|left; reflexivity]. }
  split. { intros k []. }
  split; [vm_compute; reflexivity|]. split; [vm_compute; reflexivity|]. split.
  { intros HP. specialize (HP [0; 1]%Q eq_refl). assert (K : (1 == 0)%Q); [|discriminate K]. apply (HP) with (j := 1). intros k [<-|[]]. vm_compute. reflexivity. }
  split. { intros k [<-|[]]. vm_compute. discriminate. }
  split. { exists [1%Q], [2%Q]. repeat split; try (repeat constructor; discriminate). intros j Hj. destruct j as [|[|j]]; [vm_compute; reflexivity|vm_compute; reflexivity|lia]. }
  intros k [<-|[]]. vm_compute. reflexivity.
Qed.
