(** * VertexImages: the images of points and directions under maps, and the classes of the rows that stand for them. *)
From Coq Require Import List ZArith QArith Arith Bool Lia Lqa Permutation.
From Verif Require Import Base Spec LinAlg ListUtil Cone FmeCore ArithModel MatrixModel FmeModel SafeIntModel Refine IntTypes FmeTheorems DimTheorems NormTheorems
  ClassesModel ClassesProofs OrbitTheorems OrbitExact ApplyTheorems Adjacency Symmetry VertexSymmetry Hull Corners PropertiesProgram PropertiesAd.
Import ListNotations.
Open Scope Z_scope.
Open Scope list_scope.

(** ** Proportional rows *)
Definition prop_rows (x y : vec) : Prop := exists a b, 0 < a /\ 0 < b /\ vscale a x = vscale b y.
Lemma prop_refl x : prop_rows x x.
Proof. exists 1, 1. repeat split; lia. Qed.
Lemma prop_sym x y : prop_rows x y -> prop_rows y x.
Proof. intros (a & b & Ha & Hb & E). exists b, a. auto. Qed.
Lemma prop_trans x y z : prop_rows x y -> prop_rows y z -> prop_rows x z.
Proof.
  intros (a & b & Ha & Hb & E) (c & d & Hc & Hd & E'). exists (c * a), (b * d). split; [nia|]. split; [nia|]. rewrite <- !vscale_vscale, E, <- E', !vscale_vscale. f_equal. ring.
Qed.
Lemma prop_rnorm x : prop_rows x (rnorm x).
Proof. exists 1, (rfac x). split; [lia|]. split; [apply rfac_pos|]. rewrite rnorm_spec. apply vscale_1. Qed.
Lemma image_scale im k x : image_value im (vscale k x) = k * image_value im x.
Proof. induction im as [|tm im IH]; cbn [image_value fold_right]; [ring|]. fold (image_value im (vscale k x)). fold (image_value im x). rewrite IH, nth_vscale. ring. Qed.
Lemma sub_scale m k x : substitute m (vscale k x) = vscale k (substitute m x).
Proof. unfold substitute, vscale at 2. rewrite map_map. apply map_ext. intros im. apply image_scale. Qed.
Lemma prop_sub m x y : prop_rows x y -> prop_rows (substitute m x) (substitute m y).
Proof. intros (a & b & Ha & Hb & E). exists a, b. split; auto. split; auto. rewrite <- !sub_scale, E. reflexivity. Qed.
Lemma prop_length x y : prop_rows x y -> length x = length y.
Proof. intros (a & b & _ & _ & E). rewrite <- (vscale_length a x), E, vscale_length. reflexivity. Qed.
Lemma prop_simn V x y : prop_rows x y -> simn V x y.
Proof. intros (a & b & Ha & Hb & E). exists a, b. split; auto. split; auto. intros v _. rewrite <- !dot_vscale_l, E. reflexivity. Qed.
Lemma prop_nth x y : prop_rows x y -> exists a b, 0 < a /\ 0 < b /\ forall i, a * nth i x 0 = b * nth i y 0.
Proof. intros (a & b & Ha & Hb & E). exists a, b. split; auto. split; auto. intros i. rewrite <- !nth_vscale, E. reflexivity. Qed.
Lemma nth_prop x y a b : length x = length y -> 0 < a -> 0 < b -> (forall i, a * nth i x 0 = b * nth i y 0) -> prop_rows x y.
Proof. intros Hl Ha Hb H. exists a, b. split; auto. split; auto. apply (vec_ext_nth (length x)); rewrite ?vscale_length; auto. intros j _. rewrite !nth_vscale. auto. Qed.

(** ** Directions *)
(** The image of a direction under a map: the constants of the map do not move it. *)
Definition turned_by (m : lmap) (d : list Q) : list Q := map (fun im : image => fold_right (fun tm s => inject_Z (snd tm) * nth (fst tm) d 0 + s)%Q 0%Q im) (removelast m).
Inductive turned (maps : list lmap) : list Q -> list Q -> Prop :=
| turned_none d : turned maps d d
| turned_first m d e : In m maps -> turned maps (turned_by m d) e -> turned maps d e.

Section Images.
  Variables (n : nat) (maps : list lmap).
  Hypothesis Hmaps : forall m, In m maps -> map_in (S n) m /\ nth n m [] = [(n, 1)].

  Lemma turned_substitute m d xs l : In m maps -> length xs = n -> clears l d xs -> exists ys, substitute m (xs ++ [0]) = ys ++ [0] /\ length ys = n /\ clears l (turned_by m d) ys.
  Proof.
    intros Hm Hx HX. destruct (Hmaps m Hm) as ((Hl & Hin) & Hlast). destruct (exists_last (l := m)) as (m' & im & ->); [intros ->; discriminate|].
    rewrite app_length in Hl. cbn [length] in Hl. rewrite app_nth2 in Hlast by lia. replace (n - length m')%nat with 0%nat in Hlast by lia. cbn [nth] in Hlast. subst im.
    assert (Hp : length d = n) by (rewrite (forall2_length _ _ _ HX); auto).
    exists (map (fun im => image_value im (xs ++ [0])) m'). split; [|split].
    - unfold substitute. rewrite map_app. f_equal. cbn [map image_value fold_right fst snd]. rewrite app_nth2 by lia. replace (n - length xs)%nat with 0%nat by lia. cbn [nth]. f_equal.
    - rewrite map_length. lia.
    - unfold turned_by. rewrite removelast_last. clear - HX Hx Hp.
      assert (N : forall j, (nth j d 0 * inject_Z l == inject_Z (nth j (xs ++ [0%Z]) 0%Z))%Q).
      { intros j. destruct (Nat.ltb_spec j n).
        - rewrite !app_nth1 by lia. apply cleared_nth. auto.
        - rewrite app_nth2 by lia. rewrite nth_overflow by lia. destruct (j - length xs)%nat as [|k]; cbn [nth]; [|destruct k; cbn [nth]]; change (inject_Z 0) with 0%Q; ring. }
      induction m' as [|im m' IH]; cbn [map]; constructor; auto. clear IH. induction im as [|tm im IH]; cbn [fold_right image_value]; [change (inject_Z 0) with 0%Q; ring|].
      fold (image_value im (xs ++ [0%Z])). rewrite inject_Z_plus, inject_Z_mult, <- IH, <- (N (fst tm)). ring.
  Qed.
  Lemma turned_z d e : turned maps d e -> forall xs l, length xs = n -> clears l d xs -> exists ys, zmoved maps (xs ++ [0]) (ys ++ [0]) /\ length ys = n /\ clears l e ys.
  Proof.
    induction 1 as [d|m d e Hm _ IH]; intros xs l Hx HX; [exists xs; split; [constructor|auto]|].
    destruct (turned_substitute m d xs l Hm Hx HX) as (ys & E & Hy & HY). destruct (IH ys l Hy HY) as (zs & Z1 & Z2 & Z3). exists zs. split; auto. apply (zmoved_first maps m); auto. rewrite E. auto.
  Qed.
  Lemma z_turned X Y : zmoved maps X Y -> forall d xs l, X = xs ++ [0] -> length xs = n -> clears l d xs -> exists e ys, turned maps d e /\ Y = ys ++ [0] /\ length ys = n /\ clears l e ys.
  Proof.
    induction 1 as [x|m x y Hm _ IH]; intros d xs l -> Hx HX; [exists d, xs; split; [constructor|auto]|].
    destruct (turned_substitute m d xs l Hm Hx HX) as (ys & E & Hy & HY). destruct (IH (turned_by m d) ys l E Hy HY) as (q & zs & Z1 & Z2). exists q, zs. split; auto. apply (turned_first maps m); auto.
  Qed.

  (** ** Rows that stand for points and directions *)
  Definition point_stands (p : list Q) (x : vec) : Prop := exists xs l, x = xs ++ [l] /\ length xs = n /\ 0 < l /\ clears l p xs.
  Definition direction_stands (d : list Q) (x : vec) : Prop := exists xs l, x = xs ++ [0] /\ length xs = n /\ 0 < l /\ clears l d xs.

  Lemma point_to p x Y : point_stands p x -> zmoved maps x Y -> exists q, moved maps p q /\ point_stands q Y.
  Proof.
    intros (xs & l & -> & Hx & Hl & HX) Hz. destruct (z_moved n maps Hmaps _ _ Hz p xs l eq_refl Hx HX) as (q & ys & H1 & -> & H2 & H3). exists q. split; auto. exists ys, l. auto.
  Qed.
  Lemma point_from p q x : moved maps p q -> point_stands p x -> exists Y, zmoved maps x Y /\ point_stands q Y.
  Proof.
    intros Hm (xs & l & -> & Hx & Hl & HX). destruct (moved_z n maps Hmaps p q Hm xs l Hx HX) as (ys & H1 & H2 & H3). exists (ys ++ [l]). split; auto. exists ys, l. auto.
  Qed.
  Lemma direction_to p x Y : direction_stands p x -> zmoved maps x Y -> exists q, turned maps p q /\ direction_stands q Y.
  Proof.
    intros (xs & l & -> & Hx & Hl & HX) Hz. destruct (z_turned _ _ Hz p xs l eq_refl Hx HX) as (q & ys & H1 & -> & H2 & H3). exists q. split; auto. exists ys, l. auto.
  Qed.
  Lemma direction_from p q x : turned maps p q -> direction_stands p x -> exists Y, zmoved maps x Y /\ direction_stands q Y.
  Proof.
    intros Hm (xs & l & -> & Hx & Hl & HX). destruct (turned_z p q Hm xs l Hx HX) as (ys & H1 & H2 & H3). exists (ys ++ [0]). split; auto. exists ys, l. auto.
  Qed.
  Lemma point_same p q x y : point_stands p x -> point_stands q y -> (prop_rows x y <-> same_point p q).
  Proof.
    intros (xs & l & -> & Hx & Hl & HX) (ys & k & -> & Hy & Hk & HY). assert (Lp : length p = n) by (rewrite (forall2_length _ _ _ HX); auto). assert (Lq : length q = n) by (rewrite (forall2_length _ _ _ HY); auto). split.
    - intros H. destruct (prop_nth _ _ H) as (a & b & Ha & Hb & E). apply (same_nth_all n); auto. intros j. assert (En := E n). specialize (E j). rewrite !(nth_snoc n) in E, En by auto. rewrite Nat.eqb_refl in En.
      destruct (Nat.eqb_spec j n) as [Ej|Hj]; [rewrite !nth_overflow by lia; reflexivity|]. assert (N := inject_zero (b * k) ltac:(nia)). apply (Qmult_inj_r _ _ (inject_Z (b * k))); auto.
      transitivity (inject_Z (b * nth j ys 0%Z)); [rewrite <- E, <- En, !inject_Z_mult, <- (cleared_nth _ _ _ j HX); ring|rewrite !inject_Z_mult, <- (cleared_nth _ _ _ j HY); ring].
    - intros H. assert (K := clears_inj l k _ xs ys Hl Hk (clears_same _ _ _ _ H HX) HY). apply (nth_prop _ _ k l); auto; [rewrite !app_length; cbn; lia|]. intros i. rewrite !(nth_snoc n) by auto. destruct (Nat.eqb_spec i n); [ring|]. specialize (K i). lia.
  Qed.
  Lemma direction_same p q x y : direction_stands p x -> direction_stands q y -> (prop_rows x y <-> multiple p q).
  Proof.
    intros (xs & l & -> & Hx & Hl & HX) (ys & k & -> & Hy & Hk & HY). assert (Lp : length p = n) by (rewrite (forall2_length _ _ _ HX); auto). assert (Lq : length q = n) by (rewrite (forall2_length _ _ _ HY); auto).
    assert (N1 := inject_zero l Hl). assert (N2 := inject_zero k Hk). split.
    - intros H. destruct (prop_nth _ _ H) as (a & b & Ha & Hb & E). assert (Na := inject_zero a Ha). exists (inject_Z (b * k) / inject_Z (a * l))%Q. split.
      { apply Qlt_shift_div_l; [apply inject_pos; nia|]. setoid_replace (0 * inject_Z (a * l))%Q with 0%Q by ring. apply inject_pos. nia. }
      intros j. specialize (E j). rewrite !(nth_snoc n) in E by auto. destruct (Nat.eqb_spec j n) as [Ej|Hj]; [rewrite !nth_overflow by lia; ring|].
      rewrite !inject_Z_mult. apply (Qmult_inj_r _ _ (inject_Z a * inject_Z l)); [intros Z0; apply Qmult_integral in Z0; tauto|].
      transitivity (inject_Z (a * nth j xs 0%Z)); [rewrite inject_Z_mult, <- (cleared_nth _ _ _ j HX); ring|]. rewrite E, inject_Z_mult, <- (cleared_nth _ _ _ j HY). field. auto.
    - intros (s & Hs & HS). destruct s as [a b]. assert (Ha : 0 < a) by (unfold Qlt in Hs; cbn in Hs; lia). assert (ES := Qmake_Qdiv a b). assert (Nb := inject_zero (Z.pos b) ltac:(lia)).
      apply (nth_prop _ _ (Z.pos b * k) (a * l)); try nia; [rewrite !app_length; cbn; lia|]. intros i. rewrite !(nth_snoc n) by auto. destruct (Nat.eqb_spec i n); [ring|].
      apply inject_eq. rewrite !inject_Z_mult, <- (cleared_nth _ _ _ i HX), <- (cleared_nth _ _ _ i HY), (HS i), ES. field. auto.
  Qed.
  Lemma zmoved_snoc x y m : zmoved maps x y -> In m maps -> zmoved maps x (substitute m y).
  Proof. induction 1 as [x|m' x y Hm' _ IH]; intros Hm; [apply (zmoved_first maps m); auto; constructor|]. apply (zmoved_first maps m'); auto. Qed.
  Lemma orbit_z x0 y : length x0 = S n -> orbit EXACT Vertex_tag maps x0 y -> forall x, prop_rows x x0 -> exists Y, zmoved maps x Y /\ prop_rows Y y.
  Proof.
    intros Hl H x Hx. assert (G : length y = S n /\ exists Y, zmoved maps x Y /\ prop_rows Y y); [|apply G]. induction H as [|y m z _ (Ly & Y & H1 & H2) Hm E]; [split; auto; exists x; split; [constructor|auto]|].
    destruct (ray_apply (S n) maps (fun m Hm => proj1 (Hmaps m Hm)) m y z Ly Hm E) as (-> & Lz). split; auto. exists (substitute m Y). split; [apply zmoved_snoc; auto|].
    apply (prop_trans _ (substitute m y)); [apply prop_sub; auto|apply prop_rnorm].
  Qed.
  Lemma z_orbit x Y : zmoved maps x Y -> forall x0, length x0 = S n -> prop_rows x x0 -> exists y, orbit EXACT Vertex_tag maps x0 y /\ prop_rows Y y.
  Proof.
    induction 1 as [x|m x Y Hm _ IH]; intros x0 Hl Hx; [exists x0; split; [constructor|auto]|]. assert (Mm := proj1 (Hmaps m Hm)).
    destruct (IH (rnorm (substitute m x0))) as (y & H1 & H2); [rewrite rnorm_length; apply (substitute_length (S n)); auto|apply (prop_trans _ (substitute m x0)); [apply prop_sub; auto|apply prop_rnorm]|].
    exists y. split; auto. apply (orbit_trans EXACT Vertex_tag maps x0 (rnorm (substitute m x0))); auto. apply (orbit_apply EXACT Vertex_tag maps x0 x0 m); auto; [constructor|].
    rewrite (apply_exact Vertex_tag (S n)) by auto. rewrite (vertex_raw (S n)) by auto. reflexivity.
  Qed.

  (** ** Classes *)
  Section Classes.
    Variables (A F R : list vec).
    Hypothesis HA : dims (S n) A.
    Hypothesis Hline : no_line (S n) A.
    Hypothesis Hto : forall m a, In m maps -> In a A -> exists b j k, In b A /\ 0 < j /\ 0 < k /\ forall x, length x = S n -> j * dot a (substitute m x) = k * dot b x.
    Hypothesis Hfrom : forall m b, In m maps -> In b A -> exists a j k, In a A /\ 0 < j /\ 0 < k /\ forall x, length x = S n -> j * dot a (substitute m x) = k * dot b x.
    Hypothesis HF : forall x, In x F <-> extreme_ray (S n) A x /\ primitive x.
    Hypothesis HRF : incl R F.
    Hypothesis HRn : NoDup R.
    Hypothesis HRc : forall f, In f F -> exists r, In r R /\ orbit EXACT Vertex_tag maps f r.
    Hypothesis HRu : forall r x, In r R -> In x R -> orbit EXACT Vertex_tag maps r x -> x = r.
    Hypothesis HX : forall x, extreme_ray (S n) A x -> exists f, In f F /\ prop_rows x f.
    Notation orb := (orbit EXACT Vertex_tag maps).

    Variables (stands : list Q -> vec -> Prop) (mv sm : list Q -> list Q -> Prop).
    Hypothesis Sto : forall p x Y, stands p x -> zmoved maps x Y -> exists q, mv p q /\ stands q Y.
    Hypothesis Sfrom : forall p q x, mv p q -> stands p x -> exists Y, zmoved maps x Y /\ stands q Y.
    Hypothesis Ssame : forall p q x y, stands p x -> stands q y -> (prop_rows x y <-> sm p q).
    Variables (L : list (list Q)) (rows : list vec).
    Hypothesis HL : Forall2 stands L rows.
    Hypothesis Hrows : incl rows R.
    Hypothesis Hn : NoDup rows.
    Hypothesis Sin : forall p x r, stands p x -> prop_rows x r -> In r R -> In r rows.

    Lemma rays_length x : In x F -> length x = S n.
    Proof. intros H. apply HF in H. apply H. Qed.
    Lemma prop_extreme x y : prop_rows x y -> extreme_ray (S n) A x -> extreme_ray (S n) A y.
    Proof.
      intros H He. assert (Lx : length x = S n) by apply He. apply (extreme_iff (S n) A HA Hline). apply (extreme_iff (S n) A HA Hline) in He. apply (facet_sim (S n) A x); auto; [rewrite <- (prop_length x y H); auto|].
      apply prop_simn; auto.
    Qed.
    Lemma prop_primitive x y : In x F -> In y F -> prop_rows x y -> x = y.
    Proof.
      intros Hx Hy (a & b & Ha & Hb & E). apply HF in Hx, Hy. destruct Hx as (Ex & Px), Hy as (Ey & Py). apply (proportional_primitive (S n) x y a b); auto; [apply Ex|apply Ey].
    Qed.
    (** What is printed stands for an extreme ray. *)
    Lemma listed_extreme q : In q L -> exists x, stands q x /\ extreme_ray (S n) A x.
    Proof. intros Hq. destruct (forall2_in_l _ _ _ q HL Hq) as (r & Hr & Hs). exists r. split; auto. apply HF. apply HRF, Hrows, Hr. Qed.
    (** Images of what is printed stand for extreme rays. *)
    Lemma image_extreme q q' : In q L -> mv q q' -> exists x, stands q' x /\ extreme_ray (S n) A x.
    Proof.
      intros Hq Hm. destruct (forall2_in_l _ _ _ q HL Hq) as (r & Hr & Hs). destruct (Sfrom q q' r Hm Hs) as (Y & H1 & H2). exists Y. split; auto.
      assert (Fr := HRF r (Hrows r Hr)). destruct (z_orbit r Y H1 r (rays_length r Fr) (prop_refl r)) as (y & H3 & H4). apply (prop_extreme y); [apply prop_sym; auto|].
      apply HF. apply (orbit_rays (S n) A maps HA Hline (fun m Hm => proj1 (Hmaps m Hm)) Hto Hfrom F HF r); auto.
    Qed.
    (** Everything is moved to something printed by the maps, and back. *)
    Lemma reaches_listed p x : stands p x -> extreme_ray (S n) A x -> exists q q', In q L /\ mv p q' /\ sm q' q.
    Proof.
      intros Hs He. destruct (HX x He) as (f & Hf & Hp). destruct (HRc f Hf) as (r & Hr & Or). destruct (orbit_z f r (rays_length f Hf) Or x Hp) as (Y & H1 & H2).
      destruct (Sto p x Y Hs H1) as (q' & H3 & H4). destruct (forall2_in_r _ _ _ r HL (Sin q' Y r H4 H2 Hr)) as (q & Hq & Hs'). exists q, q'. split; auto. split; auto. apply (Ssame q' q Y r); auto.
    Qed.
    Lemma listed_reaches p x : stands p x -> extreme_ray (S n) A x -> exists q q', In q L /\ mv q q' /\ sm q' p.
    Proof.
      intros Hs He. destruct (HX x He) as (f & Hf & Hp). destruct (HRc f Hf) as (r & Hr & Or). destruct (orbit_z f r (rays_length f Hf) Or x Hp) as (Y & H1 & H2).
      destruct (Sto p x Y Hs H1) as (q0 & H3 & H4). destruct (forall2_in_r _ _ _ r HL (Sin q0 Y r H4 H2 Hr)) as (q & Hq & Hs').
      assert (Ob : orb r f) by (apply (rays_back (S n) A maps HA Hline (fun m Hm => proj1 (Hmaps m Hm)) Hto Hfrom F HF f); auto).
      destruct (orbit_z r f (rays_length r (HRF r Hr)) Ob r (prop_refl r)) as (Y' & H5 & H6). destruct (Sto q r Y' Hs' H5) as (q' & H7 & H8). exists q, q'. split; auto. split; auto.
      apply (Ssame q' p Y' x); auto. apply (prop_trans _ f); auto. apply prop_sym; auto.
    Qed.
    (** No two things printed are moved to each other. *)
    Lemma listed_apart i j q : (i < length L)%nat -> (j < length L)%nat -> mv (nth i L []) q -> sm q (nth j L []) -> i = j.
    Proof.
      intros Hi Hj Hm Hs. assert (Ll := forall2_length _ _ _ HL). assert (Si := forall2_nth _ _ _ i [] [] HL Hi). assert (Sj := forall2_nth _ _ _ j [] [] HL Hj).
      assert (Ii : In (nth i rows []) rows) by (apply nth_In; unfold vec in *; lia). assert (Ij : In (nth j rows []) rows) by (apply nth_In; unfold vec in *; lia).
      destruct (Sfrom _ _ _ Hm Si) as (Y & H1 & H2). assert (H3 : prop_rows Y (nth j rows [])) by (apply (Ssame q (nth j L [])); auto).
      assert (Fi := HRF _ (Hrows _ Ii)). destruct (z_orbit _ Y H1 _ (rays_length _ Fi) (prop_refl _)) as (y & H4 & H5).
      assert (Fy : In y F) by (apply (orbit_rays (S n) A maps HA Hline (fun m Hm => proj1 (Hmaps m Hm)) Hto Hfrom F HF (nth i rows [])); auto).
      assert (Ey : y = nth j rows []) by (apply prop_primitive; auto; apply (prop_trans _ Y); auto; apply prop_sym; auto). subst y.
      assert (E := HRu _ _ (Hrows _ Ii) (Hrows _ Ij) H4). apply (proj1 (NoDup_nth rows []) Hn i j); [unfold vec in *; lia|unfold vec in *; lia|]. symmetry. exact E.
    Qed.
  End Classes.
End Images.
