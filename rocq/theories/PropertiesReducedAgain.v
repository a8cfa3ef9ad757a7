(** * PropertiesReducedAgain: what is printed for a file with maps is read again (C63). *)
From Coq Require Import List ZArith QArith Arith Bool Ascii String Lia Lqa Permutation Sorted.
From Verif Require Import Base Spec LinAlg Cone ListUtil ArithModel MatrixModel FmeModel SafeIntModel IntTypes RowLcm StreamModel StreamProofs SortModel CliModel PropertiesCli InputModel InputProofs VertexInput ClassesModel MapInput
  ConstraintModel ConstraintInput ConstraintSection PropertiesVertices PropertiesConstraints OutputModel OutputProofs PropertiesOutput Hull Corners FmeCore FmePure FmePrepare FmeCorrect Refine MatrixRefine FmeRefine FmeTheorems DimTheorems NormTheorems
  Samples ClassesProofs ApplyTheorems OrbitTheorems OrbitExact PropertiesMaps PropertiesFme MapModel PropertiesProgram RotationModel RotationTheorems PropertiesRotation HeuristicTheorems
  NormalForm Symmetry Adjacency PropertiesAd HullSame VertexSymmetry VertexImages PropertiesReduced FileModel Expand FileProofs FileInput SystemFile PropertiesFile PropertiesSystem PropertiesMapFile PropertiesRoundTrip PropertiesExpand.
Import ListNotations.
Open Scope Z_scope.
Open Scope list_scope.

(** ** Specification *)
(** The printed text as an input file: the names and the maps have to be added before it. *)
Definition with_maps (body lines printed : text) : text := lit "Names:" ++ newline :: body ++ newline :: lit "Maps:" ++ newline :: lines ++ printed.

(** ** The classes of the printed rows *)
Section Classes.
  Variables (tg : tag) (N : nat) (maps : list lmap) (F : list vec).
  Hypothesis MF : Forall (map_in N) maps.
  Hypothesis DF : dims N F.
  Hypothesis BF : Forall (Forall int_range) F.
  Notation orb := (orbit EXACT tg maps).
  Hypothesis Horb : forall x y, In x F -> orb x y -> In y F.
  Hypothesis Hback : forall x y, In x F -> orb x y -> orb y x.
  Hypothesis HLoad : forall f m k, In f F -> In m maps -> load_of tg m f k <= int_max.

  Lemma orbit_reached r x : In r F -> orb r x <-> reached (step_of tg) maps r x.
  Proof.
    intros Hr. assert (Lr := dims_in N F r DF Hr). rewrite Forall_forall in MF. split.
    - induction 1 as [|x m y Hx IH Hm E]; [constructor|]. apply (reached_step _ _ _ m x); auto. assert (Lx := dims_in N F x DF (Horb r x Hr Hx)). rewrite (apply_exact tg N) in E by auto.
      assert (E' : rnorm (praw tg m x) = y) by congruence. apply (step_of_iff tg N); auto.
    - induction 1 as [|m x y _ IH Hm Hs]; [constructor|]. apply (orbit_apply EXACT tg maps r x m); auto. assert (Lx := dims_in N F x DF (Horb r x Hr IH)). rewrite (apply_exact tg N) by auto.
      apply (step_of_iff tg N) in Hs; auto. subst y. reflexivity.
  Qed.
  Lemma class_exists r : In r F -> exists S, class_of (step_of tg) (load_of tg) maps r S /\ forall x, In x S <-> orb r x.
  Proof.
    intros Hr. assert (Lr := dims_in N F r DF Hr). destruct (get_class_total EXACT tg maps r F (length F)) as (S & ES); auto.
    { intros x Hx. split; [apply (Horb r); auto|]. intros m Hm. eexists. apply (apply_exact tg N); [rewrite Forall_forall in MF; auto|]. apply (dims_in N F x DF). apply (Horb r); auto. }
    destruct (get_class_spec EXACT tg maps r (length F) S ES) as (SS & IS). exists S. split; auto. split; [rewrite Lr; auto|]. split; [rewrite Forall_forall in BF; auto|]. split; [|split].
    - clear - SS. unfold sorted_rows in SS. induction SS as [|a s _ IH H]; constructor; auto. eapply Forall_impl; [|exact H]. intros b. apply lt_iff.
    - intros x. rewrite IS. apply orbit_reached; auto.
    - intros x m k Hx Hm. apply HLoad; auto. apply (Horb r x Hr). apply orbit_reached; auto.
  Qed.
  Lemma classes_exist rows : incl rows F -> exists classes, Forall2 (fun r S => class_of (step_of tg) (load_of tg) maps r S /\ forall x, In x S <-> orb r x) rows classes.
  Proof. intros H. apply list_choice. intros r Hr. apply class_exists. auto. Qed.
  Notation class_and_orbit := (fun r S => class_of (step_of tg) (load_of tg) maps r S /\ forall x, In x S <-> orb r x).
  Lemma classes_members rows classes : Forall2 class_and_orbit rows classes -> forall x, In x (concat classes) <-> exists r, In r rows /\ orb r x.
  Proof.
    induction 1 as [|r S rows classes (_ & HS) _ IH]; cbn [concat]; intros x; [split; [intros []|intros (? & [] & _)]|]. rewrite in_app_iff, IH, HS. split.
    - intros [H|(r' & H1 & H2)]; [exists r; split; [left|]; auto|exists r'; split; [right|]; auto].
    - intros (r' & [<-|H1] & H2); [left; auto|right; exists r'; auto].
  Qed.
  Lemma nodup_app {X} (a b : list X) : NoDup a -> NoDup b -> (forall x, In x a -> ~ In x b) -> NoDup (a ++ b).
  Proof.
    intros HA HB HD. induction HA as [|x a Hx _ IH]; cbn [app]; auto. constructor; [rewrite in_app_iff; intros [H|H]; [auto|]; apply (HD x); [left|]; auto|]. apply IH. intros y Hy. apply HD. right; auto.
  Qed.
  Lemma classes_all rows classes : incl rows F -> NoDup rows -> (forall f, In f F -> exists r, In r rows /\ orb f r) -> (forall r x, In r rows -> In x rows -> orb r x -> x = r) ->
    Forall2 class_and_orbit rows classes -> NoDup (concat classes) /\ forall x, In x (concat classes) <-> In x F.
  Proof.
    intros HI HN HC HD HS. assert (IC := classes_members rows classes HS). split.
    - clear HC IC. revert HI HN HD. induction HS as [|r S rows classes (HS1 & HS2) HS IH]; intros HI HN HD; cbn [concat]; [constructor|]. apply NoDup_cons_iff in HN as [N1 N2].
      apply nodup_app; [apply sorted_nodup, HS1|apply IH; auto; [intros x Hx; apply HI; right; auto|intros a b Ha Hb; apply HD; right; auto]|].
      intros x Hx Hx'. apply HS2 in Hx. apply (classes_members rows classes HS) in Hx' as (r' & H1 & H2). assert (Hr' : In r' F) by (apply HI; right; auto).
      assert (E : r' = r); [|subst; auto]. apply (HD r r'); [left; auto|right; auto|]. apply (orbit_trans EXACT tg maps r x r'); auto.
    - intros x. rewrite IC. split; [intros (r & Hr & Ho); apply (Horb r); auto|]. intros Hx. destruct (HC x Hx) as (r & Hr & Ho). exists r. split; auto.
  Qed.
End Classes.

(** ** What is printed *)
Lemma printed_again t n (out : list vec) reduced : dims (S n) out -> Forall printable_generator out ->
  exists vertices P rays R, m_print_vertices t out reduced = (vertex_text vertices rays (match P with [] => true | _ => false end) (match R with [] => true | _ => false end) reduced, Ok tt) /\
    section_lines vertices P /\ section_lines rays R /\ fitting false P /\ fitting true R /\ Forall proper P /\ Forall proper R /\
    map point_row P = filter is_vertex out /\ map ray_row R = filter (fun r => negb (is_vertex r)) out /\ Forall (fun p => length p = n) (P ++ R).
Proof.
  intros DO PO. set (conv := filter is_vertex out). set (cone := filter (fun r => negb (is_vertex r)) out).
  destruct (vertex_lines_ok t conv) as (vertices & P & E1 & S1 & R1 & I1 & HP).
  { apply Forall_forall. intros r Hr. apply filter_In in Hr as [Hr _]. rewrite Forall_forall in PO. auto. }
  { apply Forall_forall. intros r Hr. apply filter_In in Hr as [_ Hr]. auto. }
  destruct (ray_lines_ok t cone) as (rays & R & E2 & S2 & R2 & I2 & HRw).
  { apply Forall_forall. intros r Hr. apply filter_In in Hr as [Hr _]. rewrite Forall_forall in PO. auto. }
  { apply Forall_forall. intros r Hr. apply filter_In in Hr as [_ Hr]. apply negb_true_iff; auto. }
  assert (PP := section_lines_proper vertices P S1). assert (PR := section_lines_proper rays R S2).
  assert (EP : map point_row P = conv) by (symmetry; apply (rows_fitting false); auto). assert (ER : map ray_row R = cone) by (symmetry; apply (rows_fitting true); auto).
  exists vertices, P, rays, R. split; [|split; [exact S1|split; [exact S2|split; [exists conv; auto|split; [exists cone; auto|split; [auto|split; [auto|split; [auto|split; [auto|]]]]]]]]].
  - unfold m_print_vertices. rewrite split_ok by auto. cbn [calc m_reduced app]. fold conv cone. rewrite E1, E2. clear - R1 R2.
    destruct conv as [|c0 conv']; destruct P as [|p0 P']; try (inversion R1; fail); destruct cone as [|k0 cone']; destruct R as [|r0 R']; try (inversion R2; fail); destruct reduced; cbn [say andthen fst snd app m_reduced]; unfold vertex_text, end_line;
      rewrite <- ?app_assoc; cbn [app]; rewrite ?app_nil_r; reflexivity.
  - apply Forall_app. assert (Lo : forall r, In r out -> length r = S n) by (intros r; apply (dims_in (S n) out); auto). split; apply Forall_forall; intros p Hp.
    + assert (K : In (point_row p) conv) by (rewrite <- EP; apply in_map; auto). apply filter_In in K as [K _]. apply Lo in K. rewrite (proj1 (row_lengths p)) in K. lia.
    + assert (K : In (ray_row p) cone) by (rewrite <- ER; apply in_map; auto). apply filter_In in K as [K _]. apply Lo in K. rewrite (proj2 (row_lengths p)) in K. lia.
Qed.
(** It is, after the names and the maps, the text of a file with reduced sections. *)
Lemma reduced_text_file names body lines M vertices P rays R classes classes' :
  names <> [] -> NoDup names -> names_text body names -> written (map_line names) lines M -> M <> [] -> P <> [] ->
  section_lines vertices P -> section_lines rays R -> fitting false P -> fitting true R ->
  Forall2 (class_of image_step image_load (map (completed names) M)) (map point_row P) classes -> Forall2 (class_of image_step image_load (map (completed names) M)) (map ray_row R) classes' ->
  let printed := vertex_text vertices rays (match P with [] => true | _ => false end) (match R with [] => true | _ => false end) true in
  early_keyword (with_maps body lines printed) /\
  file_text nothing (Some (with_maps body lines printed))
    {| c_points := map row_point (concat classes); c_rays := map row_direction (concat classes'); c_names := names; c_maps := map (completed names) M; c_dimension := None |}.
Proof.
  intros Hnn Hnd HB HM HMn Hne LP LR FP FR CP CR printed.
  assert (EV : printed = lit "Reduced Vertices:" ++ newline :: vertices ++ (match R with [] => [] | _ => lit "Reduced Rays:" ++ newline :: rays end)).
  { unfold printed, vertex_text. destruct P as [|p0 P0]; [congruence|]. rewrite <- app_assoc. cbn [app]. destruct R; reflexivity. }
  assert (PL : plain_line []). { destruct (plain_or_keyword [] ltac:(intros [])) as [H|H]; [exact H|discriminate H]. }
  assert (HCM : map (completed names) M <> []) by (intros E; apply map_eq_nil in E; auto).
  split.
  - exists (lit "Names:"). split; [|apply keyword_itself; vm_compute; tauto]. exists []. eexists. split; [reflexivity|]. split; [cbn; lia|]. split; [constructor|]. split; [vm_compute; intuition discriminate|]. right. eexists. reflexivity.
  - unfold with_maps. change (newline :: lit "Maps:" ++ newline :: lines ++ printed) with ([newline] ++ lit "Maps:" ++ newline :: lines ++ printed).
    apply (file_names nothing (lit "Names:") body names [newline] (lit "Maps:") (lines ++ printed)).
    + apply keyword_itself. vm_compute; tauto.
    + exact HB.
    + repeat constructor.
    + discriminate.
    + apply keyword_itself. vm_compute; tauto.
    + apply (file_line _ []); [left; exact PL|]. rewrite EV.
      apply (file_maps _ (lit "Maps:") lines M _ [] (Some (lit "Reduced Vertices:" ++ newline :: vertices ++ (match R with [] => [] | _ => lit "Reduced Rays:" ++ newline :: rays end)))); cbn [c_names c_points c_rays c_maps c_dimension nothing].
      * exact Hnd.
      * apply keyword_itself. vm_compute; tauto.
      * exact HM.
      * apply (follows_keyword _ (lit "Reduced Vertices:")); [apply keyword_itself; vm_compute; tauto|reflexivity].
      * rewrite app_nil_r. destruct R as [|r0 R0].
        -- inversion CR; subst classes'. apply (file_reduced_points _ (lit "Reduced Vertices:") vertices P [] [] None classes); cbn [c_names c_points c_rays c_maps c_dimension nothing].
           ++ apply keyword_itself. vm_compute; tauto.
           ++ exact LP.
           ++ apply follow_end. apply tail_end. constructor.
           ++ rewrite app_nil_r. exact FP.
           ++ exact HCM.
           ++ rewrite app_nil_r. exact CP.
           ++ apply file_none.
        -- apply (file_reduced_points _ (lit "Reduced Vertices:") vertices P (lit "Reduced Rays:" ++ newline :: rays) [] (Some (lit "Reduced Rays:" ++ newline :: rays)) classes); cbn [c_names c_points c_rays c_maps c_dimension nothing].
           ++ apply keyword_itself. vm_compute; tauto.
           ++ exact LP.
           ++ apply follow_keyword. apply keyword_itself. vm_compute; tauto.
           ++ rewrite app_nil_r. exact FP.
           ++ exact HCM.
           ++ rewrite app_nil_r. exact CP.
           ++ rewrite <- (app_nil_r rays). apply (file_reduced_rays _ (lit "Reduced Rays:") rays (r0 :: R0) [] [] None classes'); cbn [c_names c_points c_rays c_maps c_dimension nothing].
              ** apply keyword_itself. vm_compute; tauto.
              ** exact LR.
              ** apply follow_end. apply tail_end. constructor.
              ** rewrite app_nil_r. exact FR.
              ** exact HCM.
              ** rewrite app_nil_r. exact CR.
              ** apply file_none.
Qed.

(** ** Rows that are all the generators *)
Lemma all_generators t order n (A F rows : list vec) (Vs Ds : list (list Q)) : t <> INT16 -> sort_order order -> rows_representable t A -> dims (S n) A -> (0 < n)%nat -> no_line (S n) A -> In (unit_vec (S n) n (-1)) A ->
  m_fme (arith t) order A = Ok F -> Forall negatable_row F -> NoDup rows -> (forall x, In x rows <-> In x F) ->
  Forall2 (point_stands n) Vs (filter is_vertex rows) -> Forall2 (direction_stands n) Ds (filter (fun r => negb (is_vertex r)) rows) ->
  (forall p : list Q, length p = n -> (solves A p <-> hull n Vs Ds p)) /\
  (forall p : list Q, corner n A p <-> exists q, In q Vs /\ same_point q p) /\ listed_once same_point Vs /\
  (forall d : list Q, extreme_direction n A d <-> length d = n /\ exists u, In u Ds /\ multiple d u) /\ listed_once multiple Ds.
Proof.
  intros Ht Ho HR HA Hn HL HU HF BF HN HI CV CD. assert (Hsym : system_symmetries n A []) by (intros m []).
  destruct (listing_sound t order n A F rows [] Vs Ds) as (S1 & S2 & S3 & S4); auto; [intros x Hx; apply HI; auto|intros r x _ _; apply orbit_none|].
  destruct (listing_complete t order n A F rows [] Vs Ds) as (C3 & C1 & C2); auto; [intros x Hx; apply HI; auto|intros f Hf; exists f; split; [apply HI; auto|constructor]|].
  assert (M0 : forall p q, moved [] p q -> q = p) by (intros p q Hm; destruct Hm as [|m p q []]; auto). assert (T0 : forall p q, turned [] p q -> q = p) by (intros p q Hm; destruct Hm as [|m p q []]; auto).
  split; [|split; [|split; [|split]]].
  - intros p Hp'. rewrite (C3 p Hp'). split.
    + intros (points & directions & K1 & K2 & H). revert H. apply hull_mono; apply Forall_forall; intros v Hv.
      * destruct (K1 v Hv) as (q & Hq & Hm). apply M0 in Hm. subst v. exists q. split; auto. intros j _. reflexivity.
      * destruct (K2 v Hv) as (q & Hq & Hm). apply T0 in Hm. subst v. exists q, 1%Q. split; auto. split; [discriminate|]. intros j _. ring.
    + intros H. exists Vs, Ds. split; [|split]; auto; intros q Hq; exists q; split; auto; constructor.
  - intros p. split.
    + intros Hc. destruct (C1 p Hc) as (q & p' & Hq & Hm & Hs). apply M0 in Hm. subst p'. exists q. split; auto. apply same_sym. auto.
    + intros (q & Hq & Hs). assert (Cq := S1 q Hq). destruct (forall2_in_l _ _ _ q CV Hq) as (r & _ & xs & l & -> & Hx & Hl & HX). apply (corner_extreme n A q xs l HA HU Hx Hl HX) in Cq.
      apply (corner_extreme n A p xs l HA HU Hx Hl); auto. apply (clears_same l q); auto.
  - intros i j Hi Hj Hs. apply S2; auto. exists (nth i Vs []). split; auto. constructor.
  - intros d. split.
    + intros Hc. split; [apply Hc|]. destruct (C2 d Hc) as (u & d' & Hu & Hm & Hs). apply T0 in Hm. subst d'. exists u. auto.
    + intros (Hd & u & Hu & Hm). assert (Cu := S3 u Hu). destruct (forall2_in_l _ _ _ u CD Hu) as (r & _ & Sr). assert (Sr' := Sr). destruct Sr' as (xs & l & -> & Hx & Hl & HX).
      apply (direction_extreme n A u xs l HA HU Hx Hl HX) in Cu. destruct (clear_point d) as (k & ys & Hk' & HY). assert (Hy : length ys = n) by (rewrite <- (forall2_length _ _ _ HY); auto).
      assert (Sd : direction_stands n d (ys ++ [0])) by (exists ys, k; auto). apply (direction_extreme n A d ys k HA HU Hy Hk' HY). apply (prop_extreme n A HA HL (xs ++ [0])); auto.
      apply prop_sym. apply (direction_same n d u); auto.
  - intros i j Hi Hj Hs. apply S4; auto. exists (nth i Ds []). split; auto. constructor.
Qed.
Lemma forall2_impl {X Y} (P Q : X -> Y -> Prop) l m : (forall x y, P x y -> Q x y) -> Forall2 P l m -> Forall2 Q l m.
Proof. intros H. induction 1; constructor; auto. Qed.
Lemma filter_all {X} (f : X -> bool) l : (forall x, In x l -> f x = true) -> filter f l = l.
Proof. induction l as [|x l IH]; intros H; cbn [filter]; [reflexivity|]. rewrite (H x) by (left; auto). f_equal. apply IH. intros y Hy. apply H. right; auto. Qed.
Lemma filter_none {X} (f : X -> bool) l : (forall x, In x l -> f x = false) -> filter f l = [].
Proof. induction l as [|x l IH]; intros H; cbn [filter]; [reflexivity|]. rewrite (H x) by (left; auto). apply IH. intros y Hy. apply H. right; auto. Qed.
Lemma in_concat_2 {X Y} (R : X -> list Y -> Prop) l m y : Forall2 R l m -> In y (concat m) -> exists x c, In x l /\ R x c /\ In y c.
Proof.
  induction 1 as [|x c l m H _ IH]; cbn [concat]; [intros []|]. rewrite in_app_iff. intros [K|K]; [exists x, c; split; [left|]; auto|]. destruct (IH K) as (x' & c' & K1 & K2 & K3). exists x', c'. split; [right|]; auto.
Qed.
(** The call: the classes of the printed rows make up all the generators. *)
Lemma vertex_call_again t order n (A F : list vec) maps fuel out :
  t <> INT16 -> sort_order order -> rows_representable t A -> dims (S n) A -> (0 < n)%nat -> no_line (S n) A -> In (unit_vec (S n) n (-1)) A -> system_symmetries n A maps ->
  m_fme (arith t) order A = Ok F -> Forall negatable_row F -> (forall f m k, In f F -> In m maps -> image_load m f k <= int_max) ->
  m_vertex_call t order fuel A maps = Some (out, Ok tt) ->
  exists vertices P rays R classes classes',
    out = vertex_text vertices rays (match P with [] => true | _ => false end) (match R with [] => true | _ => false end) (nonempty maps) /\
    section_lines vertices P /\ section_lines rays R /\ fitting false P /\ fitting true R /\ Forall (fun p => length p = n) (P ++ R) /\
    Forall2 (class_of image_step image_load maps) (map point_row P) classes /\ Forall2 (class_of image_step image_load maps) (map ray_row R) classes' /\
    Forall (fun p => primitive (point_row p)) P /\ Forall (fun r => primitive (ray_row r)) R /\
    let Vs := map coordinates_of (map row_point (concat classes)) in let Ds := map coordinates_of (map row_direction (concat classes')) in
    Forall (fun p => length p = n) (map row_point (concat classes) ++ map row_direction (concat classes')) /\
    (forall p : list Q, length p = n -> (solves A p <-> hull n Vs Ds p)) /\
    (forall p : list Q, corner n A p <-> exists q, In q Vs /\ same_point q p) /\ listed_once same_point Vs /\
    (forall d : list Q, extreme_direction n A d <-> length d = n /\ exists u, In u Ds /\ multiple d u) /\ listed_once multiple Ds.
Proof.
  intros Ht Ho HR HA Hn HL HU Hsym HF BF HLoad Hcall. destruct (generator_rows t order n A F) as (DF & HomF & PF); auto.
  destruct (C41_extreme_rays t order (S n) A F) as (X1 & X2 & _); auto; [replace (S n - 1)%nat with n by lia; auto|].
  assert (FF : forall x, In x F <-> extreme_ray (S n) A x /\ primitive x).
  { intros x. split; [apply X1|]. intros (He & Hp). destruct (X2 x He) as (f & k & s & Hf & Hk & Hs & E). destruct (X1 f Hf) as (Ef & Pf).
    rewrite (proportional_primitive (S n) x f k s); auto; [apply He|apply Ef]. }
  assert (Hmaps : maps_of_dimension n maps) by (intros m Hm; destruct (Hsym m Hm) as (H1 & H2 & _); auto).
  assert (Hto : forall m a, In m maps -> In a A -> exists b j k, In b A /\ 0 < j /\ 0 < k /\ forall x, length x = S n -> j * dot a (substitute m x) = k * dot b x).
  { intros m a Hm Ha. destruct (Hsym m Hm) as (_ & _ & W & HW & HP). destruct (forall2_in_l _ _ _ a HW Ha) as (b & Hb & j & k & Hj & Hk & E). exists b, j, k. split; [apply (Permutation_in _ HP); auto|auto]. }
  assert (Hfrom : forall m b, In m maps -> In b A -> exists a j k, In a A /\ 0 < j /\ 0 < k /\ forall x, length x = S n -> j * dot a (substitute m x) = k * dot b x).
  { intros m b Hm Hb. destruct (Hsym m Hm) as (_ & _ & W & HW & HP). destruct (forall2_in_r _ _ _ b HW (Permutation_in _ (Permutation_sym HP) Hb)) as (a & Ha & j & k & Hj & Hk & E). exists a, j, k. auto. }
  assert (IF : Forall (Forall int_range) F) by (eapply Forall_impl; [|exact BF]; intros r Hr; apply negatable_int in Hr; exact Hr).
  assert (RF : rows_representable t F) by (apply Forall_forall; intros r Hr; apply Forall_forall; intros z Hz; apply int_representable; auto; rewrite Forall_forall in IF; specialize (IF r Hr); rewrite Forall_forall in IF; auto).
  unfold m_vertex_call in Hcall. change (num (arith t)) with Z in *. rewrite HF in Hcall. cbn [bind] in Hcall.
  destruct (m_classes_of (arith t) fuel Vertex_tag maps F) as [[rows|]| |] eqn:EC; try discriminate Hcall.
  assert (Mi : forall m, In m maps -> map_in (S n) m) by (intros m Hm; apply Hmaps; auto).
  destruct (selected_rays (S n) A maps HA HL Mi Hto Hfrom F FF t fuel rows Ht RF EC) as (S1 & S2 & S3 & S4).
  assert (Horb := orbit_rays (S n) A maps HA HL Mi Hto Hfrom F FF). assert (Hback := rays_back (S n) A maps HA HL Mi Hto Hfrom F FF).
  assert (DO : dims (S n) rows) by (apply Forall_forall; intros x Hx; apply (dims_in (S n) F); auto).
  assert (PO : Forall printable_generator rows) by (apply Forall_forall; intros x Hx; rewrite Forall_forall in PF; apply PF; auto).
  destruct (printed_again t n rows (nonempty maps) DO PO) as (vertices & P & rays & R & EP & T1 & T2 & F1 & F2 & P1 & P2 & M1 & M2 & LL). rewrite EP in Hcall.
  assert (MF : Forall (map_in (S n)) maps) by (apply Forall_forall; auto).
  assert (IP : incl (map point_row P) F) by (rewrite M1; intros x Hx; apply filter_In in Hx as [Hx _]; auto). assert (IR : incl (map ray_row R) F) by (rewrite M2; intros x Hx; apply filter_In in Hx as [Hx _]; auto).
  destruct (classes_exist Vertex_tag (S n) maps F MF DF IF Horb HLoad (map point_row P) IP) as (classes & C1). destruct (classes_exist Vertex_tag (S n) maps F MF DF IF Horb HLoad (map ray_row R) IR) as (classes' & C2).
  assert (C1' := forall2_impl _ _ _ _ (fun x y H => proj1 H) C1). assert (C2' := forall2_impl _ _ _ _ (fun x y H => proj1 H) C2). cbn beta in C1', C2'.
  assert (PM : Permutation (map point_row P ++ map ray_row R) rows).
  { rewrite M1, M2. clear. induction rows as [|r rows IH]; cbn [filter app]; [constructor|]. destruct (is_vertex r); cbn [negb app]; [apply perm_skip; auto|]. apply Permutation_sym, Permutation_cons_app, Permutation_sym. auto. }
  destruct (classes_all Vertex_tag maps F Horb Hback (map point_row P ++ map ray_row R) (classes ++ classes')) as (A1 & A2).
  { intros x Hx. apply S1. apply (Permutation_in _ PM); auto. }
  { apply (Permutation_NoDup (Permutation_sym PM)); auto. }
  { intros f Hf. destruct (S3 f Hf) as (r & Hr & Hor). exists r. split; auto. apply (Permutation_in _ (Permutation_sym PM)); auto. }
  { intros r x Hr Hx. apply S4; apply (Permutation_in _ PM); auto. }
  { apply Forall2_app; auto. }
  assert (LP := proj1 (Forall_app _ _ _) LL). destruct LP as (LP & LR).
  assert (VP : forall x, In x (concat classes) -> point_stands n (coordinates_of (row_point x)) x).
  { intros x Hx. destruct (in_concat_2 _ _ _ x C1' Hx) as (r & c & Hr & Hc & Hxc). apply in_map_iff in Hr as (p & <- & Hp). rewrite Forall_forall in P1, LP. apply (class_row_points n maps p c Hmaps (P1 p Hp) (LP p Hp) Hc x Hxc). }
  assert (VR : forall x, In x (concat classes') -> direction_stands n (coordinates_of (row_direction x)) x).
  { intros x Hx. destruct (in_concat_2 _ _ _ x C2' Hx) as (r & c & Hr & Hc & Hxc). apply in_map_iff in Hr as (p & <- & Hp). rewrite Forall_forall in P2, LR. apply (class_row_rays n maps p c Hmaps (P2 p Hp) (LR p Hp) Hc x Hxc). }
  assert (WP : forall x, In x (concat classes) -> is_vertex x = true) by (intros x Hx; destruct (VP x Hx) as (xs & l & -> & _ & Hl & _); unfold is_vertex; rewrite last_last; apply negb_true_iff, Z.eqb_neq; lia).
  assert (WR : forall x, In x (concat classes') -> is_vertex x = false) by (intros x Hx; destruct (VR x Hx) as (xs & l & -> & _ & Hl & _); unfold is_vertex; rewrite last_last; reflexivity).
  rewrite concat_app in A1, A2.
  exists vertices, P, rays, R, classes, classes'. split; [congruence|]. split; auto. split; auto. split; auto. split; auto. split; auto. split; auto. split; auto.
  split; [apply Forall_forall; intros p Hp; apply FF; apply IP; apply in_map; auto|]. split; [apply Forall_forall; intros p Hp; apply FF; apply IR; apply in_map; auto|]. cbv zeta. split.
  - apply Forall_app. split; apply Forall_map, Forall_forall; intros x Hx; [destruct (VP x Hx) as (xs & l & E & Hl & _)|destruct (VR x Hx) as (xs & l & E & Hl & _)]; unfold row_point, row_direction; rewrite map_length, E, removelast_last; auto.
  - apply (all_generators t order n A F (concat classes ++ concat classes')); auto.
    + rewrite filter_app, (filter_all is_vertex (concat classes)), (filter_none is_vertex (concat classes')), app_nil_r, map_map by auto. clear - VP. induction (concat classes) as [|x l IH]; cbn [map]; constructor; [apply VP; left; auto|]. apply IH. intros y Hy. apply VP. right; auto.
    + rewrite filter_app, (filter_none _ (concat classes)), (filter_all _ (concat classes')) by (intros x Hx; try rewrite (WP x Hx); try rewrite (WR x Hx); reflexivity). cbn [app]. rewrite map_map.
      clear - VR. induction (concat classes') as [|x l IH]; cbn [map]; constructor; [apply VR; left; auto|]. apply IH. intros y Hy. apply VR. right; auto.
Qed.

(** ** Symmetries identify no points *)
Lemma linear_form_same terms p q : same_point p q -> (linear_form terms p == linear_form terms q)%Q.
Proof. intros H. unfold linear_form. induction terms as [|x ts IH]; cbn [fold_right]; [reflexivity|]. rewrite IH. unfold coordinate_of. rewrite (same_nth p q _ H). reflexivity. Qed.
Lemma excess_same k p q : same_point p q -> (excess k p == excess k q)%Q.
Proof. intros H. unfold excess. destruct (operator k); rewrite (linear_form_same _ p q H); reflexivity. Qed.
Lemma excess_linear k p q : (excess k p == excess k q)%Q -> (linear_form (terms k) p == linear_form (terms k) q)%Q.
Proof. unfold excess. destruct (operator k); intros H; lra. Qed.
Lemma symmetries_one_to_one s n m : constraint_symmetries s n -> pointed n (constraints_of s) -> In m (s_maps s) -> one_to_one n m.
Proof.
  intros Hsym HP Hm p q Hp Hq Hpq. destruct (Hsym m Hm) as (_ & _ & (W1 & HW1 & HP1) & (W2 & HW2 & HP2)).
  apply (same_nth_all n); auto. intros j. assert (K : (nth j (shifted p (-1) q) 0 == 0)%Q).
  { apply HP; [rewrite shifted_length; auto|]. intros k Hk. rewrite linear_shifted by lia. assert (E : (linear_form (terms k) p == linear_form (terms k) q)%Q); [|rewrite E; ring].
    apply excess_linear. unfold constraints_of in Hk. apply in_map_iff in Hk as (l & <- & Hl). apply in_app_iff in Hl as [Hl|Hl].
    - destruct (forall2_in_r _ _ _ l HW2 (Permutation_in _ (Permutation_sym HP2) Hl)) as (l' & _ & a & Ha & E). apply (Qmult_inj_l _ _ a); auto. rewrite <- (E p Hp), <- (E q Hq). apply excess_same; auto.
    - destruct (forall2_in_r _ _ _ l HW1 (Permutation_in _ (Permutation_sym HP1) Hl)) as (l' & _ & a & Ha & E). apply (Qmult_inj_l _ _ a); [intros Z0; rewrite Z0 in Ha; apply (Qlt_irrefl 0); auto|]. rewrite <- (E p Hp), <- (E q Hq). apply excess_same; auto. }
  rewrite shifted_nth in K by lia. lra.
Qed.

(** ** Vertices and rays that are printed in part *)
(** Vertex enumeration of a file with maps that are symmetries prints one vertex of every class of vertices, and one direction of every class of extreme directions (C50).  With the names and the
    maps before it, this text is a file with points, rays and maps: its points are all the vertices of the first file, each once, its rays are all the extreme directions, each once, its hull
    are the solutions of the first file, and its maps are the maps of the first file and symmetries of it, too.  The first file has a solution, and the solutions contain no line; what is added
    up for the images of the vertices and directions (the rows [F]) is of type [int]. *)
Theorem C63_vertices_reread : forall t order fs args name so content s n (F : list vec) p body lines M,
  t <> INT16 -> sort_order order -> asks args name so -> fs name = Some content -> early_keyword content -> system_text no_system (Some content) s ->
  fits_together s n -> equations_fit s n -> (0 < n)%nat -> constraint_symmetries s n -> s_maps s <> [] ->
  length p = n -> all_satisfied (constraints_of s) p -> contains_no_line n (all_satisfied (constraints_of s)) ->
  m_fme (arith t) order (system_rows s so) = Ok F -> Forall negatable_row F -> (forall f m k, In f F -> In m (s_maps s) -> image_load m f k <= int_max) ->
  NoDup (s_names s) -> names_text body (s_names s) -> written (map_line (s_names s)) lines M -> s_maps s = map (completed (s_names s)) M ->
  exists fuel0, forall fuel out, (fuel0 <= fuel)%nat -> m_vertex_program t order fs fuel args = Some (out, Ok tt) ->
  exists c, early_keyword (with_maps body lines out) /\ file_text nothing (Some (with_maps body lines out)) c /\ agree c n /\ c_points c <> [] /\
    c_names c = s_names s /\ c_maps c = s_maps s /\ file_symmetries c n /\
    (forall q : list Q, length q = n -> (all_satisfied (constraints_of s) q <-> hull n (map coordinates_of (c_points c)) (map coordinates_of (c_rays c)) q)) /\
    (forall q : list Q, vertex_of n (all_satisfied (constraints_of s)) q <-> exists v, In v (map coordinates_of (c_points c)) /\ same_point v q) /\ listed_once same_point (map coordinates_of (c_points c)) /\
    (forall d : list Q, extreme_move n (constraints_of s) d <-> length d = n /\ exists u, In u (map coordinates_of (c_rays c)) /\ multiple d u) /\ listed_once multiple (map coordinates_of (c_rays c)).
Proof.
  intros t order fs args name so content s n F p body lines M Ht Ho HA HF HK HT Hn He H0 Hsym Hne Hp Hs HNL HE HB HLoad Hnd Hbody HM EM. assert (HS := system_sound _ _ _ HT no_system_sound).
  assert (HP := no_line_pointed n (constraints_of s) p Hp Hs HNL).
  destruct (system_rows_facts s so n Hn He HS) as (HD & HU & HR). destruct (vertex_program_reads t order fs args name so content s n Ht HA HF HK HT Hn) as (f0 & K).
  assert (NL := pointed_no_line s so n Hn He HS HP). exists f0. intros fuel out Hfuel Hout. rewrite (K fuel Hfuel) in Hout.
  destruct (vertex_call_again t order n (system_rows s so) F (s_maps s) fuel out Ht Ho (HR t Ht) HD H0 NL HU (system_symmetric s so n Hn He HS Hsym) HE HB HLoad Hout)
    as (vertices & P & rays & R & classes & classes' & E1 & L1 & L2 & F1 & F2 & LL & C1 & C2 & PP & PR & LC & X1 & X2 & X3 & X4 & X5).
  assert (SC := fun p => system_corner s so n p Hn He HS). assert (SE := fun p => system_extreme s so n p Hn He HS).
  assert (XS : forall q : list Q, length q = n -> (all_satisfied (constraints_of s) q <-> hull n (map coordinates_of (map row_point (concat classes))) (map coordinates_of (map row_direction (concat classes'))) q)).
  { intros q Hq. rewrite <- (X1 q Hq). symmetry. apply (solves_system s so n); auto. }
  assert (NP : map row_point (concat classes) <> []).
  { intros E. apply (XS p Hp) in Hs as (mus & nus & Q1 & _ & _ & _ & Q2 & _). rewrite E in Q1. destruct mus; [|discriminate]. discriminate Q2. }
  assert (NPP : P <> []) by (intros ->; inversion C1; subst; apply NP; reflexivity).
  assert (MN : M <> []) by (intros ->; apply Hne; rewrite EM; reflexivity).
  assert (NN : s_names s <> []).
  { intros E0. destruct M as [|m M']; [congruence|]. assert (Im : In (completed (s_names s) m) (s_maps s)) by (rewrite EM; left; auto). destruct (Hsym _ Im) as ((Lm & _) & _).
    assert (WA := written_all _ _ _ HM). apply Forall_inv in WA. destruct WA as (l & u & t' & v & _ & _ & _ & _ & Lm' & _). unfold completed in Lm. rewrite app_length in Lm. rewrite E0 in Lm'. cbn [length] in Lm, Lm'. lia. }
  rewrite EM in C1, C2. destruct (reduced_text_file (s_names s) body lines M vertices P rays R classes classes' NN Hnd Hbody HM MN NPP L1 L2 F1 F2 C1 C2) as (T1 & T2).
  assert (EN : nonempty (s_maps s) = true) by (destruct (s_maps s); [congruence|reflexivity]). rewrite EN in E1. rewrite <- E1 in T1, T2. rewrite <- EM in T2, C1, C2.
  assert (P1 := section_lines_proper vertices P L1). assert (P2 := section_lines_proper rays R L2).
  eexists. split; [exact T1|]. split; [exact T2|]. cbn [c_points c_rays c_names c_maps c_dimension]. split; [|split; [exact NP|split; [reflexivity|split; [reflexivity|split]]]].
  - unfold agree. cbn [c_points c_rays c_maps c_names c_dimension]. split; [intros E; apply app_eq_nil in E as [E _]; auto|]. split; [rewrite Forall_forall in LC; exact LC|]. split; [intros m Hm; apply (Hsym m Hm)|]. split; [apply Hn|auto].
  - apply (C60_symmetric n _ P R); cbn [c_maps]; auto.
    + intros m Hm. destruct (Hsym m Hm) as (M1 & M2 & _). auto.
    + intros m Hm. apply (symmetries_one_to_one s n m); auto.
    + exists classes, classes'. auto.
  - split; [exact XS|]. split; [|split; [exact X3|split; [|exact X5]]].
    + intros q. rewrite <- X2. apply SC.
    + intros d. rewrite <- X4. apply SE.
Qed.
Print Assumptions C63_vertices_reread.
(** Facet enumeration of that file: a point is a solution of the first file iff it satisfies the equations that are printed and all its images under the maps satisfy the inequalities that
    are printed.  The two runs may use different integers, orderings and options. *)
Theorem C63_vertices_then_facets : forall t order fs args name so content s n (F : list vec) p body lines M,
  t <> INT16 -> sort_order order -> asks args name so -> fs name = Some content -> early_keyword content -> system_text no_system (Some content) s ->
  fits_together s n -> equations_fit s n -> (0 < n)%nat -> constraint_symmetries s n -> s_maps s <> [] ->
  length p = n -> all_satisfied (constraints_of s) p -> contains_no_line n (all_satisfied (constraints_of s)) ->
  m_fme (arith t) order (system_rows s so) = Ok F -> Forall negatable_row F -> (forall f m k, In f F -> In m (s_maps s) -> image_load m f k <= int_max) ->
  good_names (s_names s) -> names_text body (s_names s) -> written (map_line (s_names s)) lines M -> s_maps s = map (completed (s_names s)) M ->
  exists fuel0, forall fuel out, (fuel0 <= fuel)%nat -> m_vertex_program t order fs fuel args = Some (out, Ok tt) ->
  exists c, file_text nothing (Some (with_maps body lines out)) c /\
  forall t' order' fs' args' name' so' (E' F' : list vec),
    t' <> INT16 -> sort_order order' -> asks args' name' so' -> fs' name' = Some (with_maps body lines out) -> maps_normalise t' n E' (s_maps s) ->
    m_extract_equations (arith t') (file_rows c so') = Ok E' -> m_fme (arith t') order' (file_rows c so') = Ok F' -> Forall negatable_row E' -> Forall negatable_row F' ->
    exists fuel1, forall fuel' out', (fuel1 <= fuel')%nat -> m_facet_program t' order' fs' fuel' args' = Some (out', Ok tt) ->
    exists equations Pe inequalities Pf,
      out' = facet_text equations inequalities (match Pe with [] => true | _ => false end) true /\
      written (denotes (s_names s) n Equation) equations Pe /\ written (denotes (s_names s) n Inequality) inequalities Pf /\
      forall q : list Q, length q = n ->
        (all_satisfied (constraints_of s) q <-> (forall k, In k Pe -> satisfies k q) /\ forall q' k, moved (s_maps s) q q' -> In k Pf -> satisfies k q').
Proof.
  intros t order fs args name so content s n F p body lines M Ht Ho HA HF HK HT Hn He H0 Hsym Hne Hp Hs HNL HE HB HLoad HN Hbody HM EM.
  destruct (C63_vertices_reread t order fs args name so content s n F p body lines M Ht Ho HA HF HK HT Hn He H0 Hsym Hne Hp Hs HNL HE HB HLoad (proj1 HN) Hbody HM EM) as (f0 & K).
  exists f0. intros fuel out Hfuel Hout. destruct (K fuel out Hfuel Hout) as (c & T1 & T2 & T3 & T4 & T5 & T6 & T7 & T8 & _). exists c. split; auto.
  intros t' order' fs' args' name' so' E' F' Ht' Ho' HA' HF' Hnorm HE' HFm' BE' BF'. rewrite <- T6 in Hnorm. rewrite <- T5 in HN.
  destruct (C48_reduced t' order' fs' args' name' so' _ c n E' F' Ht' Ho' HA' HF' T1 T2 T3 T4 T7 Hnorm HN HE' HFm' BE' BF') as (f1 & K1). exists f1. intros fuel' out' Hf' Hout'.
  destruct (K1 fuel' out' Hf' Hout') as (equations & Pe & inequalities & Pf & R & E1 & W1 & W2 & _ & X1 & _). exists equations, Pe, inequalities, Pf. rewrite T6 in E1. rewrite T5 in W1, W2. rewrite T6 in X1.
  split; [rewrite E1; destruct (s_maps s); [congruence|reflexivity]|]. split; auto. split; auto. intros q Hq. rewrite <- (X1 q Hq). apply T8; auto.
Qed.
Print Assumptions C63_vertices_then_facets.

(** *** Example: the segment of C50 with the map that exchanges x and y *)
Open Scope nat_scope.
Definition swapped_again : text := with_maps (lit "x y") (line "y x") (line "Reduced Vertices:" ++ line "1 0 ").
Lemma swapped_no_line : contains_no_line 2 (all_satisfied (constraints_of swapped_system)).
Proof.
  intros p d Lp Ld H. destruct p as [|a [|b [|]]]; try discriminate Lp. destruct d as [|c [|e [|]]]; try discriminate Ld.
  assert (X : forall s : Q, (- (a + s * c) <= 0)%Q /\ (0 <= 2 * (b + s * e))%Q).
  { intros s. specialize (H s). assert (H1 := H {| terms := [(0, (-1)%Z)]; operator := LessEqual; constant := 0 |} ltac:(cbn; tauto)). assert (H2 := H {| terms := [(1, 2%Z)]; operator := GreaterEqual; constant := 0 |} ltac:(cbn; tauto)).
    unfold satisfies, linear_form, coordinate_of, shifted in H1, H2. cbn in H1, H2. unfold inject_Z in H1, H2. split; lra. }
  assert (C1 : (- c <= 0)%Q) by (apply (bounded_slope (- a) (- c) 0); intros s _; destruct (X s) as [Y _]; lra).
  assert (C2 : (c <= 0)%Q) by (apply (bounded_slope (- a) c 0); intros s _; destruct (X (- s)%Q) as [Y _]; lra).
  assert (E1 : (- e <= 0)%Q) by (apply (bounded_slope (- b) (- e) 0); intros s _; destruct (X s) as [_ Y]; lra).
  assert (E2 : (e <= 0)%Q) by (apply (bounded_slope (- b) e 0); intros s _; destruct (X (- s)%Q) as [_ Y]; lra).
  intros [|[|[|j]]]; cbn [nth]; [lra|lra|reflexivity|reflexivity].
Qed.
Example C63_example :
  all_satisfied (constraints_of swapped_system) [1; 0]%Q /\ contains_no_line 2 (all_satisfied (constraints_of swapped_system)) /\ s_maps swapped_system <> [] /\
  names_text (lit "x y") (s_names swapped_system) /\ NoDup (s_names swapped_system) /\ (exists M, written (map_line (s_names swapped_system)) (line "y x") M /\ s_maps swapped_system = map (completed (s_names swapped_system)) M) /\
  (exists F : list vec, m_fme (arith SAFE) sorted_order (system_rows swapped_system NoSorting) = Ok F /\ Forall negatable_row F /\ forall f m k, In f F -> In m (s_maps swapped_system) -> (image_load m f k <= int_max)%Z) /\
  m_vertex_program SAFE sorted_order (one_file swapped) 40 [lit "f"] = Some (line "Reduced Vertices:" ++ line "1 0 ", Ok tt) /\
  (exists E' F' : list vec, let V := m_sort NoSorting [] ++ [[0; 1; 1]; [1; 0; 1]]%Z in m_extract_equations (arith SAFE) V = Ok E' /\ m_fme (arith SAFE) sorted_order V = Ok F' /\ Forall negatable_row E' /\ Forall negatable_row F' /\
     maps_normalise SAFE 2 E' (s_maps swapped_system)) /\
  m_facet_program SAFE sorted_order (one_file swapped_again) 60 [lit "f"] =
    Some (line "Equations:" ++ line "x +y = 1" ++ line "" ++ line "Reduced Inequalities:" ++ line "y <= 1", Ok tt).
Proof.
  split.
  { intros k [<-|[<-|[<-|[]]]]; unfold satisfies, linear_form, coordinate_of; cbn; unfold inject_Z; lra. }
  split; [apply swapped_no_line|]. split; [discriminate|]. split; [apply xy_text|]. split; [apply xy_good|].
  split. { exists [[[(1, 1%Z)]; [(0, 1%Z)]]]. split; [|reflexivity]. apply (written_line _ (lit "y x") _ [] []); [exact exchange_line|constructor]. }
  split.
  { eexists. split; [vm_compute; reflexivity|]. split; [repeat constructor; unfold negatable_row; repeat constructor; lia|]. intros f m k [<-|[<-|[]]] [<-|[]]; destruct k as [|[|[|[|k]]]]; vm_compute; discriminate. }
  split; [vm_compute; reflexivity|]. split; [|vm_compute; reflexivity].
  eexists _, _. split; [vm_compute; reflexivity|]. split; [vm_compute; reflexivity|]. split; [repeat constructor; unfold negatable_row; repeat constructor; lia|]. split; [repeat constructor; unfold negatable_row; repeat constructor; lia|].
  split; [|split; [right; discriminate|repeat constructor; cbn; lia]]. split; [repeat constructor|]. intros [|i] Hi; [|cbn in Hi; lia]. exists 0. split; [|split; [reflexivity|]].
  - split; [cbn; lia|]. split; [vm_compute; discriminate|intros j Hj; lia].
  - intros [|j] Hj Hne; [congruence|cbn in Hj; lia].
Qed.
