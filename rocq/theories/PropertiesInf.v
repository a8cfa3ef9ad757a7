(** * PropertiesInf: what the choice of the integer type changes (C42, C56). *)
From Coq Require Import List ZArith Bool Lia String.
From Verif Require Import Base Spec ListUtil ArithModel MatrixModel FmeModel SafeIntModel SafeIntProofs IntTypes FmeTheorems FmeRefine Samples ClassesModel MapModel StreamModel OutputModel FileModel BigIntModel BigIntLimbs BigIntProofs BigIntDiv BigArith Param TypeOrder TypedModel TypedProofs InputRange PropertiesBig PropertiesFme PropertiesFile.
Import ListNotations.
Open Scope list_scope.
Open Scope Z_scope.

(** ** C42: "-i inf" *)
(** [GUARDED] is the unbounded integers, except that a division with [wrong_sign] operands (those of C16_wrong_sign) does not return. *)
Lemma guarded_division x y q : a_div GUARDED x y = Ok q <-> y <> 0 /\ ~ wrong_sign x y /\ q = Z.quot x y.
Proof.
  cbn [GUARDED arith_of a_div guarded z_div]. rewrite <- wrong_sign_iff. destruct (Z.eqb_spec y 0); [split; [discriminate|tauto]|]. destruct (bad_quotient x y).
  - split; [discriminate|]. intros (_ & H & _). congruence.
  - split; [|intros (_ & _ & ->); reflexivity]. intros H. injection H as <-. repeat split; auto; discriminate.
Qed.
Lemma guarded_otherwise x y : a_neg GUARDED x = Ok (- x) /\ a_add GUARDED x y = Ok (x + y) /\ a_sub GUARDED x y = Ok (x - y) /\ a_mul GUARDED x y = Ok (x * y) /\ a_abs GUARDED x = Ok (Z.abs x) /\ a_mod GUARDED x y = a_mod (arith EXACT) x y.
Proof. repeat split; reflexivity. Qed.

(** All entries are in canonical form and denote the entries of [F]. *)
Definition denote_rows (F' : list (list big)) (F : list vec) : Prop := Forall2 (Forall2 (represents 64)) F' F.
Definition inf_returns (m : res (list (list big))) (F : list vec) : Prop := exists F', m = Ok F' /\ denote_rows F' F.
Lemma denote_rows_of F' F : denote_rows F' F -> rows_of F' = F.
Proof.
  assert (K : forall r' r, Forall2 (represents 64) r' r -> map (bval 64) r' = r) by (induction 1 as [|x y r' r H _ IH]; cbn; [|apply represents_iff in H; destruct H as (_ & ->)]; congruence).
  induction 1 as [|x y F' F H _ IH]; [reflexivity|]. change (rows_of (x :: F')) with (map (bval 64) x :: rows_of F'). rewrite IH, (K x y H). reflexivity.
Qed.
Lemma stands_represents z a : stands z a -> represents 64 a z.
Proof. intros (H & <-). apply represents_iff. auto. Qed.
Lemma stands_rows F F' : Forall2 (Forall2 stands) F F' -> denote_rows F' F.
Proof. induction 1 as [|r r' F F' H _ IH]; constructor; auto. induction H; constructor; auto using stands_represents. Qed.
Lemma big_rows_stand V : rows_representable INT32 V -> Forall2 (Forall2 stands) V (big_rows V).
Proof.
  induction 1 as [|v V Hv _ IH]; cbn [big_rows map]; constructor; auto. induction Hv as [|x v Hx _ IHv]; cbn [map]; constructor; auto. apply (of_int_spec 64 w64 x Hx).
Qed.
Lemma agrees_refl t V : rows_representable t V -> Forall2 (Forall2 (agrees t)) V V.
Proof. induction 1 as [|v V Hv _ IH]; constructor; auto. induction Hv; constructor; auto. split; auto. Qed.
Lemma agrees_eq t F F' : Forall2 (Forall2 (agrees t)) F F' -> F = F' /\ rows_representable t F.
Proof.
  induction 1 as [|r r' F F' H _ (IH1 & IH2)]; [split; constructor|]. assert (K : r = r' /\ Forall (representable t) r).
  { induction H as [|x y r r' Hxy _ IHr]; [split; constructor|]. destruct Hxy as (-> & Hx), IHr as (-> & IH4). split; [reflexivity|constructor; auto]. }
  destruct K as (-> & K). subst. split; auto. constructor; auto.
Qed.
Lemma refl_eq (V : list vec) : Forall2 (Forall2 eq) V V.
Proof. induction V as [|v V IH]; constructor; auto. induction v; constructor; auto. Qed.
Lemma eq_rows (F F' : list vec) : Forall2 (Forall2 eq) F F' -> F = F'.
Proof. induction 1 as [|r r' F F' H _ IH]; auto. subst. f_equal. induction H; congruence. Qed.

(** If no division in the computation with unbounded integers is one of those with the wrong sign, "-i inf" computes exactly what unbounded integers give. *)
Theorem C42_right_signs_partial : forall order (V F : list vec), rows_representable INT32 V ->
  (m_fme GUARDED order V = Ok F -> m_fme (arith EXACT) order V = Ok F /\ inf_returns (m_fme BIG order (big_rows V)) F) /\
  (m_fme_heuristic GUARDED order V = Ok F -> m_fme_heuristic (arith EXACT) order V = Ok F /\ inf_returns (m_fme_heuristic BIG order (big_rows V)) F) /\
  (m_extract_equations GUARDED V = Ok F -> m_extract_equations (arith EXACT) V = Ok F /\ inf_returns (m_extract_equations BIG (big_rows V)) F).
Proof.
  intros order V F HR. assert (HB := big_rows_stand V HR). assert (HE := refl_eq V).
  split; [|split]; intros H; (split; [|]).
  - assert (P := p_fme _ _ guarded_exact order V V HE). rewrite H in P. destruct P as (F' & E & K). apply eq_rows in K. subst. exact E.
  - assert (P := p_fme _ _ big_wider order V (big_rows V) HB). rewrite H in P. destruct P as (F' & E & K). exists F'. split; auto. apply stands_rows; auto.
  - assert (P := p_fme_heuristic _ _ guarded_exact order V V HE). rewrite H in P. destruct P as (F' & E & K). apply eq_rows in K. subst. exact E.
  - assert (P := p_fme_heuristic _ _ big_wider order V (big_rows V) HB). rewrite H in P. destruct P as (F' & E & K). exists F'. split; auto. apply stands_rows; auto.
  - assert (P := p_extract _ _ guarded_exact V V HE). rewrite H in P. destruct P as (F' & E & K). apply eq_rows in K. subst. exact E.
  - assert (P := p_extract _ _ big_wider V (big_rows V) HB). rewrite H in P. destruct P as (F' & E & K). exists F'. split; auto. apply stands_rows; auto.
Qed.
Print Assumptions C42_right_signs_partial.
(** In particular whenever the numbers stay within int, that is, whenever the default type int gives a result, "-i inf" gives the same. *)
Theorem C42_as_int_partial : forall order (V F : list vec), rows_representable INT32 V ->
  (m_fme (arith INT32) order V = Ok F -> inf_returns (m_fme BIG order (big_rows V)) F) /\
  (m_fme_heuristic (arith INT32) order V = Ok F -> inf_returns (m_fme_heuristic BIG order (big_rows V)) F) /\
  (m_extract_equations (arith INT32) V = Ok F -> inf_returns (m_extract_equations BIG (big_rows V)) F).
Proof.
  intros order V F HR. assert (HA := agrees_refl INT32 V HR). destruct (C42_right_signs_partial order V F HR) as (K1 & K2 & K3). split; [|split]; intros H.
  - assert (P := p_fme _ _ int_guarded order V V HA). rewrite H in P. destruct P as (F' & E & K). apply agrees_eq in K. destruct K as (<- & _). apply K1, E.
  - assert (P := p_fme_heuristic _ _ int_guarded order V V HA). rewrite H in P. destruct P as (F' & E & K). apply agrees_eq in K. destruct K as (<- & _). apply K2, E.
  - assert (P := p_extract _ _ int_guarded V V HA). rewrite H in P. destruct P as (F' & E & K). apply agrees_eq in K. destruct K as (<- & _). apply K3, E.
Qed.
Print Assumptions C42_as_int_partial.
(** Two corners and two directions: int overflows, "-i inf" is right. *)
Definition wide_wedge : list vec := [[1; 37655; 0]; [14463; 2; 0]; [2; 0; 1]; [36821; 65068; 1]].
Example C42_instance : rows_representable INT32 wide_wedge /\ m_fme (arith INT32) sorted_order wide_wedge = UB /\
  m_fme GUARDED sorted_order wide_wedge = Ok [[2; -14463; -4]; [-37655; 1; 75310]].
Proof. split; [solve_rows|]. split; vm_compute; reflexivity. Qed.
Example C42_instance_int : rows_representable INT32 tilted /\ exists F, m_fme (arith INT32) sorted_order tilted = Ok F /\ length F = 3%nat.
Proof. split; [apply tilted_rep|]. eexists. split; [vm_compute; reflexivity|reflexivity]. Qed.

(** ** C56: a type with a larger range *)
(** [t] is not int16_t (whose arithmetic wraps), neither is [t'], and [t'] has at least the values of [t].  *)
Theorem C56_elimination : forall t t' order (V F : list vec), at_least t t' -> rows_representable t V ->
  (m_fme (arith t) order V = Ok F -> m_fme (arith t') order V = Ok F) /\
  (m_fme_heuristic (arith t) order V = Ok F -> m_fme_heuristic (arith t') order V = Ok F) /\
  (m_extract_equations (arith t) V = Ok F -> m_extract_equations (arith t') V = Ok F).
Proof.
  intros t t' order V F Ht HR. assert (HA := agrees_refl t V HR).
  assert (E : c_rel (wider t t' Ht) = agrees t) by (destruct Ht as (? & ? & ?); reflexivity).
  split; [|split]; intros H.
  - assert (P := p_fme _ _ (wider t t' Ht) order V V). rewrite E, H in P. destruct (P HA) as (F' & E' & K). apply agrees_eq in K. destruct K as (<- & _). exact E'.
  - assert (P := p_fme_heuristic _ _ (wider t t' Ht) order V V). rewrite E, H in P. destruct (P HA) as (F' & E' & K). apply agrees_eq in K. destruct K as (<- & _). exact E'.
  - assert (P := p_extract _ _ (wider t t' Ht) V V). rewrite E, H in P. destruct (P HA) as (F' & E' & K). apply agrees_eq in K. destruct K as (<- & _). exact E'.
Qed.
Print Assumptions C56_elimination.
(** What the program prints.  int is the default type; int64_t and SafeInteger have its values and more; SafeInteger stops where int64_t is undefined or prints a number modulo 2^32. *)
Definition larger (t t' : int_type) : Prop := (t = INT32 /\ (t' = INT64 \/ t' = SAFE)) \/ (t = SAFE /\ t' = INT64).
Lemma larger_at_least t t' : larger t t' -> at_least t t'.
Proof.
  intros [(-> & [-> | ->])|(-> & ->)]; (split; [discriminate|]; split; [discriminate|]); cbn [representable]; auto; intros z Hz; apply fits_wider; auto; lia.
Qed.
Lemma wrap_fits z : fits 32 z = true -> wrap_signed 32 z = z.
Proof.
  unfold fits, wrap_signed. change (SafeIntModel.int_max 32) with 2147483647. change (SafeIntModel.int_min 32) with (-2147483648). change (2 ^ (32 - 1)) with 2147483648. change (2 ^ 32) with 4294967296.
  rewrite andb_true_iff, !Z.leb_le. intros H. rewrite Z.mod_small by lia. lia.
Qed.
Lemma larger_to_int t t' x : larger t t' -> representable t x -> sim eq (OutputModel.m_to_int t x) (OutputModel.m_to_int t' x).
Proof.
  intros [(-> & [-> | ->])|(-> & ->)]; cbn [representable OutputModel.m_to_int]; intros H.
  - apply sim_ok. rewrite wrap_fits; auto.
  - rewrite si_to_int_spec, H. apply sim_ok. reflexivity.
  - rewrite si_to_int_spec. destruct (fits 32 x) eqn:E; [|apply sim_throw]. apply sim_ok. rewrite wrap_fits; auto.
Qed.
Lemma larger_factor t t' c x : larger t t' -> representable t x -> same_with (fun f => fits 32 f = true) (MapModel.m_factor t c x) (MapModel.m_factor t' c x).
Proof.
  assert (M : forall c' e, fits 32 (c' * e) = true -> i_mul 64 c' e = Ok (c' * e)) by (intros c' e H; unfold i_mul, ck; rewrite (fits_wider 64) by (auto; lia); reflexivity).
  intros [(-> & [-> | ->])|(-> & ->)]; cbn [representable]; intros H; unfold MapModel.m_factor; destruct (i_neg 32 c) as [c'| |]; cbn [bind]; try apply sim_ub; try apply sim_throw.
  - unfold i_mul at 1, ck. destruct (fits 32 (c' * x)) eqn:E; [|apply sim_ub]. rewrite M by auto. cbn [bind]. rewrite wrap_fits by auto. apply sim_ok. auto.
  - rewrite H. apply (same_with_intro (fun f => fits 32 f = true)). intros f. apply ck_fits.
  - destruct (fits 32 x); [|apply sim_throw]. unfold i_mul at 1, ck. destruct (fits 32 (c' * x)) eqn:E; [|apply sim_ub]. rewrite M by auto. cbn [bind]. rewrite wrap_fits by auto. apply sim_ok. auto.
Qed.
(** All factors of the maps are values of int, their type. *)
Definition int_maps (maps : list lmap) : Prop := forall m im tm, In m maps -> In im m -> In tm im -> fits 32 (snd tm) = true.
Lemma int_maps_fit maps : int_maps maps <-> maps_fit maps.
Proof.
  unfold int_maps, maps_fit, map_fits, image_fits. rewrite Forall_forall. split.
  - intros H m Hm. apply Forall_forall. intros im Him. apply Forall_forall. intros tm. apply (H m im tm Hm Him).
  - intros H m im tm Hm Him Htm. specialize (H m Hm). rewrite Forall_forall in H. specialize (H im Him). rewrite Forall_forall in H. auto.
Qed.
Theorem C56_facets : forall t t' order fuel (V : list vec) names maps out, larger t t' -> rows_representable t V -> int_maps maps ->
  m_facet_call t order fuel V names maps = Some (out, Ok tt) -> m_facet_call t' order fuel V names maps = Some (out, Ok tt).
Proof.
  intros t t' order fuel V names maps out Ht HR Hm. assert (H := larger_at_least t t' Ht).
  apply (p_facet_call _ _ (wider t t' H) (OutputModel.m_to_int t) (OutputModel.m_to_int t') (MapModel.m_factor t) (MapModel.m_factor t')); rewrite ?wider_rel.
  - intros x y (<- & Hx). apply larger_to_int; auto.
  - intros c x y _ (<- & Hx). apply larger_factor; auto.
  - apply agrees_refl; auto.
  - apply int_maps_fit; auto.
Qed.
Print Assumptions C56_facets.
Theorem C56_vertices : forall t t' order fuel (A : list vec) maps out, larger t t' -> rows_representable t A -> int_maps maps ->
  m_vertex_call t order fuel A maps = Some (out, Ok tt) -> m_vertex_call t' order fuel A maps = Some (out, Ok tt).
Proof.
  intros t t' order fuel V maps out Ht HR Hm. assert (H := larger_at_least t t' Ht).
  apply (p_vertex_call _ _ (wider t t' H) (OutputModel.m_to_int t) (OutputModel.m_to_int t')); rewrite ?wider_rel.
  - intros x y (<- & Hx). apply larger_to_int; auto.
  - apply agrees_refl; auto.
  - apply int_maps_fit; auto.
Qed.
Print Assumptions C56_vertices.
(** The same from the file: everything read is a value of int. *)
Lemma cast_same t V : t <> INT16 -> m_cast_rows t V = V.
Proof. intros H. unfold m_cast_rows. erewrite map_ext; [apply map_id|]. intros r. erewrite map_ext; [apply map_id|]. intros z. destruct t; auto. congruence. Qed.
Lemma small_representable t V : t <> INT16 -> small_rows V -> rows_representable t V.
Proof.
  intros Ht H. eapply Forall_impl; [|exact H]. intros r Hr. eapply Forall_impl; [|exact Hr]. intros z Hz. apply (lit_ok t z Ht Hz).
Qed.
Theorem C56_program : forall t t' order fs fuel args out, larger t t' ->
  (m_facet_program t order fs fuel args = Some (out, Ok tt) -> m_facet_program t' order fs fuel args = Some (out, Ok tt)) /\
  (m_vertex_program t order fs fuel args = Some (out, Ok tt) -> m_vertex_program t' order fs fuel args = Some (out, Ok tt)).
Proof.
  intros t t' order fs fuel args out Ht. destruct (larger_at_least t t' Ht) as (H1 & H2 & _). split.
  - unfold m_facet_program. assert (R := input_vertices_small fs fuel args). destruct (m_input_vertices fs fuel args) as [[[[[V names] maps] known]|]| |]; cbn [calco ens ensured] in *; try discriminate. destruct R as (R1 & R2 & _). cbn [fst snd] in *.
    rewrite !cast_same by auto. apply C56_facets; auto; [apply small_representable; auto|apply int_maps_fit; auto].
  - unfold m_vertex_program. assert (R := input_inequalities_small fs fuel args). destruct (m_input_inequalities fs fuel args) as [[[[[V names] maps] known]|]| |]; cbn [calco ens ensured] in *; try discriminate. destruct R as (R1 & R2 & _). cbn [fst snd] in *.
    rewrite !cast_same by auto. apply C56_vertices; auto; [apply small_representable; auto|apply int_maps_fit; auto].
Qed.
Print Assumptions C56_program.
(** A file which int gets right; and the wedge above, of which int gives nothing while the larger types give the two facets. *)
Example C56_instance : larger INT32 INT64 /\ larger INT32 SAFE /\ larger SAFE INT64 /\
  m_facet_program INT32 sorted_order (one_file half_strip) 20 [lit "f"%string] = Some (line "Inequalities:"%string ++ line "-x <= 0"%string ++ line "-y <= 0"%string ++ line "2x <= 1"%string, Ok tt) /\
  rows_representable SAFE wide_wedge /\ int_maps [] /\
  m_facet_call INT32 sorted_order 20 wide_wedge [] [] = Some ([], UB) /\
  m_facet_call SAFE sorted_order 20 wide_wedge [] [] = Some (line "Inequalities:"%string ++ line " -37655  1  75310"%string ++ line "  2 -14463 -4"%string, Ok tt).
Proof.
  split; [left; auto|]. split; [left; auto|]. split; [right; auto|]. split; [vm_compute; reflexivity|]. split; [solve_rows|]. split; [intros m im tm []|]. split; vm_compute; reflexivity.
Qed.
(** int64_t does not come before the safe type: it prints numbers outside int modulo 2^32, without a sign of it, where the safe type stops.  The triangle has the corners (0,300001), (400003,0) and (1,1). *)
Definition wide_triangle : list vec := [[0; 300001; 1]; [400003; 0; 1]; [1; 1; 1]].
Theorem C56_int64_refuted : exists (V : list vec) out out', rows_representable INT32 V /\
  m_facet_call INT64 sorted_order 20 V [] [] = Some (out, Ok tt) /\ m_facet_call EXACT sorted_order 20 V [] [] = Some (out', Ok tt) /\ out <> out' /\
  exists out'', m_facet_call SAFE sorted_order 20 V [] [] = Some (out'', Throw).
Proof.
  exists wide_triangle. eexists. eexists. split; [solve_rows|]. split; [vm_compute; reflexivity|]. split; [vm_compute; reflexivity|]. split; [discriminate|]. eexists. vm_compute. reflexivity.
Qed.
Print Assumptions C56_int64_refuted.

(** ** C42: what "-i inf" prints *)
Definition guarded_to_int (z : Z) : res Z := if fits 32 z then Ok z else Throw.
Definition guarded_factor (c e : Z) : res Z := do c' <- i_neg 32 c; if fits 32 e then i_mul 32 c' e else Throw.
Lemma big_to_int z a : stands z a -> b_to_int 64 false a = guarded_to_int z.
Proof. intros (H & <-). rewrite (to_int_spec 64 false w64 a H). unfold int_of, guarded_to_int. destruct (fits 32 _); [|reflexivity]. rewrite ?andb_false_l. reflexivity. Qed.
Theorem C42_as_int_program_partial : forall order fs fuel args out,
  (m_facet_program INT32 order fs fuel args = Some (out, Ok tt) -> m_inf_facet_program order fs fuel args = Some (out, Ok tt)) /\
  (m_vertex_program INT32 order fs fuel args = Some (out, Ok tt) -> m_inf_vertex_program order fs fuel args = Some (out, Ok tt)).
Proof.
  intros order fs fuel args out. split.
  - unfold m_facet_program, m_inf_facet_program. assert (R := input_vertices_small fs fuel args). destruct (m_input_vertices fs fuel args) as [[[[[V names] maps] known]|]| |]; cbn [calco ens ensured] in *; try discriminate. destruct R as (R1 & R2 & _). cbn [fst snd] in *.
    rewrite cast_same by discriminate. intros H. assert (HR : rows_representable INT32 V) by (apply small_representable; [discriminate|exact R1]).
    assert (G := p_facet_call _ _ int_guarded (OutputModel.m_to_int INT32) guarded_to_int (MapModel.m_factor INT32) guarded_factor). specialize (G ltac:(intros x y (<- & Hx); unfold guarded_to_int; rewrite Hx; apply sim_ok; reflexivity)).
    specialize (G ltac:(intros c x y _ (<- & Hx); unfold guarded_factor; rewrite Hx; apply (same_with_intro (fun f => fits 32 f = true)); intros f; unfold MapModel.m_factor; destruct (i_neg 32 c); cbn [bind]; try discriminate; apply ck_fits)).
    specialize (G order fuel V V names maps (agrees_refl INT32 V HR) R2 out H).
    assert (K := p_facet_call _ _ big_wider guarded_to_int (b_to_int 64 false) guarded_factor big_factor). specialize (K ltac:(intros x y Hx; rewrite (big_to_int x y Hx); apply sim_same)).
    specialize (K ltac:(intros c x y _ Hx; unfold guarded_factor, big_factor; rewrite (big_to_int x y Hx); destruct (i_neg 32 c) as [c'| |]; cbn [bind]; [|apply sim_throw|apply sim_ub]; unfold guarded_to_int; destruct (fits 32 x); cbn [bind]; [|apply sim_throw]; apply (same_with_intro (fun f => fits 32 f = true)); intros f; apply ck_fits)).
    exact (K order fuel V (big_rows V) names maps (big_rows_stand V HR) R2 out G).
  - unfold m_vertex_program, m_inf_vertex_program. assert (R := input_inequalities_small fs fuel args). destruct (m_input_inequalities fs fuel args) as [[[[[V names] maps] known]|]| |]; cbn [calco ens ensured] in *; try discriminate. destruct R as (R1 & R2 & _). cbn [fst snd] in *.
    rewrite cast_same by discriminate. intros H. assert (HR : rows_representable INT32 V) by (apply small_representable; [discriminate|exact R1]).
    assert (G := p_vertex_call _ _ int_guarded (OutputModel.m_to_int INT32) guarded_to_int). specialize (G ltac:(intros x y (<- & Hx); unfold guarded_to_int; rewrite Hx; apply sim_ok; reflexivity)).
    specialize (G order fuel V V maps (agrees_refl INT32 V HR) R2 out H).
    assert (K := p_vertex_call _ _ big_wider guarded_to_int (b_to_int 64 false)). specialize (K ltac:(intros x y Hx; rewrite (big_to_int x y Hx); apply sim_same)).
    exact (K order fuel V (big_rows V) maps (big_rows_stand V HR) R2 out G).
Qed.
Print Assumptions C42_as_int_program_partial.
Example C42_program_instance : m_inf_facet_program sorted_order (one_file half_strip) 20 [lit "f"%string] = Some (line "Inequalities:"%string ++ line "-x <= 0"%string ++ line "-y <= 0"%string ++ line "2x <= 1"%string, Ok tt) /\
  m_inf_facet_call sorted_order 20 wide_wedge [] [] = Some (line "Inequalities:"%string ++ line " -37655  1  75310"%string ++ line "  2 -14463 -4"%string, Ok tt).
Proof. split; vm_compute; reflexivity. Qed.
