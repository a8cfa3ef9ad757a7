(** * PropertiesTypesAd: adjacency decomposition, the default method, with a larger integer type (C42, C56). *)
From Coq Require Import List ZArith Arith Bool Lia Ascii String.
From Verif Require Import Base Spec ListUtil ArithModel MatrixModel FmeModel SafeIntModel SafeIntProofs IntTypes ClassesModel MapModel StreamModel SortModel CliModel PropertiesCli OutputModel FileModel FileInput BigIntModel BigIntLimbs BigIntProofs BigArith
  RotationModel ListModel ListExec ListRuns AdModel VertexAdModel TypedModel TypedAdModel MainModel ModeDetection PropertiesMain Param TypeOrder TypedProofs TypedAdProofs InputRange PropertiesInf PropertiesTypes Samples PropertiesFile SystemFile Checked CheckedFile.
Import ListNotations.
Open Scope nat_scope.
Open Scope list_scope.

(** ** The relations between the types *)
Lemma sim_comp {X Y Z} (R : X -> Y -> Prop) (Q : Y -> Z -> Prop) (m : res X) (m' : res Y) (m'' : res Z) : sim R m m' -> sim Q m' m'' -> sim (fun x z => exists y, R x y /\ Q y z) m m''.
Proof. destruct m as [x| |]; cbn; auto. intros (y & -> & H) (z & -> & K). exists z. split; auto. exists y. auto. Qed.
Definition compose {A B D : Arith} (C1 : corresponds A B) (C2 : corresponds B D) (H : forall x y, c_rel C1 x y -> c_nonneg C1 x -> c_nonneg C2 y) : corresponds A D.
Proof.
  refine (mk_corresponds A D (fun x z => exists y, c_rel C1 x y /\ c_rel C2 y z) (c_nonneg C1) _ _ _ _ _ _ _ _ _ _ _ _ _ _).
  - intros z Hz. exists (a_lit B z). split; [apply (c_lit _ _ C1)|apply (c_lit _ _ C2)]; auto.
  - intros x z (y & H1 & H2). eapply sim_comp; [apply (c_neg _ _ C1); eauto|apply (c_neg _ _ C2); eauto].
  - intros x x0 z z0 (y & H1 & H2) (y0 & K1 & K2). eapply sim_comp; [apply (c_add _ _ C1); eauto|apply (c_add _ _ C2); eauto].
  - intros x x0 z z0 (y & H1 & H2) (y0 & K1 & K2). eapply sim_comp; [apply (c_sub _ _ C1); eauto|apply (c_sub _ _ C2); eauto].
  - intros x x0 z z0 (y & H1 & H2) (y0 & K1 & K2). eapply sim_comp; [apply (c_mul _ _ C1); eauto|apply (c_mul _ _ C2); eauto].
  - intros x x0 z z0 (y & H1 & H2) (y0 & K1 & K2). eapply sim_comp; [apply (c_div _ _ C1); eauto|apply (c_div _ _ C2); eauto].
  - intros x x0 z z0 (y & H1 & H2) (y0 & K1 & K2) N N0. eapply sim_impl; [eapply sim_comp; [apply (c_mod _ _ C1); eauto|apply (c_mod _ _ C2); eauto]|]. cbn. intros a b (u & (U1 & U2) & (U3 & _)). split; eauto.
  - intros x z (y & H1 & H2). eapply sim_impl; [eapply sim_comp; [apply (c_abs _ _ C1); eauto|apply (c_abs _ _ C2); eauto]|]. cbn. intros a b (u & (U1 & U2) & (U3 & _)). split; eauto.
  - intros x x0 z z0 (y & H1 & H2) (y0 & K1 & K2). rewrite (c_gt _ _ C1 x x0 y y0) by auto. apply (c_gt _ _ C2); auto.
  - intros x z k (y & H1 & H2) Hk. rewrite (c_eqi _ _ C1 x y k) by auto. apply (c_eqi _ _ C2); auto.
  - intros x z (y & H1 & H2). rewrite (c_lti _ _ C1 x y) by auto. apply (c_lti _ _ C2); auto.
  - intros x z (y & H1 & H2). rewrite (c_gti _ _ C1 x y) by auto. apply (c_gti _ _ C2); auto.
  - intros x z (y & H1 & H2). rewrite (c_lei _ _ C1 x y) by auto. apply (c_lei _ _ C2); auto.
  - intros x z (y & H1 & H2). etransitivity; [apply (c_size _ _ C1); eauto|apply (c_size _ _ C2); auto].
Defined.
Definition int_big : corresponds (arith INT32) BIG.
Proof. refine (compose int_guarded big_wider _). intros x y (<- & _) H. exact H. Defined.
Lemma int_big_rel x a : c_rel int_big x a <-> fits 32 x = true /\ stands x a.
Proof.
  split.
  - intros (y & (<- & H1) & H2). split; [exact H1|exact H2].
  - intros (H1 & H2). exists x. split; [split; [reflexivity|exact H1]|exact H2].
Qed.

(** ** The digits of a number *)
Lemma digits_ok k z : (0 <= z < base 64 ^ Z.of_nat (S k))%Z -> cmag 64 (digits k z) /\ lval 64 (digits k z) = z /\ (digits k z = [0%Z] -> z = 0%Z).
Proof.
  revert z. assert (HB : (1 < base 64)%Z) by (unfold base; lia). induction k as [|k IH]; intros z Hz.
  - change (Z.of_nat 1) with 1%Z in Hz. rewrite Z.pow_1_r in Hz. cbn [digits]. split; [|split; [cbn; lia|congruence]]. split; [discriminate|]. split; [constructor; [exact Hz|constructor]|left; reflexivity].
  - cbn [digits]. destruct (Z.ltb_spec z (base 64)) as [L|L].
    + split; [|split; [cbn; lia|congruence]]. split; [discriminate|]. split; [constructor; [lia|constructor]|left; reflexivity].
    + assert (D : (0 < z / base 64)%Z) by (apply Z.div_str_pos; lia).
      assert (D2 : (0 <= z / base 64 < base 64 ^ Z.of_nat (S k))%Z).
      { split; [lia|]. apply Z.div_lt_upper_bound; [lia|]. rewrite <- Z.pow_succ_r by lia. replace (Z.succ (Z.of_nat (S k))) with (Z.of_nat (S (S k))) by lia. apply Hz. }
      destruct (IH (z / base 64)%Z D2) as ((M1 & M2 & M3) & E & N). assert (R := Z.mod_pos_bound z (base 64) ltac:(lia)).
      split; [|split].
      * split; [discriminate|]. split; [constructor; auto|]. right. destruct (digits k (z / base 64)) as [|d ds] eqn:Ed; [congruence|].
        destruct M3 as [M3|M3].
        -- destruct ds; [|discriminate]. cbn. intros ->. specialize (N eq_refl). lia.
        -- cbn [last] in *. exact M3.
      * cbn [lval]. rewrite E. rewrite (Z.div_mod z (base 64)) at 3 by lia. lia.
      * intros Q. injection Q as _ Q. congruence.
Qed.
Lemma big_of_stands z : stands z (big_of z).
Proof.
  assert (HB : (1 < base 64)%Z) by (unfold base; lia).
  destruct (digits_ok (Z.to_nat (Z.log2 (Z.abs z))) (Z.abs z)) as (M & E & N).
  { split; [lia|]. destruct (Z.eq_dec z 0) as [->|Hz]; [cbn; unfold base; lia|]. assert (L := Z.log2_spec (Z.abs z) ltac:(lia)). assert (P := Z.log2_nonneg (Z.abs z)).
    rewrite Nat2Z.inj_succ, Z2Nat.id by lia. eapply Z.lt_le_trans; [apply L|]. apply Z.pow_le_mono_l. unfold base. cbn. lia. }
  split.
  - split; [exact M|]. cbn [big_of limbs negative]. intros Q. specialize (N Q). apply Z.ltb_ge. lia.
  - unfold bval, mag. cbn [big_of limbs negative]. destruct (Z.ltb_spec z 0); rewrite E; lia.
Qed.
Lemma big_row_stands r : Forall2 stands r (big_row r).
Proof. induction r; cbn; constructor; auto using big_of_stands. Qed.

(** ** Another type in place of one *)
(** Whatever the call prints when it ends with status 0, the other call can print too, ending with status 0;
    and if the call always ends with status 0, then the other call does exactly the same. *)
Definition no_worse (call call' : text -> ending -> Prop) : Prop :=
  (forall out, call out (Status 0) -> call' out (Status 0)) /\
  ((forall out e, call out e -> e = Status 0) -> forall out e, call' out e <-> call out e).
Lemma back_and_forth (call call' : text -> ending -> Prop) : (forall out, call out (Status 0) -> call' out (Status 0)) -> ((forall out e, call out e -> e = Status 0) -> forall out e, call' out e -> call out e) -> no_worse call call'.
Proof. intros H K. split; auto. intros HN out e. split; [apply K; auto|]. intros Q. assert (E := HN out e Q). subst e. apply H. exact Q. Qed.
Lemma no_worse_refl (call : text -> ending -> Prop) : no_worse call call.
Proof. split; auto. intros _ out e. reflexivity. Qed.
Lemma no_worse_iff (p q p' q' : text -> ending -> Prop) : (forall out e, p' out e <-> p out e) -> (forall out e, q' out e <-> q out e) -> no_worse p q -> no_worse p' q'.
Proof. intros Hp Hq (H1 & H2). split; [intros out H; apply Hq, H1, Hp, H|]. intros HN out e. rewrite Hp, Hq. apply H2. intros o x H. apply (HN o x). apply Hp. exact H. Qed.

Section Larger.
  Variables (t t' : int_type).
  Hypothesis Ht : larger t t'.
  Lemma larger_views : forall M M', Forall2 (Forall2 (c_rel (wider t t' (larger_at_least t t' Ht)))) M M' ->
    M = M' /\ Forall (good (arith t) (arith t') (wider t t' (larger_at_least t t' Ht)) (fun r => r) (fun r => r)) M.
  Proof.
    intros M M' H. unfold good. rewrite wider_rel in *. destruct (agrees_eq t M M' H) as (E & HR). split; auto.
    assert (K := agrees_refl t M HR). clear -K. remember M as N eqn:E in K at 2. assert (E2 : N = M) by auto. clear E. revert N E2 K. induction M as [|r M IH]; intros N -> K; constructor; inversion K; subst; auto. apply (IH M); auto.
  Qed.
End Larger.
(** Facets with the rows [V], "-i" being [t] or [t']. *)
Definition facet_ad_call (t : int_type) (order : list nat -> list nat) (fuel threads : nat) (V : list vec) (names : list text) (maps : list lmap) : text -> ending -> Prop :=
  g_facet_ad_call (arith t) (OutputModel.m_to_int t) (MapModel.m_factor t) (fun r => r) (fun m => m) (fun m => m) order fuel threads V names maps [].
Definition vertex_ad_call (t : int_type) (order : list nat -> list nat) (fuel threads : nat) (V : list vec) (maps : list lmap) : text -> ending -> Prop :=
  g_vertex_ad_call (arith t) (OutputModel.m_to_int t) (fun r => r) (fun m => m) (fun m => m) order fuel threads V maps [].
Theorem C56_ad_facets : forall t t' order fuel threads (V : list vec) names maps, larger t t' -> rows_representable t V -> int_maps maps ->
  no_worse (facet_ad_call t order fuel threads V names maps) (facet_ad_call t' order fuel threads V names maps).
Proof.
  intros t t' order fuel threads V names maps Ht HR Hm. unfold facet_ad_call.
  assert (HV : Forall2 (Forall2 (c_rel (wider t t' (larger_at_least t t' Ht)))) V V) by (rewrite wider_rel; apply agrees_refl; auto).
  assert (H1 : forall x y, c_rel (wider t t' (larger_at_least t t' Ht)) x y -> sim eq (OutputModel.m_to_int t x) (OutputModel.m_to_int t' y)) by (rewrite wider_rel; intros x y (<- & Hx); apply larger_to_int; auto).
  assert (H2 : forall c x y, fits 32 c = true -> c_rel (wider t t' (larger_at_least t t' Ht)) x y -> same_with (fun f => fits 32 f = true) (MapModel.m_factor t c x) (MapModel.m_factor t' c y)) by (rewrite wider_rel; intros c x y _ (<- & Hx); apply larger_factor; auto).
  apply int_maps_fit in Hm. apply back_and_forth.
  - apply (facets_forward _ _ (wider t t' (larger_at_least t t' Ht))); auto; [intros L; rewrite map_id; reflexivity|intros L; rewrite map_id; reflexivity|apply larger_views].
  - intros HN. apply (facets_back _ _ (wider t t' (larger_at_least t t' Ht)) (OutputModel.m_to_int t) (OutputModel.m_to_int t') (MapModel.m_factor t) (MapModel.m_factor t')); auto; [intros L; rewrite map_id; reflexivity|intros L; rewrite map_id; reflexivity|apply larger_views].
Qed.
Print Assumptions C56_ad_facets.
Theorem C56_ad_vertices : forall t t' order fuel threads (V : list vec) maps, larger t t' -> rows_representable t V -> int_maps maps ->
  no_worse (vertex_ad_call t order fuel threads V maps) (vertex_ad_call t' order fuel threads V maps).
Proof.
  intros t t' order fuel threads V maps Ht HR Hm. unfold vertex_ad_call.
  assert (HV : Forall2 (Forall2 (c_rel (wider t t' (larger_at_least t t' Ht)))) V V) by (rewrite wider_rel; apply agrees_refl; auto).
  assert (H1 : forall x y, c_rel (wider t t' (larger_at_least t t' Ht)) x y -> sim eq (OutputModel.m_to_int t x) (OutputModel.m_to_int t' y)) by (rewrite wider_rel; intros x y (<- & Hx); apply larger_to_int; auto).
  apply int_maps_fit in Hm. apply back_and_forth.
  - apply (vertices_forward _ _ (wider t t' (larger_at_least t t' Ht))); auto; [intros L; rewrite map_id; reflexivity|intros L; rewrite map_id; reflexivity|apply larger_views].
  - intros HN. apply (vertices_back _ _ (wider t t' (larger_at_least t t' Ht)) (OutputModel.m_to_int t) (OutputModel.m_to_int t')); auto; [intros L; rewrite map_id; reflexivity|intros L; rewrite map_id; reflexivity|apply larger_views].
Qed.
Print Assumptions C56_ad_vertices.

(** ** "-i inf" in place of int *)
Lemma big_views : forall M M', Forall2 (Forall2 (c_rel int_big)) M M' -> M = rows_of M' /\ Forall (good (arith INT32) BIG int_big (fun r => r) big_row) M.
Proof.
  intros M M' H. induction H as [|r r' M M' Hr H (IH1 & IH2)]; [split; [reflexivity|constructor]|].
  assert (K : r = map (bval 64) r' /\ Forall2 (c_rel int_big) r (big_row r)).
  { clear -Hr. induction Hr as [|x a r r' Hx Hr (I1 & I2)]; [split; [reflexivity|constructor]|]. apply int_big_rel in Hx as (Fx & Sx). split.
    - cbn [map]. rewrite <- I1. destruct Sx as (_ & ->). reflexivity.
    - constructor; [|exact I2]. apply int_big_rel. split; [exact Fx|apply big_of_stands]. }
  destruct K as (K1 & K2). split; [cbn [rows_of map]; rewrite <- K1; unfold rows_of in IH1; rewrite <- IH1; reflexivity|]. constructor; auto.
Qed.
Lemma int_big_to_int x a : c_rel int_big x a -> sim eq (OutputModel.m_to_int INT32 x) (b_to_int 64 false a).
Proof. intros H. apply int_big_rel in H as (F & H). rewrite (big_to_int x a H). unfold guarded_to_int. rewrite F. apply sim_ok. reflexivity. Qed.
Lemma int_big_factor c x a : fits 32 c = true -> c_rel int_big x a -> same_with (fun f => fits 32 f = true) (MapModel.m_factor INT32 c x) (big_factor c a).
Proof.
  intros _ H. apply int_big_rel in H as (F & H). unfold big_factor, MapModel.m_factor. rewrite (big_to_int x a H). destruct (i_neg 32 c) as [c'| |]; cbn [bind]; [|apply sim_throw|apply sim_ub].
  unfold guarded_to_int. rewrite F. cbn [bind]. apply (same_with_intro (fun f => fits 32 f = true)). intros f. apply ck_fits.
Qed.
Lemma int_big_rows V : rows_representable INT32 V -> Forall2 (Forall2 (c_rel int_big)) V (big_rows V).
Proof.
  intros HR. assert (H := big_rows_stand V HR). induction H as [|r r' V V' Hr H IH]; [constructor|]. inversion HR as [|? ? Hr2 HR2]; subst. constructor; [|auto].
  clear -Hr Hr2. induction Hr as [|x a r r' Hx Hr IH]; [constructor|]. inversion Hr2; subst. constructor; [|auto]. apply int_big_rel. split; auto.
Qed.
Definition inf_facet_ad_call (order : list nat -> list nat) (fuel threads : nat) (V : list vec) (names : list text) (maps : list lmap) : text -> ending -> Prop :=
  g_facet_ad_call BIG (b_to_int 64 false) big_factor big_row (map big_row) rows_of order fuel threads (big_rows V) names maps [].
Definition inf_vertex_ad_call (order : list nat -> list nat) (fuel threads : nat) (V : list vec) (maps : list lmap) : text -> ending -> Prop :=
  g_vertex_ad_call BIG (b_to_int 64 false) big_row (map big_row) rows_of order fuel threads (big_rows V) maps [].
Theorem C42_ad_facets_partial : forall order fuel threads (V : list vec) names maps, rows_representable INT32 V -> int_maps maps ->
  no_worse (facet_ad_call INT32 order fuel threads V names maps) (inf_facet_ad_call order fuel threads V names maps).
Proof.
  intros order fuel threads V names maps HR Hm. unfold facet_ad_call, inf_facet_ad_call. assert (HV := int_big_rows V HR). apply int_maps_fit in Hm. apply back_and_forth.
  - apply (facets_forward _ _ int_big); auto; [apply int_big_to_int|apply int_big_factor|intros L; rewrite map_id; reflexivity|apply big_views].
  - intros HN. apply (facets_back _ _ int_big (OutputModel.m_to_int INT32) (b_to_int 64 false) (MapModel.m_factor INT32) big_factor); auto; [apply int_big_to_int|apply int_big_factor|intros L; rewrite map_id; reflexivity|apply big_views].
Qed.
Print Assumptions C42_ad_facets_partial.
Theorem C42_ad_vertices_partial : forall order fuel threads (V : list vec) maps, rows_representable INT32 V -> int_maps maps ->
  no_worse (vertex_ad_call INT32 order fuel threads V maps) (inf_vertex_ad_call order fuel threads V maps).
Proof.
  intros order fuel threads V maps HR Hm. unfold vertex_ad_call, inf_vertex_ad_call. assert (HV := int_big_rows V HR). apply int_maps_fit in Hm. apply back_and_forth.
  - apply (vertices_forward _ _ int_big); auto; [apply int_big_to_int|intros L; rewrite map_id; reflexivity|apply big_views].
  - intros HN. apply (vertices_back _ _ int_big (OutputModel.m_to_int INT32) (b_to_int 64 false)); auto; [apply int_big_to_int|intros L; rewrite map_id; reflexivity|apply big_views].
Qed.
Print Assumptions C42_ad_vertices_partial.

(** ** The whole program *)
(** The same number of threads, or none given to either. *)
Definition same_threads (args args' : list text) : Prop :=
  (unset "t" args /\ unset "t" args') \/ exists p, parameter "t" (lit "threads") args p /\ parameter "t" (lit "threads") args' p.
(** The same call but for the type: adjacency decomposition of the same file, with the same sorting and the same number of threads. *)
Definition same_ad_call (args args' : list text) (name : text) : Prop :=
  Forall ordinary args /\ Forall ordinary args' /\ chooses_method args AdjacencyDecomposition /\ chooses_method args' AdjacencyDecomposition /\ same_threads args args' /\
  exists so, asks args name so /\ asks args' name so.
Lemma threads_same hardware args args' : same_threads args args' -> m_number_of_threads hardware args = m_number_of_threads hardware args'.
Proof.
  intros [(U & U')|(p & P & P')]; unfold m_number_of_threads.
  - rewrite (run_unset "t" (lit "threads") _ _ t_name t_char args U), (run_unset "t" (lit "threads") _ _ t_name t_char args' U'). reflexivity.
  - rewrite (run_parameter "t" (lit "threads") _ _ t_name t_char args p P), (run_parameter "t" (lit "threads") _ _ t_name t_char args' p P'). reflexivity.
Qed.
Lemma ad_inputs fs fuel args args' name : same_ad_call args args' name ->
  m_input_vertices fs fuel args' = m_input_vertices fs fuel args /\ m_input_inequalities fs fuel args' = m_input_inequalities fs fuel args.
Proof.
  intros (_ & _ & _ & _ & _ & so & H & H'). destruct (asks_ok args name so H) as (E1 & E2 & E3 & E4 & E5). destruct (asks_ok args' name so H') as (F1 & F2 & F3 & F4 & F5).
  unfold m_input_vertices, m_input_inequalities, m_known_facets, m_known_vertices. rewrite E1, E2, E3, E4, E5, F1, F2, F3, F4, F5. split; reflexivity.
Qed.
Lemma nothing_known_facets fs fuel args name so V names maps K : asks args name so -> m_input_vertices fs fuel args = Ok (Some (V, names, maps, K)) -> K = [].
Proof.
  intros H E. destruct (asks_ok args name so H) as (_ & E2 & _). unfold m_input_vertices in E. apply bind_ok in E as (f & _ & E). apply bind_ok in E as (s & _ & E). destruct (InputModel.m_contains_keywords s) as [k s']. destruct (negb k); [discriminate|].
  apply bindo_some in E as (d & _ & E). apply bind_ok in E as (u & _ & E). apply bind_ok in E as (o & _ & E). apply bind_ok in E as (kn & Ek & E). unfold m_known_facets in Ek. rewrite E2 in Ek. cbn [bind at_end] in Ek. injection Ek as <-.
  apply bind_ok in E as (w & _ & E). congruence.
Qed.
Lemma nothing_known_vertices fs fuel args name so V names maps K : asks args name so -> m_input_inequalities fs fuel args = Ok (Some (V, names, maps, K)) -> K = [].
Proof.
  intros H E. destruct (asks_ok args name so H) as (_ & _ & E3 & _). unfold m_input_inequalities in E. apply bind_ok in E as (f & _ & E). apply bind_ok in E as (s & _ & E). destruct (InputModel.m_contains_keywords s) as [k s']. destruct (negb k); [discriminate|].
  apply bindo_some in E as (d & _ & E). apply bind_ok in E as (u & _ & E). apply bind_ok in E as (o & _ & E). apply bind_ok in E as (o2 & _ & E). apply bind_ok in E as (o3 & _ & E). apply bind_ok in E as (o4 & _ & E).
  apply bindo_some in E as (kn & Ek & E). unfold m_known_vertices in Ek. rewrite E3 in Ek. cbn [bind at_end] in Ek. injection Ek as <-.
  apply bind_ok in E as (w & _ & E). congruence.
Qed.
Lemma ad_mode fs args args' name : same_ad_call args args' name -> m_detect_mode fs args' = m_detect_mode fs args.
Proof.
  intros (HO & HO' & _ & _ & _ & so & H & H').
  rewrite (decided fs args name HO (command_line_args args name (proj1 H)) (proj1 (asks_ok args name so H))), (decided fs args' name HO' (command_line_args args' name (proj1 H')) (proj1 (asks_ok args' name so H'))). reflexivity.
Qed.
Lemma ad_the_mode fs args args' name : same_ad_call args args' name -> m_detect_mode fs args = Ok FacetEnumeration \/ m_detect_mode fs args = Ok VertexEnumeration \/ m_detect_mode fs args = Ok CliModel.Invalid.
Proof.
  intros (HO & _ & _ & _ & _ & so & HA & _).
  assert (D := decided fs args name HO (command_line_args args name (proj1 HA)) (proj1 (asks_ok args name so HA))). destruct (fs name) as [content|] eqn:EF; [|rewrite D; auto]. cbn [rest opened] in D.
  destruct (keywords_ok (length content + 2) content [] false false false (le_n _)) as (x & y & z & E & _). rewrite E in D. cbn [bind] in D. rewrite D. destruct x, y, z; cbn [orb andb]; auto.
Qed.
(** Both programs of the call are no worse: so is the whole program. *)
Lemma ad_main texts order fs fuel hardware args args' name : same_ad_call args args' name ->
  no_worse (m_facet_main order fs fuel hardware args) (m_facet_main order fs fuel hardware args') ->
  no_worse (m_vertex_main order fs fuel hardware args) (m_vertex_main order fs fuel hardware args') ->
  no_worse (m_main texts order fs fuel hardware args) (m_main texts order fs fuel hardware args').
Proof.
  intros HS HF HV. assert (SM := ad_mode fs args args' name HS). destruct (ad_the_mode fs args args' name HS) as [E|[E|E]]; rewrite E in SM.
  - eapply no_worse_iff; [apply (main_mode _ _ _ _ _ _ _ E)|apply (main_mode _ _ _ _ _ _ _ SM)|exact HF].
  - eapply no_worse_iff; [apply (main_mode _ _ _ _ _ _ _ E)|apply (main_mode _ _ _ _ _ _ _ SM)|exact HV].
  - eapply no_worse_iff; [apply (main_mode _ _ _ _ _ _ _ E)|apply (main_mode _ _ _ _ _ _ _ SM)|apply no_worse_refl].
Qed.
(** The same call with a larger type. *)
Theorem C56_ad_main : forall texts order fs fuel hardware args args' name t t', larger t t' -> same_ad_call args args' name -> chooses_type args t -> chooses_type args' t' ->
  no_worse (m_main texts order fs fuel hardware args) (m_main texts order fs fuel hardware args').
Proof.
  intros texts order fs fuel hardware args args' name t t' Hl HS HT HT'. assert (HS' := HS). destruct HS' as (_ & _ & M & M' & HTh & so & HA & _). assert (T16 : t <> INT16 /\ t' <> INT16) by (split; apply (larger_at_least t t' Hl)). destruct T16 as (T1 & T2).
  destruct (ad_inputs fs fuel args args' name HS) as (IV & II). assert (TH := threads_same hardware args args' HTh). apply (ad_main _ _ _ _ _ _ _ name HS).
  - eapply no_worse_iff; [apply (facet_main _ _ _ _ _ _ _ M HT)|apply (facet_main _ _ _ _ _ _ _ M' HT')|]. rewrite <- !typed_facet_ad. unfold g_facet_ad. rewrite IV, <- TH.
    assert (R := input_vertices_small fs fuel args). destruct (m_input_vertices fs fuel args) as [[[[[V names] maps] known]|]| |] eqn:EI; try exact (no_worse_refl _). cbn [ens ensured] in R. destruct R as (R1 & R2 & _). cbn [fst snd] in *.
    rewrite (nothing_known_facets fs fuel args name so V names maps known HA EI). destruct (m_number_of_threads hardware args) as [n| |]; try exact (no_worse_refl _). rewrite !cast_same by auto.
    refine (C56_ad_facets t t' order fuel (Z.to_nat n) V names maps Hl _ _); [apply small_representable; auto|apply int_maps_fit; auto].
  - eapply no_worse_iff; [apply (vertex_main _ _ _ _ _ _ _ M HT)|apply (vertex_main _ _ _ _ _ _ _ M' HT')|]. rewrite <- !typed_vertex_ad. unfold g_vertex_ad. rewrite II, <- TH.
    assert (R := input_inequalities_small fs fuel args). destruct (m_input_inequalities fs fuel args) as [[[[[V names] maps] known]|]| |] eqn:EI; try exact (no_worse_refl _). cbn [ens ensured] in R. destruct R as (R1 & R2 & _). cbn [fst snd] in *.
    rewrite (nothing_known_vertices fs fuel args name so V names maps known HA EI). destruct (m_number_of_threads hardware args) as [n| |]; try exact (no_worse_refl _). rewrite !cast_same by auto.
    refine (C56_ad_vertices t t' order fuel (Z.to_nat n) V maps Hl _ _); [apply small_representable; auto|apply int_maps_fit; auto].
Qed.
Print Assumptions C56_ad_main.
(** The same call with "-i inf" in place of int, the default type. *)
Theorem C42_ad_main_partial : forall texts order fs fuel hardware args args' name, same_ad_call args args' name -> chooses_type args INT32 -> chooses_inf args' ->
  no_worse (m_main texts order fs fuel hardware args) (m_main texts order fs fuel hardware args').
Proof.
  intros texts order fs fuel hardware args args' name HS HT HT'. assert (HS' := HS). destruct HS' as (_ & _ & M & M' & HTh & so & HA & _). apply inf_choice in HT'. apply chosen_method in M'.
  destruct (ad_inputs fs fuel args args' name HS) as (IV & II). assert (TH := threads_same hardware args args' HTh). apply (ad_main _ _ _ _ _ _ _ name HS).
  - eapply no_worse_iff; [apply (facet_main _ _ _ _ _ _ _ M HT)|instantiate (1 := m_inf_facet_ad order fs fuel hardware args'); intros out e; unfold m_facet_main, m_uncaught; rewrite M', HT'; reflexivity|]. cbn [m_selected]. rewrite <- !typed_facet_ad. unfold m_inf_facet_ad, g_facet_ad. rewrite IV, <- TH.
    assert (R := input_vertices_small fs fuel args). destruct (m_input_vertices fs fuel args) as [[[[[V names] maps] known]|]| |] eqn:EI; try exact (no_worse_refl _). cbn [ens ensured] in R. destruct R as (R1 & R2 & _). cbn [fst snd] in *.
    rewrite (nothing_known_facets fs fuel args name so V names maps known HA EI). destruct (m_number_of_threads hardware args) as [n| |]; try exact (no_worse_refl _). rewrite !cast_same by discriminate.
    refine (C42_ad_facets_partial order fuel (Z.to_nat n) V names maps _ _); [apply small_representable; auto; discriminate|apply int_maps_fit; auto].
  - eapply no_worse_iff; [apply (vertex_main _ _ _ _ _ _ _ M HT)|instantiate (1 := m_inf_vertex_ad order fs fuel hardware args'); intros out e; unfold m_vertex_main, m_uncaught; rewrite M', HT'; reflexivity|]. cbn [m_selected]. rewrite <- !typed_vertex_ad. unfold m_inf_vertex_ad, g_vertex_ad. rewrite II, <- TH.
    assert (R := input_inequalities_small fs fuel args). destruct (m_input_inequalities fs fuel args) as [[[[[V names] maps] known]|]| |] eqn:EI; try exact (no_worse_refl _). cbn [ens ensured] in R. destruct R as (R1 & R2 & _). cbn [fst snd] in *.
    rewrite (nothing_known_vertices fs fuel args name so V names maps known HA EI). destruct (m_number_of_threads hardware args) as [n| |]; try exact (no_worse_refl _). rewrite !cast_same by discriminate.
    refine (C42_ad_vertices_partial order fuel (Z.to_nat n) V maps _ _); [apply small_representable; auto; discriminate|apply int_maps_fit; auto].
Qed.
Print Assumptions C42_ad_main_partial.

(** "-t 1 f" and "-t 1 f -i inf" with the file of C48: the call with int always ends with status 0, so the one with "-i inf" does the same. *)
Definition inf_ad_args : list text := [lit "-t"; lit "1"; lit "f"; lit "-i"; lit "inf"].
Lemma asks_inf_ad : asks inf_ad_args (lit "f") NoSorting /\ chooses_method inf_ad_args AdjacencyDecomposition /\ chooses_inf inf_ad_args /\ Forall ordinary inf_ad_args.
Proof.
  split; [split; [|split; [not_concerning|split; [cbn; intuition discriminate|split; [cbn; intuition discriminate|left; split; [not_concerning|reflexivity]]]]]|split; [|split]].
  - apply (line_parameter "t" (lit "1")); try discriminate. apply line_free; [split; [discriminate|intros (p & E); discriminate]|]. apply (line_parameter "i" (lit "inf")); try discriminate. apply PropertiesCli.line_end.
  - left. split; [not_concerning|reflexivity].
  - exists (lit "inf"). split; [|constructor]. apply (parameter_next "i" (lit "integer-type") [lit "-t"; lit "1"; lit "f"]). not_concerning.
  - apply Forall_forall. intros a H. cbn in H. repeat destruct H as [<-|H]; try contradiction;
      (repeat split; try (intros [K|[K|[K|[K|[]]]]]; discriminate); try discriminate; try (intros (q & K); discriminate)).
Qed.
Lemma same_strip_call : same_ad_call ad_args inf_ad_args (lit "f").
Proof.
  destruct asks_ad as (A1 & A2 & A3), asks_inf_ad as (B1 & B2 & B3 & B4). split; [|split; [exact B4|split; [exact A2|split; [exact B2|split]]]].
  - apply Forall_forall. intros a Ha. apply plain_args. apply in_app_iff. auto.
  - right. exists (lit "1"). split; [apply (parameter_next "t" (lit "threads") []); constructor|apply (parameter_next "t" (lit "threads") []); constructor].
  - exists NoSorting. split; [exact A1|exact B1].
Qed.
Definition strip_rows : list vec := [[0; 1; 0]; [0; 0; 1]; [1; 0; 2]]%Z.
Definition strip_facets : list vec := [[-1; 0; 0]; [0; -1; 0]; [2; 0; -1]]%Z.
Lemma strip_always_ends : forall texts out e, m_main texts sorted_order (one_file half_strip) 20 4 ad_args out e -> e = Status 0.
Proof.
  intros texts out e H. destruct asks_ad as (_ & A1 & A2). assert (MA : m_detect_mode (one_file half_strip) ad_args = Ok FacetEnumeration) by (vm_compute; reflexivity).
  rewrite (main_mode texts sorted_order (one_file half_strip) 20 4 ad_args _ MA) in H. rewrite (facet_main sorted_order (one_file half_strip) 20 4 ad_args _ INT32 A1 A2) in H. rewrite <- typed_facet_ad in H. unfold g_facet_ad in H.
  assert (EI : m_input_vertices (one_file half_strip) 20 ad_args = Ok (Some (strip_rows, [lit "x"; lit "y"], [], []))) by (vm_compute; reflexivity). rewrite EI in H.
  assert (ET : m_number_of_threads 4 ad_args = Ok 1%Z) by (vm_compute; reflexivity). rewrite ET in H. rewrite !cast_same in H by discriminate.
  assert (E0 : g_ad_reduce (arith INT32) (MapModel.m_factor INT32) strip_rows [] = Ok ([], [])) by (vm_compute; reflexivity).
  assert (ES : g_ad_start (arith INT32) Facet_tag sorted_order 20 strip_rows [] [] [] = Ok (Some strip_facets)) by (vm_compute; reflexivity).
  destruct H as [(H & _)|[H|H]]; [exact H| |].
  - unfold g_ad_stops in H. assert (EE : m_extract_equations (arith INT32) strip_rows = Ok []) by (vm_compute; reflexivity). rewrite EE in H. cbn [g_ad_equations say] in H. rewrite E0 in H.
    match type of H with context [g_ad_start ?a ?b ?c ?d ?e ?f ?g ?h] => change (g_ad_start a b c d e f g h) with (g_ad_start (arith INT32) Facet_tag sorted_order 20 strip_rows [] [] []) in H end. rewrite ES in H.
    destruct H as (lines & q & HL & N & _). exfalso. apply N. assert (K : snd (g_pretty_matrix (arith INT32) (OutputModel.m_to_int INT32) [lit "x"; lit "y"] "<=" (m_new_rows strip_facets)) = Ok tt) by (vm_compute; reflexivity). rewrite HL in K. exact K.
  - destruct H as [(E & red & st & k & _ & _ & H & _)|(E & red & st & ad & ls & s & r & H1 & H2 & H3 & H4 & H5)].
    + exfalso. rewrite firstn_nil in H. discriminate.
    + rewrite E0 in H1. injection H1 as <- <-.
      match type of H2 with context [g_ad_start ?a ?b ?c ?d ?e ?f ?g ?h] => change (g_ad_start a b c d e f g h) with (g_ad_start (arith INT32) Facet_tag sorted_order 20 strip_rows [] [] []) in H2 end. rewrite ES in H2. injection H2 as <-. exfalso.
      assert (ad = []) as ->. { destruct H3 as (k & H3 & _). rewrite firstn_nil in H3. cbn in H3. injection H3 as <-. reflexivity. }
      destruct (run_have (g_ad_neighbours (arith INT32) (fun r => r) (fun m => m) Facet_tag sorted_order 20 strip_rows []) (fun r => In r strip_facets)) with (4 := H4) as (HP & HH); [..|].
      * intros x [<-|[<-|[<-|[]]]]; apply Forall_forall; intros y Hy; vm_compute in Hy; unfold strip_facets; cbn [In]; intuition.
      * unfold strip_facets. apply Forall_forall. auto.
      * constructor.
      * rewrite Forall_forall in HP, HH. destruct H5 as [(I & K)|(I & N & _)]; [|apply N; apply HP; exact I].
        destruct (HH r I) as [<-|[<-|[<-|[]]]]; destruct K as [(K & _)|(K & _)]; vm_compute in K; discriminate.
Qed.
Example C42_ad_instance : forall texts,
  same_ad_call ad_args inf_ad_args (lit "f") /\ chooses_type ad_args INT32 /\ chooses_inf inf_ad_args /\
  (forall out e, m_main texts sorted_order (one_file half_strip) 20 4 inf_ad_args out e <-> m_main texts sorted_order (one_file half_strip) 20 4 ad_args out e) /\
  m_main texts sorted_order (one_file half_strip) 20 4 inf_ad_args (line "Inequalities:" ++ line "-x <= 0" ++ line "-y <= 0" ++ line "2x <= 1") (Status 0).
Proof.
  intros texts. destruct asks_ad as (_ & _ & A3), asks_inf_ad as (_ & _ & B3 & _). split; [exact same_strip_call|]. split; [exact A3|]. split; [exact B3|].
  destruct (C42_ad_main_partial texts sorted_order (one_file half_strip) 20 4 ad_args inf_ad_args (lit "f") same_strip_call A3 B3) as (H1 & H2).
  split; [apply H2; apply strip_always_ends|]. apply H1. apply (C53_example texts).
Qed.

(** ** What "-i inf" does with the triangle of C42 *)
(** The corners are (0,0), (100000,0) and (0,100000).  Double description prints "x +y <= -100000", which no corner satisfies;
    adjacency decomposition, the default, puts the same row on its list, and processing it reads outside of a row. *)
Definition big_triangle : text := line "Names:" ++ line "x y" ++ line "" ++ line "Vertices:" ++ line "0 0" ++ line "100000 0" ++ line "0 100000".
Theorem C42_program_refuted : forall texts hardware,
  only_ends (m_main texts sorted_order (one_file big_triangle) 20 hardware inf_args) (line "Inequalities:" ++ line "-x <= 0" ++ line "-y <= 0" ++ line "x +y <= -100000") (Status 0) /\
  forall out, m_main texts sorted_order (one_file big_triangle) 20 hardware inf_ad_args out Undefined.
Proof.
  intros texts hardware. destruct asks_inf as (_ & M1 & T1), asks_inf_ad as (_ & M2 & T2 & _). apply chosen_method in M1, M2. apply inf_choice in T1, T2. split.
  - intros out e. assert (MD : m_detect_mode (one_file big_triangle) inf_args = Ok FacetEnumeration) by (vm_compute; reflexivity). rewrite (main_mode texts sorted_order (one_file big_triangle) 20 hardware inf_args _ MD). unfold m_facet_main, m_uncaught. rewrite M1, T1. cbn [m_selected].
    assert (E : m_inf_facet_program sorted_order (one_file big_triangle) 20 inf_args = Some (line "Inequalities:" ++ line "-x <= 0" ++ line "-y <= 0" ++ line "x +y <= -100000", Ok tt)) by (vm_compute; reflexivity). rewrite E, dd_ends. reflexivity.
  - intros out. assert (MD : m_detect_mode (one_file big_triangle) inf_ad_args = Ok FacetEnumeration) by (vm_compute; reflexivity). rewrite (main_mode texts sorted_order (one_file big_triangle) 20 hardware inf_ad_args _ MD). unfold m_facet_main, m_uncaught. rewrite M2, T2. cbn [m_selected].
    unfold m_inf_facet_ad, g_facet_ad.
    assert (EI : m_input_vertices (one_file big_triangle) 20 inf_ad_args = Ok (Some ([[0; 0; 1]; [100000; 0; 1]; [0; 100000; 1]]%Z, [lit "x"; lit "y"], [], []))) by (vm_compute; reflexivity). rewrite EI.
    assert (ET : m_number_of_threads hardware inf_ad_args = Ok 1%Z).
    { unfold m_number_of_threads. rewrite (run_parameter "t" (lit "threads") _ _ t_name t_char inf_ad_args (lit "1")) by (apply (parameter_next "t" (lit "threads") []); constructor). vm_compute. reflexivity. }
    rewrite ET. change (Z.to_nat 1) with 1. right. right. right. change (big_rows []) with (@nil (list big)).
    destruct (exec_all_ok (g_ad_neighbours BIG big_row rows_of Facet_tag sorted_order 20 (big_rows [[0; 0; 1]; [100000; 0; 1]; [0; 100000; 1]]%Z) []) (repeat CMain 4 ++ repeat (CThread 0) 15) (initial [[-1; 0; 0]; [0; -1; 0]; [1; 1; 100000]]%Z [] 1 0)
      (State (Jobs 1 [[-1; 0; 0]; [0; -1; 0]; [1; 1; 100000]; [1; 1; -100000]]%Z [[1; 1; -100000]]%Z [[-1; 0; 0]; [0; -1; 0]; [1; 1; 100000]; [1; 1; -100000]]%Z [[-1; 0; 0]; [0; -1; 0]; [1; 1; 100000]]%Z) None [Work [1; 1; 100000]%Z] [])) as (ls & R).
    { vm_compute. reflexivity. }
    exists [], [], (map big_row [[-1; 0; 0]; [0; -1; 0]; [1; 1; 100000]]%Z), [], ls. eexists. exists [1; 1; 100000]%Z. split; [vm_compute; reflexivity|]. split; [vm_compute; reflexivity|]. split; [exists 0; split; [reflexivity|left; cbn; lia]|].
    split; [exact R|]. left. split; [cbn; auto|]. right. split; [vm_compute; reflexivity|reflexivity].
Qed.
Print Assumptions C42_program_refuted.
