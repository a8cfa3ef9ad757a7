(** * VertexAd: the rows printed by vertex enumeration with adjacency decomposition. *)
From Coq Require Import List ZArith QArith Arith Lia Bool Permutation.
From Verif Require Import Base Spec LinAlg ListUtil Cone FmeCore FmePure FmePrepare FmeCorrect ArithModel MatrixModel FmeModel SafeIntModel Refine MatrixRefine FmeRefine IntTypes FmeTheorems DimTheorems NormTheorems
  HeuristicTheorems ClassesModel ClassesProofs OrbitTheorems ApplyTheorems OrbitExact RotationModel Adjacency RotatePure RotateRefine Climb NormalForm RotationTheorems Symmetry
  ListModel ListProofs ListProtocol ListTheorems ListKnown OutputModel AdModel VertexAdModel VertexSymmetry VertexGraph Corners VertexEdge.
Import ListNotations.
Open Scope Z_scope.
Open Scope list_scope.

(** The maps carry the inequalities to positive multiples of each other. *)
Definition permuting (N : nat) (A : list vec) (maps : list lmap) : Prop :=
  (forall m, In m maps -> map_in N m) /\
  (forall m a, In m maps -> In a A -> exists b j k, In b A /\ 0 < j /\ 0 < k /\ forall x, length x = N -> j * dot a (substitute m x) = k * dot b x) /\
  (forall m b, In m maps -> In b A -> exists a j k, In a A /\ 0 < j /\ 0 < k /\ forall x, length x = N -> j * dot a (substitute m x) = k * dot b x).
Lemma permuting_none N A : permuting N A [].
Proof. split; [intros m []|split; intros m a []]. Qed.

Section Rows.
  Variables (t : int_type) (order : list nat -> list nat) (n : nat) (A : list vec) (maps : list lmap) (fuel : nat).
  Notation N := (S n).
  Hypothesis Ht : t <> INT16.
  Hypothesis Ho : sort_order order.
  Hypothesis HR : rows_representable t A.
  Hypothesis HA : dims N A.
  Hypothesis HU : In (unit_vec N n (-1)) A.
  Hypothesis HL : no_line N A.
  Hypothesis HM : permuting N A maps.
  Notation orb := (orbit EXACT Vertex_tag maps).
  Notation largest := (largest EXACT Vertex_tag maps).
  Notation nb := (m_vad_neighbours t order fuel A maps).
  Notation FV := (all_rows order N A).

  Lemma v_line x : length x = N -> vanishes A x -> x = vzero N.
  Proof. intros Hx Hv. apply HL; auto. intros a Ha. rewrite dot_comm. auto. Qed.
  Lemma v_eqs : eqs N A = [].
  Proof.
    assert (P := prepare_ok N A HA). unfold eqs. destruct (p_eqs (prepare N A)) as [|e0 es] eqn:E; auto. exfalso.
    destruct (po_eqs_lead _ _ _ P 0%nat) as (z & _ & Hp & _); [rewrite E; cbn; lia|]. assert (Hin : In e0 (p_eqs (prepare N A))) by (rewrite E; left; auto).
    rewrite (v_line (nth 0 (p_eqs (prepare N A)) [])) in Hp.
    - rewrite nth_vzero in Hp. lia.
    - rewrite E. cbn [nth]. apply (dims_in N _ _ (po_eqs_dim _ _ _ P) Hin).
    - rewrite E. cbn [nth]. apply (po_eqs_van _ _ _ P e0 Hin).
  Qed.
  Lemma v_facet x : extreme_ray N A x <-> facet N A x.
  Proof. apply extreme_iff; auto. Qed.
  Lemma v_rows x : In x FV <-> extreme_ray N A x /\ primitive x.
  Proof.
    rewrite (all_rows_iff order N A Ho HA x), (full_nform N A x HA v_eqs), v_facet. split; [tauto|]. intros (F & P). split; auto. split; auto. apply F.
  Qed.
  Lemma v_form x : facet N A x -> primitive x -> nform N A x.
  Proof. intros F P. apply (full_nform N A x HA v_eqs). split; auto. apply F. Qed.
  Lemma v_maps : Forall (map_in N) maps.
  Proof. apply Forall_forall. apply HM. Qed.
  Lemma v_orbit x y : In x FV -> orb x y -> In y FV.
  Proof. destruct HM as (M1 & M2 & M3). apply (orbit_rays N A maps HA HL M1 M2 M3 FV v_rows). Qed.
  Lemma v_back x y : In x FV -> orb x y -> orb y x.
  Proof. destruct HM as (M1 & M2 & M3). apply (rays_back N A maps HA HL M1 M2 M3 FV v_rows). Qed.
  Lemma v_reversible x : In x FV -> reversible EXACT Vertex_tag maps x.
  Proof. destruct HM as (M1 & M2 & M3). apply (rays_reversible N A maps HA HL M1 M2 M3 FV v_rows). Qed.
  Lemma v_injective x : In x FV -> acts_injectively EXACT Vertex_tag maps x.
  Proof. destruct HM as (M1 & M2 & M3). apply (rays_injective N A maps HA HL M1 M2 M3 FV v_rows). Qed.
  Lemma v_last : (0 < N)%nat /\ exists v, In v A /\ nth (N - 1) v 0 < 0.
  Proof. split; [lia|]. exists (unit_vec N n (-1)). split; auto. replace (N - 1)%nat with n by lia. unfold unit_vec. rewrite nth_upd, vzero_length, Nat.eqb_refl. destruct (Nat.ltb_spec n N); [cbn; lia|lia]. Qed.
  Lemma v_nonzero : nonzero N A.
  Proof. destruct v_last as (_ & v & Hv & H). exists v. split; auto. intros ->. rewrite nth_vzero in H. lia. Qed.
  Lemma v_exl : exists v, In v A /\ nth (N - 1) v 0 <> 0.
  Proof. destruct v_last as (_ & v & Hv & H). exists v. split; auto. lia. Qed.

  (** A step along an edge is carried along by the maps. *)
  Lemma v_adj x y z : In x FV -> In z FV -> orb x y -> ridge_adj N A x z -> exists w, orb z w /\ ridge_adj N A y w.
  Proof.
    intros Hx Hz Ho' Ha. destruct HM as (M1 & M2 & M3). induction Ho' as [|y m y' Hy (w & Hw & IH) Hm E]; [exists z; split; auto; constructor|].
    assert (Hy' : In y FV) by (apply (v_orbit x); auto). assert (Hw' : In w FV) by (apply (v_orbit z); auto). apply v_rows in Hy', Hw'.
    destruct (ray_apply N maps M1 m y y' (proj1 (proj1 (proj1 Hy'))) Hm E) as (-> & _). assert (Lw : length w = N) by apply Hw'. assert (Ly : length y = N) by apply Hy'.
    exists (rnorm (substitute m w)). split.
    - apply (orbit_apply EXACT Vertex_tag maps z w m); auto. rewrite (apply_exact Vertex_tag N m w (M1 m Hm) Lw), (vertex_raw N) by auto. reflexivity.
    - rewrite !(vact_act N maps M1 m) by auto. apply act_adj; auto using transpose_in, (transpose_onto N A maps HA M1 M2 M3).
  Qed.

  (** The rows the program works with. *)
  Definition v_good (r : vec) : Prop := In r FV /\ Forall (representable t) r /\ largest r r.
  Lemma v_largest_good h r : In h FV -> Forall (representable t) r -> largest h r -> v_good r.
  Proof. intros Hh Rr L. split; [apply (v_orbit h); auto; apply L|]. split; auto. apply (largest_orbit EXACT Vertex_tag maps h r r (v_reversible h Hh) (proj1 L)). auto. Qed.

  Lemma v_representatives (rows : list vec) : forall out, (forall r, In r rows -> In r FV /\ Forall (representable t) r) ->
    m_vertex_representatives t fuel maps rows = Ok (Some out) ->
    (forall x, In x out -> v_good x /\ exists r, In r rows /\ largest r x) /\ (forall r, In r rows -> exists x, In x out /\ largest r x).
  Proof.
    induction rows as [|r rows IH]; intros out Hg Eq; cbn [m_vertex_representatives] in Eq; [assert (out = []) as -> by congruence; split; intros ? []|].
    destruct (m_representative (arith t) fuel Vertex_tag maps r) as [[x|]| |] eqn:Ex; cbn [bind] in Eq; try discriminate.
    destruct (m_vertex_representatives t fuel maps rows) as [[xs|]| |] eqn:Exs; cbn [bind] in Eq; try discriminate. assert (out = x :: xs) as -> by congruence.
    destruct (Hg r (or_introl eq_refl)) as (Fr & Rr). assert (Lr : length r = N) by (apply v_rows in Fr; apply Fr).
    destruct (representative_exact t Vertex_tag maps N Ht v_maps fuel r x Lr Rr Ex) as (L & _ & Rx).
    destruct (IH xs (fun r' Hr' => Hg r' (or_intror Hr')) eq_refl) as (I1 & I2). split.
    - intros y [<-|Hy]; [|destruct (I1 y Hy) as (G & r' & Hr' & L'); split; auto; exists r'; split; [right|]; auto].
      split; [apply (v_largest_good r); auto|]. exists r. split; [left|]; auto.
    - intros y [<-|Hy]; [exists x; split; [left|]; auto|]. destruct (I2 y Hy) as (z & Hz & Lz). exists z. split; [right|]; auto.
  Qed.
  (** Known rows: multiples of vertices and rays. *)
  Definition known_rays (known : list vec) : Prop := forall r, In r known -> extreme_ray N A r /\ Forall (representable t) r.
  Lemma v_normalised r r' : extreme_ray N A r -> Forall (representable t) r -> m_normalize (arith t) r [] = Ok r' -> In r' FV /\ Forall (representable t) r'.
  Proof.
    intros Er Rr HN. assert (LO : leads_ok N []) by (split; [constructor|intros i Hi; cbn in Hi; lia]). assert (Hl : length r = N) by apply Er.
    assert (Nr := normalize_rel _ _ (arith t) (sound_type t Ht) N r r [] [] (vec_rel t Ht r Rr) (Forall2_nil _) Hl LO).
    rewrite HN in Nr. cbn [rel] in Nr. apply rel_vec in Nr. destruct Nr as (-> & Rr'). split; auto.
    destruct (normalize_spec N [] LO r Hl) as (L & _ & g & k & s & Hg & Hk & Ls & Hs & Eq). apply v_facet in Er.
    assert (S : simn A r (normalize r [])).
    { exists k, g. split; auto. split; auto. intros v Hv. rewrite <- (dot_vscale_l g), Eq, dot_vadd_l, dot_vscale_l by (rewrite vscale_length; congruence).
      rewrite (Span.span_vanishes N [] s v (proj1 LO) Hs); [lia|]. intros x []. }
    assert (F' := facet_sim N A r (normalize r []) L S Er). apply v_rows. split; [apply v_facet; auto|].
    destruct (normalize_primitive N [] LO r Hl) as [E0|]; auto. exfalso. apply (proj1 (proj2 (proj2 F'))). rewrite E0. intros v _. apply dot_vzero_l.
  Qed.
  Lemma v_normalised_rows known rows : known_rays known -> mapM (fun r => m_normalize (arith t) r []) known = Ok rows ->
    (known <> [] -> rows <> []) /\ forall x, In x rows -> In x FV /\ Forall (representable t) x.
  Proof.
    revert rows. induction known as [|r known IH]; intros rows Hk Eq; cbn [mapM] in Eq; [assert (rows = []) as -> by congruence; split; [congruence|intros ? []]|].
    destruct (m_normalize (arith t) r []) as [r'| |] eqn:Er; cbn [bind] in Eq; try discriminate.
    match type of Eq with (bind ?m _ = _) => destruct m as [rs| |] eqn:Ers end; cbn [bind] in Eq; try discriminate. assert (rows = r' :: rs) as -> by congruence.
    destruct (Hk r (or_introl eq_refl)) as (K1 & K2). split; [discriminate|]. intros x [<-|Hx]; [apply (v_normalised r); auto|].
    apply (IH rs (fun r0 H0 => Hk r0 (or_intror H0)) eq_refl). auto.
  Qed.
  Lemma v_known known added : known_rays known -> m_vad_known t fuel maps known = Ok (Some added) -> (known <> [] -> added <> []) /\ forall x, In x added -> v_good x.
  Proof.
    intros Hk Eq. unfold m_vad_known in Eq. match type of Eq with (bind ?m _ = _) => destruct m as [rows| |] eqn:Er end; cbn [bind] in Eq; try discriminate.
    destruct (v_normalised_rows known rows Hk Er) as (N1 & N2). destruct (v_representatives rows added N2 Eq) as (R1 & R2). split.
    - intros K. specialize (N1 K). destruct rows as [|r rows]; [congruence|]. destruct (R2 r (or_introl eq_refl)) as (x & Hx & _). intros ->. destruct Hx.
    - intros x Hx. apply (R1 x Hx).
  Qed.
  Lemma v_added known added : known_rays known -> m_vad_added t fuel maps known added -> forall x, In x added -> v_good x.
  Proof. intros Hk (k & Ek & _). apply (v_known (firstn k known) added); auto. intros r Hr. apply Hk. rewrite <- (firstn_skipn k known). apply in_app_iff. auto. Qed.
  Lemma v_start known start : known_rays known -> m_vad_start t order fuel A maps known = Ok (Some start) ->
    (forall x, In x start -> v_good x) /\ ((exists g, In g FV) -> start <> []).
  Proof.
    intros Hk Eq. unfold m_vad_start in Eq. destruct known as [|r known].
    - match type of Eq with (bind ?m _ = _) => destruct m as [rows| |] eqn:Er end; cbn [bind] in Eq; try discriminate.
      assert (ES := result_heuristic t order N A Ht Ho HR HA rows v_nonzero Er).
      assert (HSr : rows_representable t rows).
      { assert (H := fme_heuristic_rel _ _ (arith t) (sound_type t Ht) order Ho N A A (rows_rel t Ht A HR) HA v_nonzero). change (num (arith t)) with Z in *. rewrite Er in H. cbn [rel] in H. apply rel_rows in H. tauto. }
      assert (Hi : forall f, In f rows -> In f FV) by (intros f Hf; rewrite ES in Hf; revert Hf; apply heuristic_incl; auto using v_exl).
      destruct (v_representatives rows start) as (R1 & R2); [intros f Hf; split; auto; apply (proj1 (Forall_forall _ _) HSr f Hf)|auto|].
      split; [intros x Hx; apply (R1 x Hx)|]. intros (g & Hg) ->. destruct rows as [|r rows]; [|destruct (R2 r (or_introl eq_refl)) as (x & [] & _)].
      symmetry in ES. apply heuristic_empty in ES; auto. rewrite ES in Hg. destruct Hg.
    - destruct (v_known [r] start) as (G1 & G2); auto; [intros x [<-|[]]; apply Hk; left; auto|]. split; auto. intros _. apply G1. discriminate.
  Qed.

  Hypothesis Hn : (0 < n)%nat.
  Lemma v_tight f : facet N A f -> nonzero N (tight A f).
  Proof.
    intros Ff. destruct (existsb (fun v => if list_eq_dec Z.eq_dec v (vzero N) then false else true) (tight A f)) eqn:E.
    - apply existsb_exists in E. destruct E as (v & Hv & E). exists v. split; auto. destruct (list_eq_dec Z.eq_dec v (vzero N)); [discriminate|auto].
    - exfalso. assert (H0 : forall v, In v A -> dot f v = 0 -> v = vzero N).
      { intros v Hv Ev. destruct (list_eq_dec Z.eq_dec v (vzero N)) as [|Hne]; auto. exfalso. apply not_true_iff_false in E. apply E. apply existsb_exists. exists v. split; [apply in_tight; auto|]. destruct (list_eq_dec Z.eq_dec v (vzero N)); [contradiction|auto]. }
      assert (K : forall b, length b = N -> exists k s, 0 < k /\ vscale k b = vscale s f).
      { intros b Hb. destruct (facet_form N A f b Ff Hb) as (k & s & Hk & Ek); [intros v Hv Ev; rewrite (H0 v Hv Ev); rewrite dot_comm; apply dot_vzero_l|]. exists k, s. split; auto.
        assert (Q : vadd (vscale k b) (vscale (- s) f) = vzero N).
        { apply v_line; [rewrite vadd_length, !vscale_length, Hb, (proj1 Ff); lia|]. intros v Hv. rewrite dot_vadd_l by (rewrite !vscale_length, Hb; symmetry; apply Ff). rewrite !dot_vscale_l, (Ek v Hv). ring. }
        apply (nth_ext _ _ 0 0); rewrite !vscale_length; [rewrite Hb; symmetry; apply Ff|]. intros i Hi. assert (Qi : nth i (vadd (vscale k b) (vscale (- s) f)) 0 = 0) by (rewrite Q; apply nth_vzero).
        rewrite nth_vadd in Qi by (rewrite !vscale_length, Hb; symmetry; apply Ff). rewrite !nth_vscale in *. lia. }
      destruct (K (unit_vec N 0 1) (unit_vec_length N 0 1)) as (k & s & Hk & E1). destruct (K (unit_vec N 1 1) (unit_vec_length N 1 1)) as (k' & s' & Hk' & E2).
      assert (U : forall i j, (i < N)%nat -> nth j (unit_vec N i 1) 0 = if Nat.eqb j i then 1 else 0) by (intros i j Hi; unfold unit_vec; rewrite nth_upd, nth_vzero, vzero_length; destruct (Nat.eqb_spec j i) as [Eji|]; [subst j; destruct (Nat.ltb_spec i N); [reflexivity|lia]|reflexivity]).
      assert (E10 := f_equal (fun v => nth 0 v 0) E1). assert (E11 := f_equal (fun v => nth 1 v 0) E1). assert (E21 := f_equal (fun v => nth 1 v 0) E2). cbv beta in E10, E11, E21.
      rewrite !nth_vscale, U in E10 by lia. rewrite !nth_vscale, U in E11 by lia. rewrite !nth_vscale, U in E21 by lia. cbn [Nat.eqb] in E10, E11, E21.
      rewrite Z.mul_0_r in E11. symmetry in E11. apply Z.mul_eq_0 in E11 as [Es|Es]; rewrite Es in *; lia.
  Qed.

  Lemma v_processed r l : v_good r -> m_rotation (arith t) order fuel A r maps Vertex_tag = Ok (Some l) ->
    (forall x, In x l -> v_good x /\ exists g, In g (rotated_of order N A r) /\ largest g x) /\ (forall g, In g (rotated_of order N A r) -> exists x, In x l /\ orb g x).
  Proof.
    intros (Hr & Rr & _) E. apply v_rows in Hr as (Er & Pr). assert (F := proj1 (v_facet r) Er). unfold m_rotation in E. match type of E with (bind ?m _ = _) => destruct m as [R| |] eqn:ER end; cbn [bind] in E; try discriminate.
    destruct (rotated_representable t order N A Ht Ho HR HA r R F Rr (v_tight r F) ER) as (-> & RR).
    assert (G : forall g, In g (rotated_of order N A r) -> In g FV).
    { intros g Hg. apply (all_rows_iff order N A Ho HA). split; [|apply (rotated_nform N A order HA Ho r); auto using v_form]. destruct (rotated_ridge N A order HA Ho r g F Hg) as (_ & _ & _ & _ & _ & _ & Ha). apply Ha. }
    assert (Hd : dims N (rotated_of order N A r)) by (apply Forall_forall; intros g Hg; specialize (G g Hg); apply v_rows in G; apply G).
    destruct (classes_exact t Vertex_tag maps N Ht v_maps fuel (rotated_of order N A r) l Hd RR E) as (C1 & C2). split.
    - intros x Hx. destruct (C1 x Hx) as (_ & Rx & g & Hg & L). split; [apply (v_largest_good g); auto|]. exists g. auto.
    - intros g Hg. destruct (C2 g Hg) as (h & x & Hh' & Oh & Hx & L). exists x. split; auto. apply (orbit_trans EXACT Vertex_tag maps g h); [|apply L]. apply (v_back h); auto.
  Qed.
  Lemma v_closure start : (forall r, In r start -> v_good r) -> forall r, closure nb start r -> v_good r.
  Proof.
    intros Hs r. induction 1 as [r Hr|r x _ IH Hx]; [apply Hs; auto|]. unfold m_vad_neighbours in Hx.
    match type of Hx with In _ (match ?m with _ => _ end) => destruct m as [[l|]| |] eqn:E end; try destruct Hx. apply (v_processed r l IH E). auto.
  Qed.
  Lemma v_not_empty r : v_good r -> r <> [].
  Proof. intros (Hr & _) ->. apply v_rows in Hr as ((Hs & _) & _). destruct Hs as (L & _). discriminate L. Qed.

  (** Without hidden edges everything is found, up to the maps. *)
  Lemma v_complete start f0 g : no_hidden_edge n (solves A) -> (forall r, In r start -> v_good r) -> In f0 start -> (forall r, closure nb start r -> m_vad_processed t order fuel A maps r) ->
    In g FV -> exists r, closure nb start r /\ largest g r.
  Proof.
    intros HE Hs Hf0 Hok Hg. assert (Hlt := proj2 v_last). assert (Hnn : (N - 1 = n)%nat) by lia. 
    assert (Rot : forall f f', facet N A f -> ridge_adj N A f f' -> exists h, In h (rotated_of order N A f) /\ simn A h f').
    { intros f f' Ff Ha. refine (g_rotated order N A Ho HA Hlt v_line v_tight _ _ f f' Ff Ha).
      - intros x Fx. rewrite Hnn. apply no_outwards; auto using v_line.
      - intros x Fx H0. replace (N - 2)%nat with (n - 1)%nat by lia. rewrite Hnn in H0. apply no_downwards; auto using v_line. }
    destruct (Hs f0 Hf0) as (If0 & _). assert (Ff0 : facet N A f0) by (apply v_rows in If0; apply v_facet; apply If0). assert (Fg : facet N A g) by (apply v_rows in Hg; apply v_facet; apply Hg).
    destruct (all_connected N A order HA Ho f0 g Ff0 Fg) as (g' & Sg & Hreach).
    assert (Hpath : forall x y, reaches (ridge_adj N A) x y -> forall x1 r, closure nb start r -> orb x1 r -> In x1 FV -> simn A x1 x ->
      exists y1 r', closure nb start r' /\ orb y1 r' /\ In y1 FV /\ simn A y1 y).
    { intros x y. induction 1 as [x|x y z _ IH Hst]; intros x1 r Cr Or Fx Sx; [exists x1, r; auto|].
      destruct (IH x1 r Cr Or Fx Sx) as (y1 & r1 & Cr1 & Or1 & Fy & Sy). clear x1 r Cr Or Fx Sx IH.
      assert (Fz : facet N A z) by apply Hst. destruct (all_rows_complete order Ho N A HA z Fz) as (z1 & Hz1 & Ez). assert (Fz1 : facet N A z1) by (apply v_rows in Hz1; apply v_facet; apply Hz1). apply sim_equiv in Ez; [|destruct Fz, Fz1; congruence].
      assert (Fy1 : facet N A y1) by (apply v_rows in Fy; apply v_facet; apply Fy).
      assert (St : ridge_adj N A y1 z1) by (apply (ridge_adj_sim N A y y1 z z1); auto; [apply Fy1|apply Fz1|apply sim_sym; auto|apply sim_sym; auto]).
      destruct (v_adj y1 r1 z1 Fy Hz1 Or1 St) as (w & Ow & Sw). assert (Gr1 := v_closure start Hs r1 Cr1). assert (Fr1 : facet N A r1) by (destruct Gr1 as (Q & _); apply v_rows in Q; apply v_facet; apply Q).
      assert (Iw := v_orbit z1 w Hz1 Ow). destruct (Rot r1 w Fr1 Sw) as (g1 & Hg1 & Sg1).
      destruct (Hok r1 Cr1) as (l & El). destruct (v_processed r1 l Gr1 El) as (P1 & P2).
      assert (g1 = w).
      { apply (nform_unique N A); auto; [|apply (all_rows_iff order N A Ho HA); auto]. apply (rotated_nform N A order HA Ho r1); auto. apply (proj1 (all_rows_iff order N A Ho HA r1) (proj1 Gr1)). }
      subst g1. destruct (P2 w Hg1) as (x2 & Hx & Ox). exists z1, x2. split; [|split; [|split]]; auto.
      - apply (closure_step nb start r1); auto. unfold m_vad_neighbours. cbn in El |- *. rewrite El. auto.
      - apply (orbit_trans EXACT Vertex_tag maps z1 w); auto. }
    destruct (Hpath f0 g' Hreach f0 f0 (closure_start nb start f0 Hf0) (orbit_start EXACT Vertex_tag maps f0) If0 (sim_refl A f0)) as (h & r & Cr & Or & Ih & Sh).
    assert (h = g) as <-.
    { apply (nform_unique N A); auto; [apply (all_rows_iff order N A Ho HA); auto|apply (all_rows_iff order N A Ho HA); auto|]. apply (sim_trans A h g'); auto. }
    exists r. split; auto. apply (largest_orbit EXACT Vertex_tag maps h r r (v_reversible h Ih) Or). apply (v_closure start Hs r Cr).
  Qed.

  (** The end of a run. *)
  Theorem v_run known start added threads ls s : known_rays known -> (0 < threads)%nat ->
    m_vad_start t order fuel A maps known = Ok (Some start) -> m_vad_added t fuel maps known added -> run nb (initial start added threads 0) ls s ->
    NoDup (printed (sh s)) /\ (forall r, In r (printed (sh s)) -> v_good r) /\
    (terminated s -> (forall r, In r (handed (sh s)) -> m_vad_processed t order fuel A maps r) -> no_hidden_edge n (solves A) ->
       forall g, In g FV -> exists r, In r (printed (sh s)) /\ largest g r).
  Proof.
    intros Hk Hth Es Ead Hrun. destruct (v_start known start Hk Es) as (G1 & G0). assert (G2 := v_added known added Hk Ead).
    assert (CG : forall r, closure nb (start ++ added) r -> v_good r) by (apply v_closure; intros r Hr; apply in_app_iff in Hr as [Hr|Hr]; auto).
    assert (Hne : forall r, closure nb (start ++ added) r -> r <> []) by (intros r Hr; apply v_not_empty; auto).
    assert (C := r_contents nb start added threads 0 Hne ls s Hrun).
    split; [apply (c_nodup _ _ _ _ C)|]. split; [intros r Hr; apply CG; apply (c_held _ _ _ _ C); right; right; right; right; auto|].
    intros Hend Hp HE g Hg. assert (Hst : start <> []) by (apply G0; exists g; auto). destruct start as [|f0 start']; [congruence|].
    assert (SC := start_complete nb (f0 :: start') added threads 0 ls s Hne Hth Hrun Hend).
    destruct (v_complete (f0 :: start') f0 g HE G1 (or_introl eq_refl)) as (r & Cr & L); auto. exists r. split; auto.
    rewrite (c_fifo _ _ _ _ C). apply in_app_iff. left. apply SC. auto.
  Qed.
End Rows.
