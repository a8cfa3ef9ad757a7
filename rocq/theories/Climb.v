(** * Climb: from every facet every other facet is reached over ridges. *)
From Coq Require Import List ZArith Arith Lia Bool Permutation Wf_nat.
From Verif Require Import Spec LinAlg ListUtil Cone FmeCore FmePrepare FmeCorrect FmeTheorems Adjacency RotatePure.
Import ListNotations.
Open Scope Z_scope.

(** Reflexive transitive closure, steps at the end. *)
Inductive reaches (step : vec -> vec -> Prop) : vec -> vec -> Prop :=
| reaches_refl f : reaches step f f
| reaches_step f g h : reaches step f g -> step g h -> reaches step f h.
Lemma reaches_trans step f g h : reaches step f g -> reaches step g h -> reaches step f h.
Proof. intros H1 H2. induction H2 as [|g h k _ IH Hs]; auto. eapply reaches_step; [apply IH; auto|exact Hs]. Qed.
Lemma reaches_one (step : vec -> vec -> Prop) f g : step f g -> reaches step f g.
Proof. intros H. eapply reaches_step; [apply reaches_refl|auto]. Qed.
Lemma reaches_mono (s1 s2 : vec -> vec -> Prop) : (forall f g, s1 f g -> s2 f g) -> forall f g, reaches s1 f g -> reaches s2 f g.
Proof. intros H f g. induction 1; [constructor|]. eapply reaches_step; eauto. Qed.
Lemma reaches_rev (s1 s2 : vec -> vec -> Prop) : (forall f g, s1 f g -> s2 g f) -> forall f g, reaches s1 f g -> reaches s2 g f.
Proof.
  intros H f g. induction 1 as [|f g h _ IH Hs]; [constructor|]. eapply reaches_trans; [apply reaches_one; apply H; eauto|auto].
Qed.

Section Climb.
  Variables (n : nat) (V : list vec) (order : list nat -> list nat).
  Hypothesis HV : dims n V.
  Hypothesis Ho : sort_order order.

  Definition reps : list vec := all_rows order n V.
  Lemma reps_facet r : In r reps -> facet n V r.
  Proof. intros H. apply (all_rows_facet order Ho n V HV r H). Qed.
  Lemma reps_complete f : facet n V f -> exists r, In r reps /\ simn V r f.
  Proof.
    intros Hf. destruct (all_rows_complete order Ho n V HV f Hf) as (r & Hr & He). exists r. split; auto.
    apply sim_equiv; auto. destruct (reps_facet r Hr) as (H1 & _). destruct Hf as (H2 & _). congruence.
  Qed.

  (** A ridge on which a given linear function is positive. *)
  Lemma ridge_exists f g y : facet n V f -> valid V g -> length g = n -> respects n V y -> dot f y = 0 -> 0 < dot g y ->
    exists r, In r (all_rows order n (tight V f)) /\ 0 < dot r y.
  Proof.
    intros Hf Hg Hlg Hy Hfy Hgy. assert (HT := dims_tight n V f HV).
    assert (HG : dims n (all_rows order n (tight V f))).
    { apply Forall_forall. intros r Hr. apply (all_rows_facet order Ho n _ HT r Hr). }
    destruct (covers_gen_mod n (tight V f) (all_rows order n (tight V f)) HG) with (a := g) as (k & x & Hk & Hx & E).
    - intros r Hr. destruct (all_rows_facet order Ho n _ HT r Hr) as ((_ & H2 & H3 & _) & _). split; auto.
      destruct (nz_dec (tight V f) r); auto. contradiction.
    - apply all_rows_covers; auto.
    - split; auto. intros v Hv. apply Hg. apply in_tight in Hv. tauto.
    - assert (Hlx := gen_length n _ x HG Hx).
      set (c := vadd (vscale k g) (vscale (-1) x)).
      assert (Hc : forall v, dot c v = k * dot g v - dot x v).
      { intros v. unfold c. rewrite dot_vadd_l, !dot_vscale_l by (rewrite !vscale_length; congruence). lia. }
      assert (Hlc : length c = n) by (unfold c; apply vadd_length_eq; rewrite vscale_length; auto).
      destruct (facet_form n V f c Hf Hlc) as (m & s & Hm & Hms).
      { intros v Hv Ev. rewrite Hc, E by (apply in_tight; auto). lia. }
      assert (Q := respects_eq n V y c f Hy Hlc (proj1 Hf) m s Hms). rewrite Hc, Hfy in Q.
      destruct (gen_positive n _ x y HG Hx) as (r & Hr & Hp); [nia|]. exists r. auto.
  Qed.

  Lemma rotate_adj f r : facet n V f -> In r (all_rows order n (tight V f)) ->
    rotates n V f r (rotate V f r) /\ primitive (rotate V f r) /\ ridge_adj n V f (rotate V f r).
  Proof.
    intros Hf Hr. assert (HT := dims_tight n V f HV). destruct (all_rows_facet order Ho n _ HT r Hr) as (Hrf & _).
    assert (Hrf' := Hrf). destruct Hrf' as (H1 & H2 & H3 & _).
    destruct (rotate_ok n V f HV (proj1 Hf) (proj1 (proj2 Hf)) r H1 H2) as (HR & HP).
    - destruct (nz_dec (tight V f) r); auto. contradiction.
    - apply (facet_neg n); auto.
    - split; auto. split; auto. apply (rotates_adj n V HV f r); auto.
  Qed.

  Lemma neighbour_exists f g y : facet n V f -> valid V g -> length g = n -> respects n V y -> dot f y = 0 -> 0 < dot g y ->
    exists f', ridge_adj n V f f' /\ 0 < dot f' y.
  Proof.
    intros Hf Hg Hlg Hy Hfy Hgy. destruct (ridge_exists f g y) as (r & Hr & Hp); auto.
    destruct (rotate_adj f r Hf Hr) as ((_ & _ & (k & al & be & Hk & Hal & H) & _) & _ & Ha).
    exists (rotate V f r). split; auto. specialize (H y (proj1 Hy)). rewrite Hfy in H. nia.
  Qed.

  (** ** Climbing along a linear objective *)
  Definition psi (a : vec) : Z := - dot a (vsum n V).
  Lemma psi_pos f : facet n V f -> 0 < psi f.
  Proof.
    intros Hf. unfold psi. rewrite dot_vsum by auto. destruct (sum_nonpos V f (proj1 (proj2 Hf))) as (H1 & H2).
    destruct (facet_neg n V f Hf) as (v & Hv & Hn).
    destruct (Z.eq_dec (fold_right Z.add 0 (map (dot f) V)) 0) as [E|E]; [|lia]. specialize (H2 E v Hv). lia.
  Qed.

  Section Objective.
    Variable y0 : vec.
    Hypothesis Hy0 : respects n V y0.
    Definition phi (a : vec) : Z := dot a y0.
    Definition better (f g : vec) : Prop := phi f * psi g < psi f * phi g.

    Lemma better_dec f g : {better f g} + {~ better f g}.
    Proof. unfold better. apply Z_lt_dec. Qed.

    Lemma sim_value f g : facet n V f -> facet n V g -> simn V f g ->
      exists k t, 0 < k /\ 0 < t /\ k * phi f = t * phi g /\ k * psi f = t * psi g.
    Proof.
      intros Hf Hg (k & t & Hk & Ht & H). exists k, t. split; auto. split; auto. split.
      - apply (respects_eq n V y0 f g Hy0 (proj1 Hf) (proj1 Hg) k t H).
      - assert (Q := respects_eq n V (vsum n V) f g (respects_sum n V HV V (incl_refl V)) (proj1 Hf) (proj1 Hg) k t H). unfold psi. lia.
    Qed.
    Lemma better_sim_r f g h : facet n V g -> facet n V h -> simn V g h -> better f g -> better f h.
    Proof.
      intros Hg Hh Hs. destruct (sim_value g h Hg Hh Hs) as (k & t & Hk & Ht & E1 & E2). unfold better. intros H.
      assert (H' : phi f * (t * psi h) < psi f * (t * phi h)); [|nia]. rewrite <- E1, <- E2. nia.
    Qed.
    Lemma better_trans f g h : facet n V f -> facet n V g -> facet n V h -> better f g -> better g h -> better f h.
    Proof.
      intros Hf Hg Hh. assert (P1 := psi_pos f Hf). assert (P2 := psi_pos g Hg). assert (P3 := psi_pos h Hh). unfold better.
      set (a := phi f) in *. set (b := phi g) in *. set (c := phi h) in *. set (p := psi f) in *. set (q := psi g) in *. set (r := psi h) in *.
      intros H1 H2. assert (a * q * r < p * b * r) by nia. assert (p * (b * r) < p * (q * c)) by nia. nia.
    Qed.
    Lemma better_irrefl f : ~ better f f.
    Proof. unfold better. lia. Qed.

    Lemma climb_step f g : facet n V f -> facet n V g -> better f g -> exists f', ridge_adj n V f f' /\ better f f'.
    Proof.
      intros Hf Hg Hb. set (y := vadd (vscale (psi f) y0) (vscale (phi f) (vsum n V))).
      assert (Rs := respects_sum n V HV V (incl_refl V)).
      assert (Hy : respects n V y) by (apply respects_comb; auto).
      assert (Ey : forall a, dot a y = psi f * phi a - phi f * psi a).
      { intros a. unfold y. rewrite dot_vadd_r, !dot_vscale_r by (rewrite !vscale_length; rewrite (proj1 Hy0), (proj1 Rs); auto).
        unfold psi, phi. lia. }
      destruct (neighbour_exists f g y) as (f' & Ha & Hp); auto; try apply Hg.
      - rewrite Ey. lia.
      - rewrite Ey. unfold better in Hb. lia.
      - exists f'. split; auto. rewrite Ey in Hp. unfold better. lia.
    Qed.

    Definition rank (f : vec) : nat := length (filter (fun r => if better_dec f r then true else false) reps).
    Lemma rank_lt f g : facet n V f -> facet n V g -> better f g -> (rank g < rank f)%nat.
    Proof.
      intros Hf Hg Hb. destruct (reps_complete g Hg) as (r & Hr & Hs). assert (Hrf := reps_facet r Hr).
      unfold rank. apply (filter_length_lt _ _ reps r); auto.
      - intros a Ha. destruct (better_dec g a) as [H|]; [|discriminate]. intros _. destruct (better_dec f a) as [|H']; auto.
        exfalso. apply H'. apply (better_trans f g a); auto using reps_facet.
      - destruct (better_dec g r) as [H|]; auto. exfalso. apply (better_irrefl g). apply (better_sim_r g r g); auto.
      - destruct (better_dec f r) as [|H]; auto. exfalso. apply H. apply (better_sim_r f g r); auto. apply sim_sym; auto.
    Qed.
    Lemma better_exists f : (exists g, facet n V g /\ better f g) \/ forall g, facet n V g -> ~ better f g.
    Proof.
      destruct (existsb (fun r => if better_dec f r then true else false) reps) eqn:E.
      - apply existsb_exists in E. destruct E as (r & Hr & E). destruct (better_dec f r); [|discriminate]. left. exists r. split; auto.
        apply reps_facet; auto.
      - right. intros g Hg Hb. destruct (reps_complete g Hg) as (r & Hr & Hs).
        assert (H : existsb (fun r => if better_dec f r then true else false) reps = true); [|congruence].
        apply existsb_exists. exists r. split; auto. destruct (better_dec f r) as [|H]; auto. exfalso. apply H.
        apply (better_sim_r f g r); auto using reps_facet, sim_sym.
    Qed.

    (** Facets satisfying [Q], which is inherited upwards. *)
    Lemma climb (Q : vec -> Prop) : (forall f g, facet n V f -> facet n V g -> Q f -> better f g -> Q g) ->
      forall f, facet n V f -> Q f ->
      exists h, facet n V h /\ Q h /\ reaches (fun a b => ridge_adj n V a b /\ Q a /\ Q b) f h /\ forall g, facet n V g -> ~ better h g.
    Proof.
      intros HQ f. induction f as [f IH] using (induction_ltof1 _ rank). unfold ltof in IH. intros Hf Qf.
      destruct (better_exists f) as [(g & Hg & Hb)|Hmax].
      - destruct (climb_step f g Hf Hg Hb) as (f' & Ha & Hb'). assert (Hf' : facet n V f') by apply Ha.
        assert (Q' : Q f') by (apply (HQ f f'); auto).
        destruct (IH f' (rank_lt f f' Hf Hf' Hb') Hf' Q') as (h & Hh & Qh & Hr & Hm). exists h. split; auto. split; auto. split; auto.
        eapply reaches_trans; [apply reaches_one|exact Hr]. auto.
      - exists f. split; auto. split; auto. split; auto. constructor.
    Qed.
  End Objective.

  (** The tight generators of [g], as an objective, single out [g]. *)
  Lemma tight_objective g a : facet n V g -> facet n V a -> phi (vsum n (tight V g)) a <= 0 /\
    (phi (vsum n (tight V g)) a = 0 -> simn V a g).
  Proof.
    intros Hg Ha. unfold phi. rewrite dot_vsum by (apply dims_tight; auto).
    destruct (sum_nonpos (tight V g) a) as (H1 & H2); [intros v Hv; apply in_tight in Hv; apply Ha; tauto|].
    split; auto. intros E. apply sim_sym. apply (facet_tight_incl n V g a); auto. intros v Hv E0. apply H2; auto. apply in_tight; auto.
  Qed.
  Lemma tight_objective_self g : phi (vsum n (tight V g)) g = 0.
  Proof.
    unfold phi. rewrite dot_vsum by (apply dims_tight; auto).
    assert (H : forall v, In v (tight V g) -> dot g v = 0) by (intros v Hv; apply in_tight in Hv; tauto).
    induction (tight V g) as [|v l IH]; cbn [map fold_right]; auto. rewrite (H v) by (left; auto). rewrite IH; [lia|].
    intros u Hu. apply H. right; auto.
  Qed.

  (** Without further restrictions every facet is reached. *)
  Lemma all_connected f g : facet n V f -> facet n V g -> exists h, simn V h g /\ reaches (ridge_adj n V) f h.
  Proof.
    intros Hf Hg. assert (Hr := respects_sum n V HV (tight V g) (tight_incl V g)).
    destruct (climb (vsum n (tight V g)) Hr (fun _ => True)) with (f := f) as (h & Hh & _ & Hreach & Hm); auto.
    exists h. split.
    - destruct (tight_objective g h Hg Hh) as (H1 & H2). apply H2. assert (E := tight_objective_self g).
      specialize (Hm g Hg). unfold better in Hm. rewrite E in Hm. assert (P := psi_pos g Hg). nia.
    - eapply reaches_mono; [|exact Hreach]. intros a b (H & _). exact H.
  Qed.
End Climb.

(** ** Homogenised generators *)
Section Homogenised.
  Variables (n : nat) (V : list vec) (order : list nat -> list nat).
  Hypothesis HV : dims n V.
  Hypothesis Ho : sort_order order.
  Hypothesis Hh : homogenised n V.

  Let e := unit_vec n (n - 1) (-1).
  Lemma e_length : length e = n.
  Proof. apply unit_vec_length. Qed.
  Lemma e_dot v : In v V -> dot e v = - nth (n - 1) v 0.
  Proof. intros Hv. destruct (homogenised_pos n V HV Hh) as (Hn & _). apply unit_dot; [lia|eapply dims_in; eauto]. Qed.
  Lemma e_valid : valid V e.
  Proof. intros v Hv. rewrite e_dot by auto. destruct Hh as (H & _). specialize (H v Hv). lia. Qed.

  Definition rays : list vec := filter (fun v => nth (n - 1) v 0 =? 0) V.
  Lemma in_rays v : In v rays <-> In v V /\ dot e v = 0.
  Proof.
    unfold rays. rewrite filter_In, Z.eqb_eq. split; intros (H1 & H2); split; auto; rewrite e_dot in * by auto; lia.
  Qed.
  Lemma rays_incl : incl rays V.
  Proof. intros v Hv. apply in_rays in Hv. tauto. Qed.

  (** Crossing a ridge that is dropped as trivial. *)
  Lemma trivial_ridge f f' : ridge_adj n V f f' -> simn (tight V f) f' e ->
    exists k t s, 0 < k /\ 0 < t /\ 0 <= s /\ forall v, In v V -> t * dot e v = k * dot f' v + s * dot f v.
  Proof.
    intros Ha (k & t & Hk & Ht & H). assert (D := ridge_adj_differ n V f f' Ha). destruct Ha as (Hf & Hf' & _).
    destruct (facet_witness n V f f' Hf Hf' D) as (w & Hw & W1 & W2).
    set (c := vadd (vscale k f') (vscale (- t) e)).
    assert (Hc : forall v, dot c v = k * dot f' v - t * dot e v).
    { intros v. unfold c. rewrite dot_vadd_l, !dot_vscale_l by (rewrite !vscale_length, e_length; destruct Hf'; auto). lia. }
    destruct (facet_form n V f c Hf) as (m & s & Hm & Hms).
    { unfold c. apply vadd_length_eq; rewrite vscale_length; [apply Hf'|apply e_length]. }
    { intros v Hv E. rewrite Hc, H by (apply in_tight; auto). lia. }
    assert (Hs : s <= 0).
    { assert (Q := Hms w Hw). rewrite Hc, W1 in Q. assert (Ew := e_valid w Hw). nia. }
    exists (m * k), (m * t), (- s). split; [nia|]. split; [nia|]. split; [lia|]. intros v Hv. specialize (Hms v Hv). rewrite Hc in Hms. lia.
  Qed.
  Lemma trivial_vanishes f f' : ridge_adj n V f f' -> ~ simn V f' e -> simn (tight V f) f' e ->
    vanishes rays f /\ vanishes rays f'.
  Proof.
    intros Ha Hne Ht. destruct (trivial_ridge f f' Ha Ht) as (k & t & s & Hk & Htt & Hs & H). destruct Ha as (Hf & Hf' & _).
    assert (Hspos : 0 < s).
    { destruct (Z.eq_dec s 0) as [->|]; [|lia]. exfalso. apply Hne. exists k, t. split; auto. split; auto. intros v Hv.
      specialize (H v Hv). lia. }
    split; intros v Hv; apply in_rays in Hv; destruct Hv as (Hv & E); specialize (H v Hv);
      destruct Hf as (_ & V1 & _), Hf' as (_ & V2 & _); specialize (V1 v Hv); specialize (V2 v Hv); nia.
  Qed.

  Definition nstep (f f' : vec) : Prop := ridge_adj n V f f' /\ ~ simn (tight V f) f' e.
  Lemma nstep_sim f f1 f' f1' : length f1 = n -> length f1' = n -> simn V f f1 -> simn V f' f1' -> nstep f f' -> nstep f1 f1'.
  Proof.
    intros H1 H2 S1 S2 (Ha & Hn). split; [apply (ridge_adj_sim n V f f1 f' f1'); auto|]. intros Hs. apply Hn.
    rewrite (sim_tight V f f1 S1). apply (sim_trans _ _ f1'); auto. apply (sim_incl V); auto. apply tight_incl.
  Qed.
  Lemma reaches_sim f f1 g : facet n V f -> length f1 = n -> simn V f f1 -> reaches nstep f g -> exists g1, facet n V g1 /\ simn V g g1 /\ reaches nstep f1 g1.
  Proof.
    intros Hf H1 S1. induction 1 as [|f g h Hr IH Hs].
    - exists f1. split; [apply (facet_sim n V f); auto|]. split; auto. constructor.
    - destruct (IH Hf S1) as (g1 & Hg1 & Sg & R). assert (Hh' : facet n V h) by apply Hs. exists h. split; auto. split; [apply sim_refl|].
      eapply reaches_step; [exact R|]. apply (nstep_sim g g1 h h); auto; [apply Hg1|apply Hh'|apply sim_refl].
  Qed.

  Definition phi1 (a : vec) : Z := phi (vscale (-1) (vsum n rays)) a.
  Lemma phi1_spec a : phi1 a = - fold_right Z.add 0 (map (dot a) rays).
  Proof.
    unfold phi1, phi. rewrite dot_vscale_r, dot_vsum; [lia|]. apply (dims_incl n _ V); auto. apply rays_incl.
  Qed.
  Lemma phi1_nonneg a : valid V a -> 0 <= phi1 a.
  Proof. intros H. rewrite phi1_spec. destruct (sum_nonpos rays a) as (H1 & _); [intros v Hv; apply H; apply rays_incl; auto|]. lia. Qed.
  Lemma phi1_zero a : valid V a -> phi1 a = 0 -> vanishes rays a.
  Proof.
    intros H E. rewrite phi1_spec in E. destruct (sum_nonpos rays a) as (_ & H2); [intros v Hv; apply H; apply rays_incl; auto|].
    intros v Hv. apply H2; auto. lia.
  Qed.
  Lemma phi1_vanishes a : vanishes rays a -> phi1 a = 0.
  Proof.
    intros H. rewrite phi1_spec. assert (E : fold_right Z.add 0 (map (dot a) rays) = 0); [|lia].
    induction rays as [|v l IH]; cbn [map fold_right]; auto. rewrite (H v) by (left; auto). rewrite IH; [lia|]. intros u Hu. apply H. right; auto.
  Qed.
  Lemma respects_rays : respects n V (vscale (-1) (vsum n rays)).
  Proof.
    destruct (respects_sum n V HV rays rays_incl) as (H1 & H2). split; [rewrite vscale_length; auto|]. intros a Ha Hv.
    rewrite dot_vscale_r, H2 by auto. lia.
  Qed.

  Lemma phi1_nontrivial f : 0 < phi1 f -> ~ simn V f e.
  Proof.
    intros Hp Hs. assert (phi1 f = 0); [|lia]. apply phi1_vanishes. intros v Hv. apply in_rays in Hv. destruct Hv as (Hv & E).
    apply (sim_zero V f e v Hs Hv). auto.
  Qed.
  Lemma nstep_phi1 f f' : ridge_adj n V f f' -> 0 < phi1 f \/ 0 < phi1 f' -> ~ simn V f' e -> nstep f f'.
  Proof.
    intros Ha Hp Hne. split; auto. intros Ht. destruct (trivial_vanishes f f' Ha Hne Ht) as (H1 & H2).
    apply phi1_vanishes in H1, H2. lia.
  Qed.

  Definition nfacet (f : vec) : Prop := facet n V f /\ ~ simn V f e.

  (** *** Some facet does not contain all rays *)
  Section WithRays.
    Variable b : vec.
    Hypothesis Hb : facet n V b.
    Hypothesis Hb1 : 0 < phi1 b.

    Lemma top_exists : exists g, facet n V g /\ 0 < phi1 g /\ forall a, facet n V a -> ~ better n V (vscale (-1) (vsum n rays)) g a.
    Proof.
      destruct (climb n V order HV Ho (vscale (-1) (vsum n rays)) respects_rays (fun a => 0 < phi1 a)) with (f := b) as (h & Hh' & Qh & _ & Hm); auto.
      - intros f g Hf Hg Hq H. unfold better in H. fold (phi1 f) in H. fold (phi1 g) in H. assert (P := psi_pos n V HV f Hf).
        assert (P2 := psi_pos n V HV g Hg). nia.
      - exists h. auto.
    Qed.

    Section Top.
      Variable g : vec.
      Hypothesis Hg : facet n V g.
      Hypothesis Hg1 : 0 < phi1 g.
      Hypothesis Hgm : forall a, facet n V a -> ~ better n V (vscale (-1) (vsum n rays)) g a.

      Definition phi2 (a : vec) : Z := phi (vsum n (tight V g)) a.
      Definition big : Z := 1 + fold_right Z.add 0 (map (fun a => Z.abs (phi2 a)) (reps n V order)).
      Lemma big_spec a : In a (reps n V order) -> Z.abs (phi2 a) < big.
      Proof.
        unfold big. assert (G : forall l, (In a l -> Z.abs (phi2 a) < 1 + fold_right Z.add 0 (map (fun a => Z.abs (phi2 a)) l)) /\
          0 <= fold_right Z.add 0 (map (fun a => Z.abs (phi2 a)) l)); [|apply G].
        induction l as [|x l (IH1 & IH2)]; cbn [map fold_right In]; [split; [tauto|lia]|]. split; [|lia].
        intros [->|Hin]; [lia|]. specialize (IH1 Hin). lia.
      Qed.
      Lemma big_pos : 0 < big.
      Proof. unfold big. induction (reps n V order) as [|x l IH]; cbn [map fold_right]; lia. Qed.

      Definition obj : vec := vadd (vscale big (vscale (-1) (vsum n rays))) (vscale 1 (vsum n (tight V g))).
      Lemma obj_respects : respects n V obj.
      Proof. apply respects_comb; [apply respects_rays|]. apply respects_sum; auto. apply tight_incl. Qed.
      Lemma obj_value a : phi obj a = big * phi1 a + phi2 a.
      Proof.
        unfold phi1, phi2, phi, obj.
        assert (L1 := proj1 respects_rays). assert (L2 := proj1 (respects_sum n V HV (tight V g) (tight_incl V g))).
        rewrite dot_vadd_r, !(dot_vscale_r _ _ (vscale _ _)), !dot_vscale_r by (rewrite !vscale_length in *; congruence). lia.
      Qed.

      Lemma obj_pos f : facet n V f -> 0 < phi1 f -> 0 < phi obj f.
      Proof.
        intros Hf Hp. destruct (reps_complete n V order HV Ho f Hf) as (r & Hr & Hs). assert (Hrf := reps_facet n V order HV Ho r Hr).
        destruct Hs as (k & t & Hk & Ht & H).
        assert (E1 := respects_eq n V _ r f respects_rays (proj1 Hrf) (proj1 Hf) k t H).
        assert (E2 := respects_eq n V _ r f (respects_sum n V HV _ (tight_incl V g)) (proj1 Hrf) (proj1 Hf) k t H).
        change (k * phi1 r = t * phi1 f) in E1. change (k * phi2 r = t * phi2 f) in E2.
        assert (B := big_spec r Hr). assert (BP := big_pos). rewrite obj_value.
        assert (1 <= phi1 r) by nia. assert (0 < big * phi1 r + phi2 r) by nia.
        assert (0 < k * (big * phi1 r + phi2 r)) by nia.
        assert (E3 : k * (big * phi1 r + phi2 r) = t * (big * phi1 f + phi2 f)).
        { replace (k * (big * phi1 r + phi2 r)) with (big * (k * phi1 r) + k * phi2 r) by ring. rewrite E1, E2. ring. }
        nia.
      Qed.

      Lemma Q_up f f' : facet n V f -> facet n V f' -> 0 < phi1 f -> better n V obj f f' -> 0 < phi1 f'.
      Proof.
        intros Hf Hf' Hp H. unfold better in H. assert (P := obj_pos f Hf Hp). assert (P1 := psi_pos n V HV f Hf). assert (P2 := psi_pos n V HV f' Hf').
        assert (Hpos : 0 < phi obj f') by nia. rewrite obj_value in Hpos. destruct (tight_objective n V HV g f' Hg Hf') as (H2 & _).
        fold (phi2 f') in H2. assert (BP := big_pos). assert (N := phi1_nonneg f' (proj1 (proj2 Hf'))). nia.
      Qed.

      Lemma top_unique f : facet n V f -> (forall a, facet n V a -> ~ better n V obj f a) -> simn V f g.
      Proof.
        intros Hf Hm. specialize (Hm g Hg). unfold better in Hm. rewrite !obj_value in Hm.
        assert (E := tight_objective_self n V HV g). change (phi2 g = 0) in E. rewrite E in Hm.
        destruct (tight_objective n V HV g f Hg Hf) as (H1 & H2). change (phi2 f <= 0) in H1. change (phi2 f = 0 -> simn V f g) in H2.
        apply H2. assert (T := Hgm f Hf). unfold better in T. fold (phi1 f) in T. fold (phi1 g) in T.
        assert (P1 := psi_pos n V HV f Hf). assert (P2 := psi_pos n V HV g Hg). assert (BP := big_pos).
        assert (big * (psi n V g * phi1 f) <= big * (phi1 g * psi n V f)) by nia. nia.
      Qed.

      Lemma to_top f : nfacet f -> exists h, simn V h g /\ facet n V h /\ reaches nstep f h /\ reaches nstep h f.
      Proof.
        intros (Hf & Hne).
        assert (Up : forall f, facet n V f -> 0 < phi1 f -> exists h, simn V h g /\ facet n V h /\ reaches nstep f h /\ reaches nstep h f).
        { intros f0 Hf0 Hp. destruct (climb n V order HV Ho obj obj_respects (fun a => 0 < phi1 a)) with (f := f0) as (h & Hh' & Qh & Hr & Hm); auto.
          - intros a a' Ha Ha' Hq H. apply (Q_up a a'); auto.
          - exists h. split; [apply top_unique; auto|]. split; auto. split.
            + eapply reaches_mono; [|exact Hr]. cbn beta. intros a a' (H1 & H2 & H3). apply nstep_phi1; auto. apply phi1_nontrivial; auto.
            + eapply reaches_rev; [|exact Hr]. cbn beta. intros a a' (H1 & H2 & H3). apply nstep_phi1; auto.
              * apply ridge_adj_sym; auto.
              * apply phi1_nontrivial; auto. }
        destruct (Z_lt_ge_dec 0 (phi1 f)) as [Hp|Hp]; [apply Up; auto|].
        assert (E : phi1 f = 0) by (assert (N := phi1_nonneg f (proj1 (proj2 Hf))); lia).
        destruct (climb_step n V order HV Ho _ respects_rays f g Hf Hg) as (f' & Ha & Hb').
        { unfold better. fold (phi1 f). fold (phi1 g). rewrite E. assert (P1 := psi_pos n V HV f Hf). nia. }
        assert (Hf' : facet n V f') by apply Ha.
        assert (Hp' : 0 < phi1 f').
        { unfold better in Hb'. fold (phi1 f) in Hb'. fold (phi1 f') in Hb'. rewrite E in Hb'. assert (P1 := psi_pos n V HV f Hf). nia. }
        destruct (Up f' Hf' Hp') as (h & Sh & Fh & R1 & R2). exists h. split; auto. split; auto. split.
        - eapply reaches_trans; [apply reaches_one|exact R1]. apply nstep_phi1; auto. apply phi1_nontrivial; auto.
        - eapply reaches_step; [exact R2|]. apply nstep_phi1; auto. apply ridge_adj_sym; auto.
      Qed.
    End Top.

    Lemma connected_rays f g : nfacet f -> nfacet g -> exists g', simn V g g' /\ facet n V g' /\ reaches nstep f g'.
    Proof.
      intros Hf Hg. destruct top_exists as (top & Ht & Htp & Htm).
      destruct (to_top top Ht Htp Htm f Hf) as (h & Sh & Fh & R1 & _).
      destruct (to_top top Ht Htp Htm g Hg) as (h' & Sh' & Fh' & _ & R2).
      destruct (reaches_sim h' h g Fh' (proj1 Fh)) as (g' & Fg' & Sg & R3); auto.
      { apply (sim_trans V h' top h); auto. apply sim_sym; auto. }
      exists g'. split; auto. split; auto. eapply reaches_trans; eauto.
    Qed.
  End WithRays.

  (** *** All facets contain all rays *)
  Lemma two_facets f f' g : ridge_adj n V f f' -> simn (tight V f) f' e -> facet n V g -> vanishes rays g ->
    simn V g f \/ simn V g f'.
  Proof.
    intros Ha Ht Hg Hz. assert (Hr := Ha). destruct (trivial_ridge f f' Ha Ht) as (k0 & t0 & s0 & Hk0 & Ht0 & Hs0 & H0).
    assert (D := ridge_adj_differ n V f f' Ha). assert (Ha' := ridge_adj_sym n V f f' Ha). assert (D' := ridge_adj_differ n V f' f Ha').
    destruct Ha as (Hf & Hf' & Hrf).
    destruct (facet_witness n V f f' Hf Hf' D) as (w & Hw & W1 & W2).
    destruct (facet_witness n V f' f Hf' Hf D') as (w' & Hw' & W1' & W2').
    destruct (facet_form n _ f' g Hrf (proj1 Hg)) as (k & c & Hk & Hc).
    { intros v Hv E. apply in_tight in Hv. destruct Hv as (Hv & Ef). apply Hz. apply in_rays. split; auto.
      specialize (H0 v Hv). rewrite E, Ef in H0. nia. }
    set (d := vadd (vscale k g) (vscale (- c) f')).
    assert (Hd : forall v, dot d v = k * dot g v - c * dot f' v).
    { intros v. unfold d. rewrite dot_vadd_l, !dot_vscale_l by (rewrite !vscale_length; destruct Hg, Hf'; congruence). lia. }
    destruct (facet_form n V f d Hf) as (m & s & Hm & Hms).
    { unfold d. apply vadd_length_eq; rewrite vscale_length; [apply Hg|apply Hf']. }
    { intros v Hv E. rewrite Hd, Hc by (apply in_tight; auto). lia. }
    assert (Hall : forall v, In v V -> (m * k) * dot g v = (m * c) * dot f' v + s * dot f v).
    { intros v Hv. specialize (Hms v Hv). rewrite Hd in Hms. lia. }
    assert (V0 := proj1 (proj2 Hg)). assert (V1 := proj1 (proj2 Hf)). assert (V2 := proj1 (proj2 Hf')).
    assert (Hs : 0 <= s).
    { assert (Q := Hall w Hw). rewrite W1 in Q. specialize (V0 w Hw). assert (0 < m * k) by nia.
      assert (m * k * dot g w <= 0) by nia. nia. }
    assert (Hc0 : 0 <= m * c).
    { assert (Q := Hall w' Hw'). rewrite W1' in Q. specialize (V0 w' Hw'). assert (0 < m * k) by nia.
      assert (m * k * dot g w' <= 0) by nia. nia. }
    destruct (Z.eq_dec s 0) as [E|E].
    - right. apply (facet_tight_incl n V g f'); auto. intros v Hv Ev. specialize (Hall v Hv). rewrite E, Ev in Hall.
      destruct (Z.eq_dec (m * c) 0) as [E2|E2]; [|nia]. exfalso.
      destruct (facet_neg n V g Hg) as (u & Hu & Hneg). assert (m * k * dot g u = 0); [|nia].
      assert (Hms' := Hms u Hu). assert (c = 0) as -> by nia. rewrite Hd, E in Hms'. lia.
    - left. apply (facet_tight_incl n V g f); auto. intros v Hv Ev. specialize (Hall v Hv). rewrite Ev in Hall.
      specialize (V1 v Hv). specialize (V2 v Hv). nia.
  Qed.

  (** Every facet is reached from every other one without crossing dropped ridges. *)
  Theorem connected f g a b c : nfacet f -> nfacet g -> facet n V a -> facet n V b -> facet n V c ->
    ~ simn V a b -> ~ simn V a c -> ~ simn V b c -> exists g', simn V g g' /\ facet n V g' /\ reaches nstep f g'.
  Proof.
    intros Hf Hg Fa Fb Fc Dab Dac Dbc.
    destruct (existsb (fun r => 0 <? phi1 r) (reps n V order)) eqn:Ex.
    { apply existsb_exists in Ex. destruct Ex as (r & Hr & Er). apply Z.ltb_lt in Er.
      apply (connected_rays r); auto. apply (reps_facet n V order); auto. }
    assert (All : forall u, facet n V u -> vanishes rays u).
    { intros u Hu. destruct (reps_complete n V order HV Ho u Hu) as (r & Hr & Hs). apply phi1_zero; [apply Hu|].
      assert (Hrf := reps_facet n V order HV Ho r Hr).
      assert (phi1 r = 0).
      { assert (N := phi1_nonneg r (proj1 (proj2 Hrf))). destruct (Z.eq_dec (phi1 r) 0) as [|Hne]; auto.
        assert (existsb (fun r => 0 <? phi1 r) (reps n V order) = true); [|congruence].
        apply existsb_exists. exists r. split; auto. apply Z.ltb_lt. lia. }
      destruct Hs as (k & t & Hk & Ht & H9).
      assert (E1 := respects_eq n V _ r u respects_rays (proj1 Hrf) (proj1 Hu) k t H9).
      change (k * phi1 r = t * phi1 u) in E1. nia. }
    destruct (all_connected n V order HV Ho f g (proj1 Hf) (proj1 Hg)) as (g' & Sg & R).
    assert (Fg' : facet n V g').
    { clear - R Hf. induction R as [|? ? ? R IH Hs]; [apply Hf|]. apply Hs. }
    exists g'. split; [apply sim_sym; auto|]. split; auto.
    eapply reaches_mono; [|exact R]. intros x x' Hx. split; auto. intros Ht.
    assert (T : forall u, facet n V u -> simn V u x \/ simn V u x').
    { intros u Hu. apply (two_facets x x' u); auto. }
    destruct (T a Fa) as [A|A], (T b Fb) as [B|B], (T c Fc) as [C|C];
      first [apply Dab; eapply sim_trans; [exact A|apply sim_sym; exact B]
            |apply Dac; eapply sim_trans; [exact A|apply sim_sym; exact C]
            |apply Dbc; eapply sim_trans; [exact B|apply sim_sym; exact C]].
  Qed.
End Homogenised.
