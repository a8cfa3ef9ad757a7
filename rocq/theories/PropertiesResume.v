(** * PropertiesResume: what adjacency decomposition has printed before it was interrupted can be used as known data of another run (C66). *)
From Coq Require Import List ZArith QArith Arith Bool Ascii String Lia Permutation.
From Verif Require Import Base Spec LinAlg ListUtil ArithModel MatrixModel FmeModel SafeIntModel IntTypes StreamModel StreamProofs IntLcm ClassesModel ValidityModel SortModel SortProofs CliModel InputModel InputProofs VertexInput ConstraintModel
  ConstraintInput ConstraintSection PropertiesVertices PropertiesConstraints MapInput MapModel OutputModel OutputProofs PropertiesOutput FileModel FileProofs FileInput PropertiesCli PropertiesProgram SystemFile KnownFile
  RotationModel ListModel ListProofs ListTheorems AdModel AdTheorems AdRun PropertiesAd PropertiesRotation FmeCore FmeCorrect FmeTheorems NormalForm NormTheorems RotationTheorems PropertiesNormalize PropertiesFme Adjacency RotatePure Climb Hull FmePrepare
  Samples PropertiesFile PropertiesSystem PropertiesMapFile PropertiesRoundTrip MainModel ListExec PropertiesMain PropertiesMainAd PropertiesKnown.
Import ListNotations.
Open Scope nat_scope.
Open Scope list_scope.

(** ** Specification *)
(** What is on standard output at some moment of a run (method_adjacency_decomposition_implementation.cpp 50-168, list.cpp 60-80): as [m_ad_run] (AdModel.v), but the run may be at any moment,
    and rows whose processing fails may have been taken.  Only whole lines are considered (see [C66_cut_line_refuted] for what happens otherwise). *)
Definition m_ad_shown (t : int_type) (order : list nat -> list nat) (fuel threads : nat) (vertices : list vec) (names : list text) (maps : list lmap) (known : list vec) (s : state) (out : text) : Prop :=
  exists equations reduced start added ls head lines,
    m_ad_reduce t vertices maps = Ok (equations, reduced) /\
    m_ad_start t order fuel vertices equations reduced known = Ok (Some start) /\
    m_ad_added t fuel equations reduced known added /\
    ListModel.run (m_ad_neighbours t order fuel vertices reduced) (initial start added threads 0) ls s /\
    m_ad_equations t names equations = say head /\ m_pretty_matrix t names "<=" (printed (sh s)) = say lines /\
    out = head ++ m_reduced (nonempty reduced) ++ lit "Inequalities:" ++ end_line ++ lines.
(** There are only points, no rays. *)
Definition no_rays (n : nat) (V : list vec) : Prop := forall v, In v V -> (0 < nth n v 0)%Z.

(** ** Rows *)
Lemma trivial_dot n v : length v = S n -> dot (unit_vec (S n) (S n - 1) (-1)) v = (- nth n v 0)%Z.
Proof. intros Hv. rewrite dot_unit by lia. replace (S n - 1) with n by lia. ring. Qed.
(** Without rays no facet is the trivial inequality. *)
Lemma no_rays_nontrivial n (V : list vec) r : dims (S n) V -> homogenised (S n) V -> three_different_facets (S n) V -> no_rays n V -> facet (S n) V r -> ~ simn V r (unit_vec (S n) (S n - 1) (-1)).
Proof.
  intros HV HH (a & b & c & Fa & Fb & _ & Dab & _) HN Fr HS. set (e := unit_vec (S n) (S n - 1) (-1)) in *.
  assert (Le : length e = S n) by (apply unit_vec_length). assert (Lr := proj1 Fr).
  assert (Neg : forall v, In v V -> (dot r v < 0)%Z).
  { intros v Hv. destruct HS as (k & t & Hk & Ht & H). specialize (H v Hv). unfold e in H. rewrite trivial_dot in H by (apply (dims_in (S n) V); auto). specialize (HN v Hv). nia. }
  assert (All : forall x, facet (S n) V x -> simn V x r).
  { intros x Fx. destruct Fx as (Lx & Vx & Nx & _). destruct (proj2 (proj2 (proj2 Fr)) x Lx) as (k & t & Hk & H); [intros v Hv E; specialize (Neg v Hv); lia|].
    assert (HX : forall v, In v V -> (k * dot x v + t * dot r v = 0)%Z) by (intros v Hv; specialize (H v Hv); rewrite dot_vadd_l, !dot_vscale_l in H by (rewrite !vscale_length; lia); auto).
    assert (exists v, In v V /\ dot x v <> 0%Z) as (v & Hv & Hx).
    { destruct (Exists_dec (fun v => dot x v <> 0%Z) V) as [D|D]; [intros v; destruct (Z.eq_dec (dot x v) 0); [right; auto|left; auto]|apply Exists_exists in D; auto|].
      exfalso. apply Nx. intros v Hv. destruct (Z.eq_dec (dot x v) 0); auto. exfalso. apply D. apply Exists_exists. eauto. }
    assert (Hxv := Vx v Hv). assert (Hrv := Neg v Hv). assert (Ev := HX v Hv).
    destruct (Z_lt_le_dec 0 k) as [Kp|Kn].
    - exists k, (- t)%Z. split; auto. split; [nia|]. intros w Hw. specialize (HX w Hw). lia.
    - exists (- k)%Z, t. split; [lia|]. split; [nia|]. intros w Hw. specialize (HX w Hw). lia. }
  apply Dab. apply sim_equiv; [destruct Fa, Fb; congruence|]. apply (sim_trans V _ r); [apply All; auto|]. apply sim_sym. apply All; auto.
Qed.

Section Shown.
  Variables (t : int_type) (order : list nat -> list nat) (n : nat) (V E : list vec) (maps reduced : list lmap) (fuel threads : nat) (known : list vec).
  Hypothesis Ht : t <> INT16.
  Hypothesis Ho : sort_order order.
  Hypothesis HR : rows_representable t V.
  Hypothesis HV : dims (S n) V.
  Hypothesis HH : homogenised (S n) V.
  Hypothesis H3 : three_different_facets (S n) V.
  Hypothesis HE : m_extract_equations (arith t) V = Ok E.
  Hypothesis HA : acting (S n) V reduced.
  Hypothesis Hk : are_facets t (S n) V known.
  Variables (start added : list vec).
  Hypothesis Hstart : m_ad_start t order fuel V E reduced known = Ok (Some start).
  Hypothesis Hadded : m_ad_added t fuel E reduced known added.
  Notation e := (unit_vec (S n) (S n - 1) (-1)).
  Notation nb := (m_ad_neighbours t order fuel V reduced).

  Lemma shown_closure ls s r : ListModel.run nb (initial start added threads 0) ls s -> In r (printed (sh s)) -> closure nb (start ++ added) r.
  Proof.
    intros Hrun Hr. destruct H3 as (a & b & c & Fa & Fb & Fc & Dab & Dac & Dbc).
    assert (Hne : forall x, closure nb (start ++ added) x -> x <> []) by (intros x Hx; apply (good_not_empty t (S n) V reduced HV HH); apply (closure_all_good t order (S n) V E reduced fuel Ht Ho HR HV HH HE HA a b Fa Fb Dab known start added Hk Hstart Hadded x Hx)).
    apply (ListProofs.c_held _ _ _ _ (ListTheorems.r_contents _ start added threads 0 Hne ls s Hrun)). right; right; right; right. auto.
  Qed.
  Lemma shown_once ls s : ListModel.run nb (initial start added threads 0) ls s -> NoDup (printed (sh s)).
  Proof.
    intros Hrun. destruct H3 as (a & b & c & Fa & Fb & Fc & Dab & Dac & Dbc).
    assert (Hne : forall x, closure nb (start ++ added) x -> x <> []) by (intros x Hx; apply (good_not_empty t (S n) V reduced HV HH); apply (closure_all_good t order (S n) V E reduced fuel Ht Ho HR HV HH HE HA a b Fa Fb Dab known start added Hk Hstart Hadded x Hx)).
    apply (ListProofs.c_nodup _ _ _ _ (ListTheorems.r_contents _ start added threads 0 Hne ls s Hrun)).
  Qed.
  Lemma closure_shown r : closure nb (start ++ added) r -> good_row t (S n) V reduced r.
  Proof.
    intros Hr. destruct H3 as (a & b & c & Fa & Fb & Fc & Dab & Dac & Dbc).
    apply (closure_all_good t order (S n) V E reduced fuel Ht Ho HR HV HH HE HA a b Fa Fb Dab known start added Hk Hstart Hadded). auto.
  Qed.
  (** The trivial inequality is not printed if facets are known, or if there are no rays. *)
  Lemma closure_nontrivial : known <> [] \/ no_rays n V -> forall r, closure nb (start ++ added) r -> ~ simn V r e.
  Proof.
    intros [HK|HN] r Hr; [|apply (no_rays_nontrivial n V r HV HH H3 HN); apply (closure_shown r Hr)].
    destruct H3 as (a & b & c & Fa & Fb & Fc & Dab & Dac & Dbc).
    assert (Din : forall x, In x (start ++ added) -> ~ simn V x e).
    { intros x Hx. apply in_app_iff in Hx as [Hx|Hx].
      - assert (Es := Hstart). unfold m_ad_start in Es. destruct known as [|k0 known']; [congruence|].
        destruct (added_good t (S n) V E reduced fuel Ht HR HV HH HE HA [k0] start) as (_ & G); auto; [intros y [<-|[]]; apply Hk; left; auto|]. apply (G x Hx).
      - apply (task_good t (S n) V E reduced fuel Ht HR HV HH HE HA known added Hk Hadded x Hx). }
    induction Hr as [r Hr|r x Hr IH Hx]; auto. unfold m_ad_neighbours in Hx.
    destruct (m_rotation (arith t) order fuel V r reduced Facet_tag) as [[l|]| |] eqn:El; try destruct Hx.
    assert (Gr := closure_shown r Hr).
    destruct (processed_rows t order (S n) V reduced fuel Ht Ho HR HV HA a b Fa Fb Dab r l Gr El) as (P1 & _). destruct (P1 x Hx) as (Gx & g & Hg & L).
    assert (Nr : nfacet (S n) V r) by (split; [apply Gr|auto]). destruct (rotated_nfacet (S n) V order HV Ho HH r g Nr Hg) as (Fg & Dg).
    assert (Ng : nform (S n) V g) by (apply (rotated_nform (S n) V order HV Ho r); auto; apply Gr). apply (largest_nontrivial (S n) V reduced HA g); auto.
  Qed.
  (** All printed rows. *)
  Lemma shown_rows (F : list vec) ls s : m_fme (arith EXACT) order V = Ok F -> known <> [] \/ no_rays n V -> ListModel.run nb (initial start added threads 0) ls s ->
    forall r, In r (printed (sh s)) -> In r F /\ Forall (representable t) r.
  Proof.
    intros HF HK Hrun r Hr. assert (Cr := shown_closure ls s r Hrun Hr). assert (Gr := closure_shown r Cr). assert (Dr := closure_nontrivial HK r Cr). split; [|apply Gr].
    destruct (homogenised_pos (S n) V HV HH) as (_ & _ & Hnz). assert (Hex := RotationTheorems.hom_ex (S n) V HH).
    rewrite (result_fme EXACT order (S n) V ltac:(discriminate) Ho (representable_exact V) HV F Hnz HF). apply (fme_iff (S n) V order HV Ho Hex). split; [apply Gr|]. split; [apply Gr|auto].
  Qed.
End Shown.

(** ** The text *)
Lemma equations_same t n (V E0 E1 : list vec) : t <> INT16 -> rows_representable t V -> dims (S n) V -> homogenised (S n) V -> m_extract_equations (arith EXACT) V = Ok E0 -> m_extract_equations (arith t) V = Ok E1 -> E1 = E0.
Proof.
  intros Ht HR HV HH H0 H1. destruct (homogenised_pos (S n) V HV HH) as (Hn & Hl & _).
  rewrite (result_equations t (S n) V Ht HR HV E1 Hl Hn H1). symmetry. apply (result_equations EXACT (S n) V ltac:(discriminate) (representable_exact V) HV E0 Hl Hn H0).
Qed.
(** At every moment the text that has been printed is: perhaps equations, perhaps the word "Reduced", and a section of inequalities that can be read as known facets: its lines are different facets of the hull. *)
Theorem C66_text : forall t order n (V E F : list vec) names maps known fuel threads s out,
  t <> INT16 -> sort_order order -> rows_representable t V -> dims (S n) V -> homogenised (S n) V -> three_different_facets (S n) V -> symmetries n V maps -> equations_allow t n E maps ->
  are_facets t (S n) V known -> known <> [] \/ no_rays n V -> good_names names -> readable_names names -> (names = [] \/ length names = n) ->
  m_extract_equations (arith EXACT) V = Ok E -> m_fme (arith EXACT) order V = Ok F -> Forall negatable_row F ->
  m_ad_shown t order fuel threads V names maps known s out ->
  exists before lines K,
    out = before ++ (if nonempty maps then lit "Reduced " else []) ++ lit "Inequalities:" ++ newline :: lines /\ (E = [] -> before = []) /\
    known_facets_text names (lit "Inequalities:" ++ newline :: lines) K /\ facets_known n V K /\ NoDup K /\ length K = length (printed (sh s)).
Proof.
  intros t order n V E F names maps known fuel threads s out Ht Ho HR HV HH H3 Hsym Hall Hk HK HN HNr HNl HE HF BF (E' & reduced & start & added & ls & head & lines & K1 & K2 & K3 & K4 & K5 & K6 & ->).
  assert (HEt : m_extract_equations (arith t) V = Ok E').
  { unfold m_ad_reduce in K1. destruct (m_extract_equations (arith t) V) as [E1| |]; cbn [bind] in K1; try discriminate. destruct E1 as [|e0 E1]; [inversion K1; auto|]. destruct (m_normalize_maps t (e0 :: E1) maps); cbn [bind] in K1; try discriminate. inversion K1; auto. }
  assert (E' = E) as -> by (apply (equations_same t n V E E' Ht HR HV HH HE HEt)).
  destruct (reduced_like t n V maps E reduced Ht HR HV HH Hsym Hall K1) as (_ & _ & HL). assert (HA := likes_acting n V maps reduced HV HH HL).
  assert (Rows := shown_rows t order n V E reduced fuel threads known Ht Ho HR HV HH H3 HEt HA Hk start added K2 K3 F ls s HF HK K4).
  destruct (facets_printable EXACT order n V F names ltac:(discriminate) Ho (representable_exact V) HV HH HNl HF BF) as [DF PF]. rewrite Forall_forall in PF. assert (DF' := proj1 (Forall_forall _ _) DF). cbv beta in DF'.
  set (rows := printed (sh s)) in *.
  destruct (matrix_lines t Inequality names n rows HN) as (text & K & M1 & M2 & M3 & M4); auto.
  { apply Forall_forall. intros r Hr. apply PF. apply (Rows r Hr). }
  { apply Forall_forall. intros r Hr. apply DF'. apply (Rows r Hr). }
  change (relation_sign Inequality) with "<="%string in M1. rewrite M1 in K6. assert (text = lines) as -> by (unfold say in K6; congruence).
  exists head, lines, K. split; [|split; [|split; [|split; [|split]]]].
  - do 2 f_equal. destruct HL; reflexivity.
  - intros ->. cbn [m_ad_equations] in K5. unfold say in K5. congruence.
  - assert (X := known_facets_section names (lit "Inequalities:") lines K [] [] None). rewrite !app_nil_r in X. apply X; auto; [apply keyword_itself; vm_compute; tauto|apply follows_end; [constructor|exact I]].
  - intros k Hk0. assert (Hr : In (wide_row k) rows) by (rewrite <- M3; apply in_map; auto). destruct (Rows _ Hr) as (Hf & _).
    destruct (homogenised_pos (S n) V HV HH) as (_ & _ & Hnz). assert (Hex := RotationTheorems.hom_ex (S n) V HH).
    rewrite (result_fme EXACT order (S n) V ltac:(discriminate) Ho (representable_exact V) HV F Hnz HF) in Hf. apply (fme_iff (S n) V order HV Ho Hex) in Hf. destruct Hf as (Ff & _ & Df).
    split; auto. intros H. apply Df. apply sim_equiv; auto. rewrite unit_vec_length. apply Ff.
  - assert (ND : NoDup rows) by (apply (shown_once t order n V E reduced fuel threads known Ht Ho HR HV HH H3 HEt HA Hk start added K2 K3 ls s K4)). rewrite <- M3 in ND. apply (NoDup_map_inv _ _ ND).
  - rewrite <- M3. symmetry. apply map_length.
Qed.
Print Assumptions C66_text.

(** ** Another run *)
Lemma other_order order order' n (V F : list vec) : sort_order order -> sort_order order' -> dims (S n) V -> homogenised (S n) V -> m_fme (arith EXACT) order V = Ok F -> Forall negatable_row F ->
  exists F', m_fme (arith EXACT) order' V = Ok F' /\ Forall negatable_row F'.
Proof.
  intros Ho Ho' HD HH HFm BF. destruct (homogenised_pos (S n) V HD HH) as (_ & _ & Hnz). assert (Hex := RotationTheorems.hom_ex (S n) _ HH).
  destruct (proj1 (C01_no_failure EXACT order' (S n) V ltac:(discriminate) Ho' (representable_exact _) HD HH) eq_refl) as (_ & F' & _ & EF'). exists F'. split; auto.
  apply Forall_forall. intros f Hf. rewrite (result_fme EXACT order' (S n) _ ltac:(discriminate) Ho' (representable_exact _) HD F' Hnz EF') in Hf. apply (fme_iff (S n) _ order' HD Ho' Hex) in Hf.
  apply (fme_iff (S n) _ order HD Ho Hex) in Hf. rewrite <- (result_fme EXACT order (S n) _ ltac:(discriminate) Ho (representable_exact _) HD F Hnz HFm) in Hf. rewrite Forall_forall in BF. auto.
Qed.
(** A run on a file without maps whose hull is full-dimensional was interrupted; what it had printed is given, as it is, as known data to another run of the program on the same file.
    Whenever that run ends with status 0, whatever the number of threads and their schedule, it has printed the hull. *)
Theorem C66_resumed : forall t t' order order' fs args name so content c n kname known fuel' threads' s' shown (E F : list vec),
  t <> INT16 -> sort_order order -> Forall ordinary args -> chooses_method args AdjacencyDecomposition -> chooses_type args t ->
  asks_file args name so -> fs name = Some content -> early_keyword content -> file_text nothing (Some content) c -> ~ describes_system content ->
  agree c n -> c_points c <> [] -> c_maps c = [] -> good_names (c_names c) -> readable_names (c_names c) -> three_different_facets (S n) (file_rows c so) ->
  m_extract_equations (arith EXACT) (file_rows c so) = Ok E -> m_fme (arith EXACT) order (file_rows c so) = Ok F -> Forall negatable_row E -> Forall negatable_row F -> E = [] ->
  t' <> INT16 -> sort_order order' -> are_facets t' (S n) (file_rows c so) known -> known <> [] \/ no_rays n (file_rows c so) ->
  m_ad_shown t' order' fuel' threads' (file_rows c so) (c_names c) [] known s' shown ->
  names_facets args kname -> fs kname = Some shown ->
  exists fuel0, forall texts fuel hardware out, fuel0 <= fuel -> m_main texts order fs fuel hardware args out (Status 0) ->
    exists equations Pe inequalities Pf,
      out = facet_text equations inequalities (match Pe with [] => true | _ => false end) false /\
      written (denotes (c_names c) n Equation) equations Pe /\ written (line_denotes (c_names c) n Inequality) inequalities Pf /\
      forall p : list Q, length p = n ->
        (hull n (map coordinates_of (c_points c)) (map coordinates_of (c_rays c)) p <-> forall k, In k (Pe ++ Pf) -> satisfies k p).
Proof.
  intros t t' order order' fs args name so content c n kname known fuel' threads' s' shown E F Ht Ho HO HM HT HA HF HK HX HS HG Hne Hm HN HNr H3 HE HFm BE BF E0 Ht' Ho' Hk HKn Hsh HKf HKc. subst E.
  assert (HSane := file_is_sane (Some content) c HX). destruct (file_rows_facts c so n HSane HG Hne) as (HP & HD & HH & HR). assert (HNl : c_names c = [] \/ length (c_names c) = n) by apply HG.
  destruct (other_order order order' n (file_rows c so) F Ho Ho' HD HH HFm BF) as (F' & HF' & BF').
  assert (HAl : equations_allow t' n [] []) by (split; [split; [constructor|intros i Hi; cbn in Hi; lia]|left; auto]).
  destruct (C66_text t' order' n (file_rows c so) [] F' (c_names c) [] known fuel' threads' s' shown Ht' Ho' (HR t' Ht') HD HH H3 ltac:(intros m []) HAl Hk HKn HN HNr HNl HE HF' BF' Hsh) as (before & lines & K & -> & Hb & HKt & HKk & _).
  rewrite (Hb eq_refl) in HKc. cbn [nonempty app] in HKc.
  apply (C58_adjacency t order fs args name so content c n kname (lit "Inequalities:" ++ newline :: lines) K [] F); auto.
Qed.
Print Assumptions C66_resumed.

(** With -i safe the resumed run does nothing that is undefined. *)
Theorem C66_resumed_safe : forall t' order order' fs args name so content c n kname known fuel' threads' s' shown (E F : list vec),
  sort_order order -> Forall ordinary args -> chooses_method args AdjacencyDecomposition -> chooses_type args SAFE ->
  asks_file args name so -> fs name = Some content -> early_keyword content -> file_text nothing (Some content) c -> ~ describes_system content ->
  agree c n -> c_points c <> [] -> c_maps c = [] -> good_names (c_names c) -> readable_names (c_names c) -> three_different_facets (S n) (file_rows c so) ->
  m_extract_equations (arith EXACT) (file_rows c so) = Ok E -> m_fme (arith EXACT) order (file_rows c so) = Ok F -> Forall negatable_row E -> Forall negatable_row F -> E = [] ->
  t' <> INT16 -> sort_order order' -> are_facets t' (S n) (file_rows c so) known -> known <> [] \/ no_rays n (file_rows c so) ->
  m_ad_shown t' order' fuel' threads' (file_rows c so) (c_names c) [] known s' shown ->
  names_facets args kname -> fs kname = Some shown ->
  exists fuel0, forall texts fuel hardware out e, fuel0 <= fuel -> m_main texts order fs fuel hardware args out e -> e = Status 0 \/ e = Status 1 \/ e = Terminated.
Proof.
  intros t' order order' fs args name so content c n kname known fuel' threads' s' shown E F Ho HO HM HT HA HF HK HX HS HG Hne Hm HN HNr H3 HE HFm BE BF E0 Ht' Ho' Hk HKn Hsh HKf HKc. subst E.
  assert (HSane := file_is_sane (Some content) c HX). destruct (file_rows_facts c so n HSane HG Hne) as (HP & HD & HH & HR). assert (HNl : c_names c = [] \/ length (c_names c) = n) by apply HG.
  destruct (other_order order order' n (file_rows c so) F Ho Ho' HD HH HFm BF) as (F' & HF' & BF').
  assert (HAl : equations_allow t' n [] []) by (split; [split; [constructor|intros i Hi; cbn in Hi; lia]|left; auto]).
  destruct (C66_text t' order' n (file_rows c so) [] F' (c_names c) [] known fuel' threads' s' shown Ht' Ho' (HR t' Ht') HD HH H3 ltac:(intros m []) HAl Hk HKn HN HNr HNl HE HF' BF' Hsh) as (before & lines & K & -> & Hb & HKt & HKk & _).
  rewrite (Hb eq_refl) in HKc. cbn [nonempty app] in HKc.
  apply (C58_adjacency_safe order fs args name so content c n kname (lit "Inequalities:" ++ newline :: lines) K [] F); auto.
Qed.
Print Assumptions C66_resumed_safe.

(** With maps or equations the part of the output from the word "Inequalities:" on can be used. *)
Theorem C66_resumed_section : forall t' order' content c n so known fuel' threads' s' shown (E : list vec) F',
  file_text nothing (Some content) c -> agree c n -> c_points c <> [] -> file_symmetries c n -> equations_allow t' n E (c_maps c) ->
  good_names (c_names c) -> readable_names (c_names c) -> three_different_facets (S n) (file_rows c so) ->
  m_extract_equations (arith EXACT) (file_rows c so) = Ok E -> m_fme (arith EXACT) order' (file_rows c so) = Ok F' -> Forall negatable_row E -> Forall negatable_row F' ->
  t' <> INT16 -> sort_order order' -> are_facets t' (S n) (file_rows c so) known -> known <> [] \/ no_rays n (file_rows c so) ->
  m_ad_shown t' order' fuel' threads' (file_rows c so) (c_names c) (c_maps c) known s' shown ->
  exists before lines, shown = before ++ lit "Inequalities:" ++ newline :: lines /\
    forall t order fs args name kname, t <> INT16 -> sort_order order -> Forall ordinary args -> chooses_method args AdjacencyDecomposition -> chooses_type args t ->
      asks_file args name so -> fs name = Some content -> early_keyword content -> ~ describes_system content -> equations_allow t n E (c_maps c) ->
      names_facets args kname -> fs kname = Some (lit "Inequalities:" ++ newline :: lines) ->
      exists fuel0, forall texts fuel hardware out, fuel0 <= fuel -> m_main texts order fs fuel hardware args out (Status 0) ->
        exists equations Pe inequalities Pf,
          out = facet_text equations inequalities (match Pe with [] => true | _ => false end) (nonempty (c_maps c)) /\
          written (denotes (c_names c) n Equation) equations Pe /\ written (line_denotes (c_names c) n Inequality) inequalities Pf /\
          forall p : list Q, length p = n ->
            (hull n (map coordinates_of (c_points c)) (map coordinates_of (c_rays c)) p <->
             (forall k, In k Pe -> satisfies k p) /\ forall q k, moved (c_maps c) p q -> In k Pf -> satisfies k q).
Proof.
  intros t' order' content c n so known fuel' threads' s' shown E F' HX HG Hne Hsym HAl HN HNr H3 HE HF' BE BF' Ht' Ho' Hk HKn Hsh.
  assert (HSane := file_is_sane (Some content) c HX). destruct (file_rows_facts c so n HSane HG Hne) as (HP & HD & HH & HR). assert (HNl : c_names c = [] \/ length (c_names c) = n) by apply HG.
  assert (SY : symmetries n (file_rows c so) (c_maps c)) by (apply file_symmetric; auto).
  destruct (C66_text t' order' n (file_rows c so) E F' (c_names c) (c_maps c) known fuel' threads' s' shown Ht' Ho' (HR t' Ht') HD HH H3 SY HAl Hk HKn HN HNr HNl HE HF' BF' Hsh) as (before & lines & K & -> & _ & HKt & HKk & _).
  exists (before ++ (if nonempty (c_maps c) then lit "Reduced " else [])), lines. split; [rewrite <- ?app_assoc; reflexivity|].
  intros t order fs args name kname Ht Ho HO HM HT HA HF HK HS HAl2 HKf HKc.
  destruct (other_order order' order n (file_rows c so) F' Ho' Ho HD HH HF' BF') as (F & HFm & BF).
  apply (C58_adjacency_reduced t order fs args name so content c n kname (lit "Inequalities:" ++ newline :: lines) K E F); auto.
Qed.
Print Assumptions C66_resumed_section.

(** Without that, a run with maps or equations cannot be resumed from its own output: it is refused, nothing is printed and the status is 1. *)
Theorem C66_refused : forall texts t' order' fs args name so content c n kname fuel' threads' maps known s' shown (E : list vec),
  Forall ordinary args -> (exists m, chooses_method args m) -> (exists t, chooses_type args t) ->
  asks_file args name so -> fs name = Some content -> early_keyword content -> file_text nothing (Some content) c -> ~ describes_system content -> agree c n -> c_points c <> [] ->
  t' <> INT16 -> m_extract_equations (arith EXACT) (file_rows c so) = Ok E -> E <> [] \/ maps <> [] ->
  m_ad_shown t' order' fuel' threads' (file_rows c so) (c_names c) maps known s' shown ->
  names_facets args kname -> fs kname = Some shown ->
  exists fuel0, forall fuel hardware, fuel0 <= fuel -> only_ends (m_main texts order' fs fuel hardware args) [] (Status 1).
Proof.
  intros texts t' order' fs args name so content c n kname fuel' threads' maps known s' shown E HO HM HT HA HF HK HX HS HG Hne Ht' HE Hor Hsh HKf HKc.
  assert (HSane := file_is_sane (Some content) c HX). destruct (file_rows_facts c so n HSane HG Hne) as (HP & HD & HH & HR).
  apply (C58_refused texts order' fs args name so content c n kname HO HM HT HA HF HK HX HS HG HKf). right. exists shown. split; auto.
  destruct Hsh as (E' & reduced & start & added & ls & head & lines & K1 & _ & _ & _ & K5 & _ & ->).
  assert (HEt : m_extract_equations (arith t') (file_rows c so) = Ok E' /\ length reduced = length maps \/ m_extract_equations (arith t') (file_rows c so) = Ok E' /\ E' <> []).
  { unfold m_ad_reduce in K1. destruct (m_extract_equations (arith t') (file_rows c so)) as [E1| |]; cbn [bind] in K1; try discriminate. destruct E1 as [|e0 E1]; [left; inversion K1; auto|].
    destruct (m_normalize_maps t' (e0 :: E1) maps); cbn [bind] in K1; try discriminate. right. inversion K1. split; auto. discriminate. }
  assert (E' = E) as -> by (destruct HEt as [(HEt & _)|(HEt & _)]; apply (equations_same t' n (file_rows c so) E E' Ht' (HR t' Ht') HD HH HE HEt)).
  destruct E as [|e0 E].
  - unfold m_ad_equations, say in K5. assert (head = []) as -> by congruence. destruct HEt as [(_ & HL)|(_ & X)]; [|congruence]. destruct Hor as [X|X]; [congruence|]. destruct maps as [|m maps]; [congruence|]. destruct reduced as [|m' reduced]; [discriminate|].
    cbn [nonempty m_reduced app]. apply (no_facets_title (lit "Reduced Inequalities:")). apply keyword_itself. vm_compute. tauto.
  - cbn [m_ad_equations] in K5. destruct (m_pretty_matrix t' (c_names c) "=" (e0 :: E)) as [tx r] eqn:EM. cbn [andthen say] in K5.
    assert (exists more, head = lit "Equations:" ++ newline :: more) as (more & ->).
    { unfold andthen, say in K5. destruct r; cbn in K5; inversion K5; eexists; cbn; reflexivity. }
    rewrite <- app_assoc. cbn [app]. apply no_facets_title. apply keyword_itself. vm_compute. tauto.
Qed.
Print Assumptions C66_refused.

(** ** An output that is cut within a line *)
(** The hull of (10, 1), (10, -1), (1, 1), (1, -1) and (0, 0); a run on it was interrupted when "x <= 10" had just been printed, and of the last line only "x <= 1" got into the file.
    Then this is a known facet: the run that is given this file can end with status 0 and have printed "x <= 1", which the point (10, 1) does not satisfy. *)
Definition pentagon : text := line "Names:" ++ line "x y" ++ line "" ++ line "Vertices:" ++ line "10 1" ++ line "10 -1" ++ line "1 1" ++ line "1 -1" ++ line "0 0".
Definition pentagon_rows : list vec := [[10; 1; 1]; [10; -1; 1]; [1; 1; 1]; [1; -1; 1]; [0; 0; 1]]%Z.
Definition cut_text : text := line "Inequalities:" ++ line "y <= 1" ++ lit "x <= 1".
Definition cut_result : list vec := [[0; 1; -1]; [1; 0; -1]; [-1; 1; 0]; [1; 0; -10]; [-1; -1; 0]; [0; -1; -1]]%Z.
Lemma pentagon_shown : exists s, m_ad_shown INT32 sorted_order 20 1 pentagon_rows [lit "x"; lit "y"] [] [] s (cut_text ++ lit "0" ++ [newline]).
Proof.
  assert (R : exists ls s, ListModel.run (m_ad_neighbours INT32 sorted_order 20 pentagon_rows []) (initial [[0; 1; -1]; [1; 0; -10]]%Z [] 1 0) ls s /\ printed (sh s) = [[0; 1; -1]; [1; 0; -10]]%Z).
  { destruct (exec_all (m_ad_neighbours INT32 sorted_order 20 pentagon_rows []) [CMain; CMain] (initial [[0; 1; -1]; [1; 0; -10]]%Z [] 1 0)) as [s|] eqn:Es; [|vm_compute in Es; discriminate].
    destruct (exec_all_ok _ _ _ _ Es) as (ls & Hr). exists ls, s. split; auto. vm_compute in Es. inversion Es. reflexivity. }
  destruct R as (ls & s & R & Ep). exists s, [], [], [[0; 1; -1]; [1; 0; -10]]%Z, [], ls, [], (line "y <= 1" ++ line "x <= 10").
  split; [vm_compute; reflexivity|]. split; [vm_compute; reflexivity|]. split; [exists 0; split; [vm_compute; reflexivity|left; cbn; auto]|]. split; [exact R|]. split; [reflexivity|].
  rewrite Ep. split; [vm_compute; reflexivity|reflexivity].
Qed.
Definition cut_output : text := line "Inequalities:" ++ line "y <= 1" ++ line "x <= 1" ++ line "-x +y <= 0" ++ line "x <= 10" ++ line "-x -y <= 0" ++ line "-y <= 1".
Theorem C66_cut_line_refuted : exists s, m_ad_shown INT32 sorted_order 20 1 pentagon_rows [lit "x"; lit "y"] [] [] s (cut_text ++ lit "0" ++ [newline]) /\
  (exists fuel0, m_input_vertices (two_files pentagon cut_text) fuel0 known_args = Ok (Some (pentagon_rows, [lit "x"; lit "y"], [], [[0; 1; -1]; [1; 0; -1]]%Z))) /\
  (forall texts, m_main texts sorted_order (two_files pentagon cut_text) 40 4 known_args cut_output (Status 0)) /\
  ~ satisfies {| terms := [(0, 1%Z)]; operator := LessEqual; constant := 1 |} [10; 1]%Q.
Proof.
  destruct pentagon_shown as (s & Hs). exists s. split; auto. clear s Hs.
  assert (EI : m_input_vertices (two_files pentagon cut_text) 40 known_args = Ok (Some (pentagon_rows, [lit "x"; lit "y"], [], [[0; 1; -1]; [1; 0; -1]]%Z))) by (vm_compute; reflexivity).
  split; [exists 40; exact EI|]. split; [|intros H; unfold satisfies in H; cbn in H; unfold Qle in H; cbn in H; lia].
  intros texts. destruct asks_known as (A0 & A1 & A2 & A3 & A4 & A5).
  assert (MA : m_detect_mode (two_files pentagon cut_text) known_args = Ok FacetEnumeration) by (vm_compute; reflexivity).
  apply (main_mode texts sorted_order (two_files pentagon cut_text) 40 4 known_args _ MA), (facet_main sorted_order (two_files pentagon cut_text) 40 4 known_args _ INT32 A1 A2). unfold m_facet_ad. rewrite EI.
  assert (ET : m_number_of_threads 4 known_args = Ok 1%Z) by (vm_compute; reflexivity). rewrite ET. left. split; [reflexivity|].
  change (m_cast_rows INT32 pentagon_rows) with pentagon_rows. change (m_cast_rows INT32 [[0; 1; -1]; [1; 0; -1]]%Z) with [[0; 1; -1]; [1; 0; -1]]%Z. change (Z.to_nat 1) with 1.
  assert (R : exists ls, ListModel.run (m_ad_neighbours INT32 sorted_order 40 pentagon_rows []) (initial [[0; 1; -1]]%Z [[0; 1; -1]; [1; 0; -1]]%Z 1 0) ls (State (Jobs 1 (cut_result ++ [[]]) [[]] cut_result cut_result) None [Stopped] [])).
  { apply (exec_all_ok _ (repeat CMain 2 ++ [CThread 0; CThread 0; CKnown; CKnown] ++ repeat (CThread 0) 39)). vm_compute. reflexivity. }
  destruct R as (ls & R). exists (State (Jobs 1 (cut_result ++ [[]]) [[]] cut_result cut_result) None [Stopped] []).
  exists [], [], [[0; 1; -1]]%Z, [[0; 1; -1]; [1; 0; -1]]%Z, ls, [], (line "y <= 1" ++ line "x <= 1" ++ line "-x +y <= 0" ++ line "x <= 10" ++ line "-x -y <= 0" ++ line "-y <= 1").
  split; [vm_compute; reflexivity|]. split; [vm_compute; reflexivity|]. split; [exists 2; split; [vm_compute; reflexivity|left; cbn; auto]|]. split; [exact R|]. split; [split; [reflexivity|split; [reflexivity|]]; cbn; intuition|].
  split; [|split; [reflexivity|split; [vm_compute; reflexivity|reflexivity]]].
  intros r Hr. cbn [sh handed] in Hr. unfold cut_result in Hr. repeat (destruct Hr as [<-|Hr]; [unfold m_ad_processed; eexists; vm_compute; reflexivity|]). destruct Hr.
Qed.
Print Assumptions C66_cut_line_refuted.

(** ** Examples *)
(** A run on the half strip in which the facet x >= 0 is known was interrupted when it had been printed; what was printed is the file of [C58_example], in which the other run prints all facets. *)
Example C66_example :
  (exists s, m_ad_shown INT32 sorted_order 20 1 (file_rows half_strip_contents NoSorting) (c_names half_strip_contents) (c_maps half_strip_contents) [[-1; 0; 0]]%Z s one_facet) /\
  are_facets INT32 3 (file_rows half_strip_contents NoSorting) [[-1; 0; 0]]%Z /\ three_different_facets 3 (file_rows half_strip_contents NoSorting) /\
  m_extract_equations (arith EXACT) (file_rows half_strip_contents NoSorting) = Ok [] /\
  m_fme (arith EXACT) sorted_order (file_rows half_strip_contents NoSorting) = Ok [[-1; 0; 0]; [0; -1; 0]; [2; 0; -1]]%Z /\
  asks_file known_args (lit "f") NoSorting /\ names_facets known_args (lit "k") /\ two_files half_strip one_facet (lit "f") = Some half_strip /\ two_files half_strip one_facet (lit "k") = Some one_facet.
Proof.
  change (file_rows half_strip_contents NoSorting) with [[0; 1; 0]; [0; 0; 1]; [1; 0; 2]]%Z.
  split; [|split; [|split; [exact half_strip_facets|]]].
  - destruct (exec_all (m_ad_neighbours INT32 sorted_order 20 [[0; 1; 0]; [0; 0; 1]; [1; 0; 2]]%Z []) [CMain] (initial [[-1; 0; 0]]%Z [[-1; 0; 0]]%Z 1 0)) as [s|] eqn:Es; [|vm_compute in Es; discriminate].
    destruct (exec_all_ok _ _ _ _ Es) as (ls & R). exists s, [], [], [[-1; 0; 0]]%Z, [[-1; 0; 0]]%Z, ls, [], (line "-x <= 0").
    split; [vm_compute; reflexivity|]. split; [vm_compute; reflexivity|]. split; [exists 1; split; [vm_compute; reflexivity|left; cbn; auto]|]. split; [exact R|]. split; [reflexivity|].
    vm_compute in Es. inversion Es. split; [vm_compute; reflexivity|reflexivity].
  - assert (HF : m_fme (arith INT32) sorted_order [[0; 1; 0]; [0; 0; 1]; [1; 0; 2]]%Z = Ok [[-1; 0; 0]; [0; -1; 0]; [2; 0; -1]]%Z) by (vm_compute; reflexivity).
    intros r [<-|[]]. split; [|split].
    + apply (rows_facets INT32 sorted_order 3 [[0; 1; 0]; [0; 0; 1]; [1; 0; 2]]%Z) with (f := [-1; 0; 0]%Z) in HF; [tauto|discriminate|exact sorted_order_ok| | | |cbn; auto].
      * repeat (constructor; [repeat (constructor; [vm_compute; split; congruence|]); constructor|]). constructor.
      * repeat constructor.
      * exists [0; 1; 0]%Z. split; [cbn; auto|discriminate].
    + intros (k & j & Hk & Hj & H). assert (H1 := H [0; 0; 1]%Z ltac:(cbn; auto)). assert (H2 := H [1; 0; 2]%Z ltac:(cbn; auto)). cbn in H1, H2. lia.
    + repeat (constructor; [vm_compute; split; congruence|]). constructor.
  - split; [vm_compute; reflexivity|]. split; [vm_compute; reflexivity|]. destruct asks_known as (A0 & _ & _ & _ & A4 & _). auto.
Qed.
(** The pentagon: no rays, and a run without known facets. *)
Example C66_pentagon : no_rays 2 pentagon_rows /\ homogenised 3 pentagon_rows /\ m_extract_equations (arith EXACT) pentagon_rows = Ok [] /\
  exists s, m_ad_shown INT32 sorted_order 20 1 pentagon_rows [lit "x"; lit "y"] [] [] s (line "Inequalities:" ++ line "y <= 1" ++ line "x <= 10").
Proof.
  split; [intros v Hv; cbn in Hv; repeat (destruct Hv as [<-|Hv]; [cbn; lia|]); destruct Hv|]. split; [split; [intros v Hv; cbn in Hv; repeat (destruct Hv as [<-|Hv]; [cbn; lia|]); destruct Hv|exists [10; 1; 1]%Z; cbn; split; [auto|lia]]|].
  split; [vm_compute; reflexivity|]. exact pentagon_shown.
Qed.
