(** * PropertiesReducedFacets: reduced inequalities that are printed are read again (C63). *)
From Coq Require Import List ZArith QArith Arith Bool Ascii String Lia Lqa Permutation Sorted.
From Verif Require Import Base Spec LinAlg Cone ListUtil ArithModel MatrixModel FmeModel SafeIntModel IntTypes RowLcm StreamModel StreamProofs SortModel CliModel PropertiesCli InputModel InputProofs VertexInput ClassesModel MapInput
  ConstraintModel ConstraintInput ConstraintSection PropertiesVertices PropertiesConstraints OutputModel OutputProofs PropertiesOutput Hull Corners FmeCore FmePure FmePrepare FmeCorrect Refine MatrixRefine FmeRefine FmeTheorems DimTheorems NormTheorems
  Samples ClassesProofs ApplyTheorems OrbitTheorems OrbitExact PropertiesMaps PropertiesFme MapModel PropertiesProgram RotationModel MapProofs RotationTheorems PropertiesRotation HeuristicTheorems
  NormalForm Symmetry Adjacency PropertiesAd HullSame VertexSymmetry VertexImages PropertiesReduced FileModel Expand FileProofs FileInput SystemFile PropertiesFile PropertiesSystem PropertiesMapFile PropertiesRoundTrip PropertiesExpand ExpandMaps PropertiesNormalize AdTheorems CheckedFile PropertiesExpandSystem PropertiesReducedAgain.
Import ListNotations.
Open Scope Z_scope.
Open Scope list_scope.

(** ** Maps that are only put in order *)
Lemma normalize_one t m : simple_map m -> m_normalize_map t [] m = Ok (map term_sort m).
Proof.
  intros H. unfold m_normalize_map, m_indices. cbn [map m_eliminate foldM bind]. unfold m_subtract_all. cbn [foldM bind]. unfold m_simplify.
  induction H as [|im m [H1 H2] _ IH]; [reflexivity|]. cbn [mapM map]. rewrite simplify_simple by auto. cbn [bind]. rewrite IH. reflexivity.
Qed.
Lemma normalize_any t maps : Forall simple_map maps -> exists maps', m_normalize_maps t [] maps = Ok maps' /\ Forall2 reordered maps maps'.
Proof.
  induction 1 as [|m maps Hm _ (maps' & IH1 & IH2)]; [exists []; split; [reflexivity|constructor]|]. exists (map term_sort m :: maps'). split.
  - unfold m_normalize_maps in *. cbn [mapM]. rewrite normalize_one by auto. cbn [bind]. rewrite IH1. reflexivity.
  - constructor; auto. clear. induction m; constructor; auto. apply Permutation_sym, sort_perm.
Qed.
Lemma simple_in_memory n m : Z.of_nat n < 2 ^ 64 -> simple_map m -> in_memory n m.
Proof. intros Hn H. split; auto. eapply Forall_impl; [|exact H]. intros im (_ & H2). auto. Qed.
Lemma reordered_all_sym maps maps' : Forall2 reordered maps maps' -> Forall2 reordered maps' maps.
Proof. induction 1; constructor; auto. apply reordered_sym; auto. Qed.

(** ** What is printed *)
Lemma facet_call_again t order n (V F : list vec) names maps fuel out :
  t <> INT16 -> sort_order order -> rows_representable t V -> dims (S n) V -> homogenised (S n) V -> symmetries n V maps -> Forall simple_map maps -> Z.of_nat (S n) < 2 ^ 64 ->
  good_names names -> (names = [] \/ length names = n) ->
  m_extract_equations (arith t) V = Ok [] -> m_fme (arith t) order V = Ok F -> Forall negatable_row F -> (forall f m k, In f F -> In m maps -> facet_load m f k <= int_max) ->
  m_facet_call t order fuel V names maps = Some (out, Ok tt) ->
  exists inequalities Pf classes,
    out = facet_text [] inequalities true (nonempty maps) /\ written (constraint_line names Inequality) inequalities Pf /\ (forall k, In k Pf -> fst k = n) /\ (Pf = [] -> F = []) /\
    Forall2 (class_of facet_step facet_load maps) (map wide_row Pf) classes /\ NoDup (concat classes) /\ (forall x, In x (concat classes) <-> In x F) /\ dims (S n) F /\
    (forall m, In m maps -> Permutation (map (fun x => rnorm (praw Facet_tag m x)) F) F).
Proof.
  intros Ht Ho HR HV HH Hsym Hsimple Hmem HN HNl HE HF BF HLoad Hcall.
  destruct (facets_printable t order n V F names Ht Ho HR HV HH HNl HF BF) as [DF PF].
  destruct (homogenised_pos (S n) V HV HH) as (Hn & Hlen & Hnz). assert (X := result_equations t (S n) V Ht HR HV [] Hlen Hn HE).
  assert (EF := result_fme t order (S n) V Ht Ho HR HV F Hnz HF).
  assert (HFx : m_fme (arith EXACT) order V = Ok F).
  { assert (O := outcome_exact _ _ (FmeTheorems.fme_outcome EXACT order (S n) V ltac:(discriminate) Ho (representable_exact V) HV Hnz)). rewrite EF. exact O. }
  assert (Hnorm : maps_normalise t n [] maps).
  { split; [split; [constructor|intros i Hi; cbn in Hi; lia]|]. split; [left; reflexivity|]. eapply Forall_impl; [|exact Hsimple]. intros m. apply simple_in_memory; auto. }
  destruct (normalize_any t maps Hsimple) as (reduced & EM & HRe). unfold m_facet_call in Hcall. change (num (arith t)) with Z in *. rewrite HE, EM, HF in Hcall. cbn [bind] in Hcall.
  assert (HL := normalised_like t n V maps [] reduced (eq_sym X) HV Hsym Hnorm EM).
  assert (IF : Forall (Forall int_range) F) by (eapply Forall_impl; [|exact BF]; intros r Hr; apply negatable_int in Hr; exact Hr).
  assert (RF : rows_representable t F) by (apply Forall_forall; intros r Hr; apply Forall_forall; intros z Hz; apply int_representable; auto; rewrite Forall_forall in IF; specialize (IF r Hr); rewrite Forall_forall in IF; auto).
  destruct (m_classes_of (arith t) fuel Facet_tag reduced F) as [[R|]| |] eqn:EC; cbn [bind] in Hcall; try discriminate Hcall.
  destruct (selected_rows t order n V F R maps reduced fuel Ht Ho HV HH HL HFx RF EC) as (S1 & S2 & S3 & S4).
  assert (DR : dims (S n) R) by (apply Forall_forall; intros r Hr; apply (dims_in (S n) F); auto).
  assert (PR : Forall (printable names) R) by (apply Forall_forall; intros r Hr; rewrite Forall_forall in PF; auto).
  destruct (matrix_lines t Inequality names n R HN PR DR HNl) as (inequalities & Pf & E2 & W2 & R2 & G2).
  assert (HA := likes_acting n V maps reduced HV HH HL). assert (Hex := RotationTheorems.hom_ex (S n) V HH).
  assert (FF : forall f, In f F <-> facet (S n) V f /\ nform (S n) V f /\ ~ simn V f (unit_vec (S n) (S n - 1) (-1))) by (intros f; rewrite EF; apply (fme_iff (S n) V order HV Ho Hex)).
  assert (MR := a_maps (S n) V reduced HA).
  assert (Horb : forall x y, In x F -> orbit EXACT Facet_tag reduced x y -> In y F).
  { intros x y Hx Hxy. apply FF in Hx as (F1 & F2 & F3). destruct (orb_facet (S n) V reduced HA x y F1 F2 Hxy) as (G & G' & G''). apply FF. tauto. }
  assert (Hback : forall x y, In x F -> orbit EXACT Facet_tag reduced x y -> orbit EXACT Facet_tag reduced y x).
  { intros x y Hx Hxy. apply FF in Hx as (F1 & F2 & F3). apply (orb_back (S n) V reduced order HV Ho HA x); auto. }
  assert (HLoad' : forall f m k, In f F -> In m reduced -> load_of Facet_tag m f k <= int_max).
  { intros f m k Hf Hm. destruct (reordered_find _ _ _ HRe Hm) as (m0 & H1 & H2). cbn [load_of]. rewrite <- (reordered_load m0 m f k H2). auto. }
  destruct (classes_exist Facet_tag (S n) reduced F MR DF IF Horb HLoad' R S1) as (classes & CC).
  destruct (classes_all Facet_tag reduced F Horb Hback R classes S1 S2 S3) as (A1 & A2); auto.
  { intros r x Hr Hx Hrx. apply S4; auto. assert (Fr := proj1 (FF r) (S1 r Hr)). apply (orbit_carried n V maps reduced HV HH HL r x); tauto. }
  exists inequalities, Pf, classes. split; [|split; [exact W2|split; [intros k Hk; apply G2; auto|split; [|split; [|split; [exact A1|split; [exact A2|split; [exact DF|]]]]]]]].
  - unfold m_print_inequalities in Hcall. unfold relation_sign in E2. rewrite E2 in Hcall. cbn [say andthen fst snd app] in Hcall. unfold facet_text, end_line in *. inversion Hcall. destruct maps; cbn [nonempty m_reduced app]; rewrite <- ?app_assoc; reflexivity.
  - intros ->. cbn [map] in R2. subst R. destruct F as [|f F']; auto. destruct (S3 f (or_introl eq_refl)) as (r & [] & _).
  - rewrite R2. apply (forall2_impl (fun r S => class_of (step_of Facet_tag) (load_of Facet_tag) reduced r S /\ forall x, In x S <-> orbit EXACT Facet_tag reduced r x)); [|exact CC].
    intros r c (Hc & _). cbn [step_of load_of] in Hc. apply (reordered_class reduced maps); auto. apply reordered_all_sym; auto.
  - intros m Hm. assert (Hm' : exists m', In m' reduced /\ reordered m m').
    { clear - HRe Hm. induction HRe as [|a b maps maps' H _ IH]; [destruct Hm|]. destruct Hm as [<-|Hm]; [exists b; split; [left|]; auto|]. destruct (IH Hm) as (m' & K1 & K2). exists m'. split; [right|]; auto. }
    destruct Hm' as (m' & Hm' & Hre).
    assert (Same : forall x, In x F -> rnorm (praw Facet_tag m x) = act m' x).
    { intros x Hx. assert (Lx := dims_in (S n) F x DF Hx). assert (M1 : map_in (length x) m) by (rewrite Lx; apply (Hsym m Hm)). assert (M2 : map_in (length x) m') by (rewrite Lx; rewrite Forall_forall in MR; auto).
      unfold act. apply (facet_step_iff m' x _ M2). apply (reordered_step m m' x _ Hre). apply (facet_step_iff m x _ M1). reflexivity. }
    rewrite (map_ext_in _ (act m') F) by auto. assert (NF : NoDup F) by (rewrite EF; apply fme_NoDup; auto).
    apply NoDup_Permutation_bis; [|rewrite map_length; auto|].
    + assert (INJ : forall x y, In x F -> In y F -> act m' x = act m' y -> x = y).
      { intros x y Hx Hy E. apply FF in Hx as (F1 & F2 & _). apply FF in Hy as (G1 & G'2 & _). apply (nform_unique (S n) V); auto. apply (a_sim (S n) V reduced HA m'); auto. rewrite E. apply sim_refl. }
      clear - NF INJ. induction F as [|x l IH]; cbn [map]; [constructor|]. apply NoDup_cons_iff in NF as [N1 N2]. constructor; [|apply IH; auto; intros; apply INJ; auto; right; auto].
      intros K. apply in_map_iff in K as (y & E & Hy). apply INJ in E; [subst; auto|right; auto|left; auto].
    + intros y Hy. apply in_map_iff in Hy as (x & <- & Hx). apply (Horb x); auto. apply (orbit_apply EXACT Facet_tag reduced x x m'); auto; [constructor|]. unfold act. apply (apply_exact Facet_tag (S n)); auto; [rewrite Forall_forall in MR; auto|apply (dims_in (S n) F); auto].
Qed.
(** It is, after the names and the maps, the text of a file with reduced inequalities. *)
Lemma reduced_system_text names body lines M inequalities Pf classes : readable_names names -> names <> [] -> names_text body names -> written (map_line names) lines M -> M <> [] ->
  Forall simple_map (map (completed names) M) -> written (constraint_line names Inequality) inequalities Pf -> Forall2 (class_of facet_step facet_load (map (completed names) M)) (map wide_row Pf) classes ->
  let printed := facet_text [] inequalities true true in
  early_keyword (with_maps body lines printed) /\
  system_text no_system (Some (with_maps body lines printed))
    {| s_equations := []; s_inequalities := map row_constraint (concat classes); s_names := names; s_maps := map (completed names) M; s_dimension := None |}.
Proof.
  intros HRN Hnn HB HM HMn HS HW HC printed.
  assert (EV : printed = lit "Reduced Inequalities:" ++ newline :: inequalities) by reflexivity.
  assert (PL : plain_line []). { destruct (plain_or_keyword [] ltac:(intros [])) as [H|H]; [exact H|discriminate H]. }
  assert (HCM : map (completed names) M <> []) by (intros E; apply map_eq_nil in E; auto).
  split.
  - exists (lit "Names:"). split; [|apply keyword_itself; vm_compute; tauto]. exists []. eexists. split; [reflexivity|]. split; [cbn; lia|]. split; [constructor|]. split; [vm_compute; intuition discriminate|]. right. eexists. reflexivity.
  - unfold with_maps. change (newline :: lit "Maps:" ++ newline :: lines ++ printed) with ([newline] ++ lit "Maps:" ++ newline :: lines ++ printed).
    apply (system_names no_system (lit "Names:") body names [newline] (lit "Maps:") (lines ++ printed)).
    + apply keyword_itself. vm_compute; tauto.
    + exact HB.
    + repeat constructor.
    + discriminate.
    + apply keyword_itself. vm_compute; tauto.
    + apply (system_line _ []); [left; exact PL|]. rewrite EV.
      apply (system_maps _ (lit "Maps:") lines M _ [] (Some (lit "Reduced Inequalities:" ++ newline :: inequalities))); cbn [s_names s_equations s_inequalities s_maps s_dimension no_system].
      * apply HRN.
      * apply keyword_itself. vm_compute; tauto.
      * exact HM.
      * apply (follows_keyword _ (lit "Reduced Inequalities:")); [apply keyword_itself; vm_compute; tauto|reflexivity].
      * rewrite app_nil_r. rewrite <- (app_nil_r inequalities). apply (system_reduced _ (lit "Reduced Inequalities:") inequalities Pf [] [] None classes); cbn [s_names s_equations s_inequalities s_maps s_dimension].
        -- exact HRN.
        -- apply keyword_itself. vm_compute; tauto.
        -- exact HW.
        -- apply follows_end; [constructor|reflexivity].
        -- reflexivity.
        -- exact HCM.
        -- exact HS.
        -- rewrite app_nil_r. exact HC.
        -- apply system_none.
Qed.
(** Rows that a map permutes are constraints that it permutes. *)
Lemma permuted_rearranges n m (rows : list vec) : map_in (S n) m -> nth n m [] = [(n, 1)] -> dims (S n) rows -> Forall int_row rows -> Permutation (map (fun x => rnorm (praw Facet_tag m x)) rows) rows ->
  rearranges (fun k l : wide => exists a, (0 < a)%Q /\ forall p, length p = n -> (excess (snd k) (moved_by m p) == a * excess (snd l) p)%Q) (map row_constraint rows).
Proof.
  intros M1 M2 DR IR HP. apply (rearranges_map row_constraint (fun a b : vec => b = rnorm (praw Facet_tag m a))).
  2:{ exists (map (fun x => rnorm (praw Facet_tag m x)) rows). split; auto. clear. induction rows; constructor; auto. }
  intros a b Ha Hb ->. set (b := rnorm (praw Facet_tag m a)) in *. rewrite Forall_forall in IR. assert (La := dims_in (S n) rows a DR Ha). assert (Lb := dims_in (S n) rows b DR Hb). assert (Ia := IR a Ha). assert (Ib := IR b Hb).
  assert (Mi : map_in (length a) m) by (rewrite La; auto). destruct (proj2 (facet_step_iff m a b Mi) eq_refl) as (_ & _ & g & Hg & E).
  exists (inject_Z g). split; [change 0%Q with (inject_Z 0); rewrite <- Zlt_Qlt; auto|]. intros p Hp.
  assert (Lp : length (moved_by m p) = n) by (apply (moved_length n [m] p); auto; [intros m0 [<-|[]]; auto|]; apply (moved_first [m] m); [left; auto|constructor]).
  assert (AW : forall r q, length r = S n -> int_row r -> length q = n -> (affine r q == excess (snd (row_constraint r)) q)%Q).
  { intros r q Lr Ir Lq. assert (Hne : r <> []) by (intros ->; discriminate). rewrite <- (affine_wide Inequality (row_constraint r) n); auto; [rewrite row_constraint_row by auto; reflexivity|apply row_constraint_good; auto|]. unfold row_constraint. cbn [fst]. rewrite Lr. reflexivity. }
  rewrite <- !AW by auto. apply (rows_excess n); auto. rewrite <- La. auto.
Qed.

(** ** Facets that are printed in part *)
(** Facet enumeration of a file with names and maps that are symmetries, if the points and rays lie in no hyperplane (no equations are found), prints one facet of every class of facets.
    With the names and the maps before it, this text is a file with reduced inequalities: its solutions are the convex hull of the points plus the conical hull of the rays of the first file,
    its inequalities are the facets ([F] are their rows), each once, and its maps are the maps of the first file and symmetries of it, too.  What is added up for the images of the facets is
    of type [int], and no map mentions a coordinate twice in an image. *)
Theorem C63_facets_reread : forall t order fs args name so content c n (F : list vec) body lines M,
  t <> INT16 -> sort_order order -> asks args name so -> fs name = Some content -> early_keyword content -> file_text nothing (Some content) c ->
  agree c n -> c_points c <> [] -> file_symmetries c n -> c_maps c <> [] -> Forall simple_map (c_maps c) -> (0 < n)%nat -> Z.of_nat (S n) < 2 ^ 64 ->
  good_names (c_names c) -> names_text body (c_names c) -> written (map_line (c_names c)) lines M -> c_maps c = map (completed (c_names c)) M ->
  m_extract_equations (arith t) (file_rows c so) = Ok [] -> m_fme (arith t) order (file_rows c so) = Ok F -> F <> [] -> Forall negatable_row F ->
  (forall f m k, In f F -> In m (c_maps c) -> facet_load m f k <= int_max) ->
  exists fuel0, forall fuel out, (fuel0 <= fuel)%nat -> m_facet_program t order fs fuel args = Some (out, Ok tt) ->
  exists s, early_keyword (with_maps body lines out) /\ system_text no_system (Some (with_maps body lines out)) s /\ fits_together s n /\ equations_fit s n /\
    s_names s = c_names c /\ s_maps s = c_maps c /\ constraint_symmetries s n /\
    s_equations s = [] /\ NoDup (map wide_row (s_inequalities s)) /\ (forall f, In f F <-> In f (map wide_row (s_inequalities s))) /\
    forall q : list Q, length q = n -> (hull n (map coordinates_of (c_points c)) (map coordinates_of (c_rays c)) q <-> all_satisfied (constraints_of s) q).
Proof.
  intros t order fs args name so content c n F body lines M Ht Ho HA HF HK HT HG Hne Hsym HMne Hsimple H0 Hmem HN HB HM EM HE HFm HFne BF HLoad.
  assert (HS := file_is_sane (Some content) c HT). destruct (file_rows_facts c so n HS HG Hne) as (HP & HD & HH & HR). assert (HNl : c_names c = [] \/ length (c_names c) = n) by apply HG.
  destruct (facet_program_reads t order fs args name so content c n Ht HA HF HK HT HG) as (f0 & K). exists f0. intros fuel out Hfuel Hout. rewrite (K fuel Hfuel) in Hout.
  destruct (facet_call_again t order n (file_rows c so) F (c_names c) (c_maps c) fuel out) as (inequalities & Pf & classes & E1 & W1 & G1 & G2 & C1 & A1 & A2 & DF & A3); auto.
  { apply file_symmetric; auto. }
  assert (HRN : readable_names (c_names c)) by (destruct HN as (N1 & N2 & N3 & _); split; auto).
  assert (MN : M <> []) by (intros ->; apply HMne; rewrite EM; reflexivity).
  assert (NN : c_names c <> []).
  { intros E0. destruct M as [|m M']; [congruence|]. assert (Im : In (completed (c_names c) m) (c_maps c)) by (rewrite EM; left; auto). destruct (Hsym _ Im) as ((Lm & _) & _).
    assert (WA := written_all _ _ _ HM). apply Forall_inv in WA. destruct WA as (l & u & t' & v & _ & _ & _ & _ & Lm' & _). rewrite E0 in Lm'. unfold completed in Lm. rewrite app_length in Lm. cbn [length] in Lm, Lm'.
    lia. }
  rewrite EM in C1, Hsimple. destruct (reduced_system_text (c_names c) body lines M inequalities Pf classes HRN NN HB HM MN Hsimple W1 C1) as (T1 & T2).
  assert (EN : nonempty (c_maps c) = true) by (destruct (c_maps c); [congruence|reflexivity]). rewrite EN in E1. rewrite <- E1 in T1, T2. rewrite <- EM in T2, C1, Hsimple.
  assert (IF : Forall int_row F) by (eapply Forall_impl; [|exact BF]; intros r Hr; apply negatable_int in Hr; exact Hr).
  assert (PE : Permutation (concat classes) F) by (apply NoDup_Permutation; auto; destruct (homogenised_pos (S n) _ HD HH) as (_ & _ & Hnz); rewrite (result_fme t order (S n) _ Ht Ho (HR t Ht) HD F Hnz HFm); apply fme_NoDup; auto).
  assert (IC : forall x, In x (concat classes) -> length x = S n /\ int_row x) by (intros x Hx; apply A2 in Hx; split; [apply (dims_in (S n) F); auto|rewrite Forall_forall in IF; auto]).
  assert (ER : map wide_row (map row_constraint (concat classes)) = concat classes).
  { rewrite map_map. clear - IC. induction (concat classes) as [|x l IH]; cbn [map]; [reflexivity|]. rewrite IH by (intros; apply IC; right; auto). f_equal. apply row_constraint_row. intros ->. destruct (IC [] (or_introl eq_refl)) as (L & _). discriminate L. }
  assert (ED : dims (S n) (concat classes)) by (apply Forall_forall; intros x Hx; apply IC; auto).
  eexists. split; [exact T1|]. split; [exact T2|]. unfold fits_together, equations_fit, constraint_symmetries. cbn [s_equations s_inequalities s_names s_maps s_dimension].
  split; [|split; [intros k []|split; [reflexivity|split; [reflexivity|split; [|split; [reflexivity|split; [rewrite ER; auto|split; [intros f; rewrite ER; symmetry; apply A2|]]]]]]]].
  - split; [|split; [|split; auto]].
    + intros E. apply map_eq_nil in E. rewrite E in A2. destruct F as [|f F']; [congruence|]. apply (A2 f). left; auto.
    + intros k Hk. apply in_map_iff in Hk as (x & <- & Hx). unfold row_constraint. cbn [fst]. rewrite (proj1 (IC x Hx)). reflexivity.
  - intros m Hm. destruct (Hsym m Hm) as (M1 & M2 & _). split; auto. split; auto. split; [|exists []; split; constructor].
    apply permuted_rearranges; auto; [apply Forall_forall; intros x Hx; apply IC; auto|]. apply (Permutation_trans (Permutation_map _ PE)). apply (Permutation_trans (A3 m Hm)). apply Permutation_sym; auto.
  - intros q Hq. rewrite <- (rows_hull n (c_points c) (c_rays c) (file_rows c so) q) by (auto; apply HS). rewrite (hull_rows t order n (file_rows c so) [] F q) by (auto; constructor).
    unfold all_satisfied, constraints_of. cbn [s_equations s_inequalities app]. split.
    + intros (_ & H) k Hk. rewrite map_map in Hk. apply in_map_iff in Hk as (x & <- & Hx). apply (satisfies_row n); auto; [apply IC; auto|apply IC; auto|]. apply A2 in Hx. exact (H x Hx).
    + intros H. split; [intros e []|]. intros f Hf. apply A2 in Hf. refine (proj1 (satisfies_row n f q (proj1 (IC f Hf)) (proj2 (IC f Hf)) Hq) _). apply H. rewrite map_map. apply (in_map (fun x => snd (row_constraint x))). auto.
Qed.
Print Assumptions C63_facets_reread.
(** Vertex enumeration of that file, if the hull contains no line: the images of what is printed generate the convex hull of the points plus the conical hull of the rays of the first file; one
    vertex of it of every class is printed, and one direction of every class of its extreme directions. *)
Theorem C63_facets_then_vertices : forall t order fs args name so content c n (F : list vec) body lines M,
  t <> INT16 -> sort_order order -> asks args name so -> fs name = Some content -> early_keyword content -> file_text nothing (Some content) c ->
  agree c n -> c_points c <> [] -> file_symmetries c n -> c_maps c <> [] -> Forall simple_map (c_maps c) -> (0 < n)%nat -> Z.of_nat (S n) < 2 ^ 64 ->
  good_names (c_names c) -> names_text body (c_names c) -> written (map_line (c_names c)) lines M -> c_maps c = map (completed (c_names c)) M ->
  m_extract_equations (arith t) (file_rows c so) = Ok [] -> m_fme (arith t) order (file_rows c so) = Ok F -> F <> [] -> Forall negatable_row F ->
  (forall f m k, In f F -> In m (c_maps c) -> facet_load m f k <= int_max) ->
  let original := hull n (map coordinates_of (c_points c)) (map coordinates_of (c_rays c)) in
  contains_no_line n original ->
  exists fuel0, forall fuel out, (fuel0 <= fuel)%nat -> m_facet_program t order fs fuel args = Some (out, Ok tt) ->
  exists s, system_text no_system (Some (with_maps body lines out)) s /\
  forall t' order' fs' args' name' so' (F' : list vec),
    t' <> INT16 -> sort_order order' -> asks args' name' so' -> fs' name' = Some (with_maps body lines out) -> m_fme (arith t') order' (system_rows s so') = Ok F' -> Forall negatable_row F' ->
    exists fuel1, forall fuel' out', (fuel1 <= fuel')%nat -> m_vertex_program t' order' fs' fuel' args' = Some (out', Ok tt) ->
    exists vertices P rays R,
      out' = vertex_text vertices rays (match P with [] => true | _ => false end) (match R with [] => true | _ => false end) true /\
      section_lines vertices P /\ section_lines rays R /\
      (forall p : list Q, length p = n -> (original p <-> exists points directions,
        (forall q, In q points -> exists q0, In q0 (map coordinates_of P) /\ moved (c_maps c) q0 q) /\ (forall d, In d directions -> exists d0, In d0 (map coordinates_of R) /\ turned (c_maps c) d0 d) /\
        hull n points directions p)) /\
      (forall q, In q (map coordinates_of P) -> vertex_of n original q) /\
      (forall p, vertex_of n original p -> exists q p', In q (map coordinates_of P) /\ moved (c_maps c) p p' /\ same_point p' q) /\
      listed_once (fun p q => exists p', moved (c_maps c) p p' /\ same_point p' q) (map coordinates_of P) /\
      (forall d, In d (map coordinates_of R) -> extreme_ray_of n original d) /\
      (forall d, extreme_ray_of n original d -> exists e d', In e (map coordinates_of R) /\ turned (c_maps c) d d' /\ multiple d' e) /\
      listed_once (fun d e => exists d', turned (c_maps c) d d' /\ multiple d' e) (map coordinates_of R).
Proof.
  intros t order fs args name so content c n F body lines M Ht Ho HA HF HK HT HG Hne Hsym HMne Hsimple H0 Hmem HN HB HM EM HE HFm HFne BF HLoad original HL.
  destruct (C63_facets_reread t order fs args name so content c n F body lines M Ht Ho HA HF HK HT HG Hne Hsym HMne Hsimple H0 Hmem HN HB HM EM HE HFm HFne BF HLoad) as (f0 & K). exists f0. intros fuel out Hfuel Hout.
  destruct (K fuel out Hfuel Hout) as (s & K1 & K2 & K3 & K4 & K5 & K6 & K7 & _ & _ & _ & K8). exists s. split; auto. intros t' order' fs' args' name' so' F' Ht' Ho' HA' HF' HFm' BF'. assert (HS := system_sound _ _ _ K2 no_system_sound).
  assert (PT : exists p, length p = n /\ original p).
  { destruct (c_points c) as [|p0 P0] eqn:EP; [congruence|]. exists (coordinates_of p0). split; [unfold coordinates_of; rewrite map_length; apply HG; rewrite EP; left; auto|]. unfold original. cbn [map]. apply hull_first. }
  destruct PT as (p & Hp & Hpo). assert (Hps : all_satisfied (constraints_of s) p) by (apply K8; auto).
  assert (HP : pointed n (constraints_of s)) by (apply (no_line_pointed n (constraints_of s) p); auto; apply (no_line_ext n original); auto).
  destruct (C50_reduced t' order' fs' args' name' so' _ s n F' Ht' Ho' HA' HF' K1 K2 K3 K4 H0 K7 HP HFm' BF') as (f1 & K9). exists f1. intros fuel' out' Hf' Hout'.
  destruct (K9 fuel' out' Hf' Hout') as (vertices & P & rays & R & E1 & L1 & L2 & X1 & X2 & X3 & X4 & X5 & X6 & X7). exists vertices, P, rays, R. rewrite K6 in *.
  assert (VV : forall q, vertex_of n (all_satisfied (constraints_of s)) q <-> vertex_of n original q) by (intros q; apply vertex_of_ext; intros x Hx; symmetry; apply K8; auto).
  assert (EE : forall d, extreme_move n (constraints_of s) d <-> extreme_ray_of n original d).
  { intros d. rewrite <- (extreme_ray_move n (constraints_of s) d p Hp Hps (system_decided s HS)). apply extreme_ray_ext. intros x Hx. symmetry. apply K8; auto. }
  split; [rewrite E1; destruct (c_maps c); [congruence|reflexivity]|]. split; auto. split; auto. split; [intros q Hq; rewrite <- (X1 q Hq); apply K8; auto|]. split; [intros q Hq; apply VV; auto|]. split; [intros q Hq; apply X3; apply VV; auto|]. split; auto.
  split; [intros d Hd; apply EE; auto|]. split; [intros d Hd; apply X6; apply EE; auto|auto].
Qed.
Print Assumptions C63_facets_then_vertices.

(** *** Example: the file of C48 *)
Open Scope nat_scope.
Definition mirror_again : text := with_maps (lit "x y") (line "y x") (line "Reduced Inequalities:" ++ line "-2x -2y <= -1" ++ line "-y <= 0").
Lemma mirror_no_line : contains_no_line 2 (hull 2 (map coordinates_of (c_points mirror_contents)) (map coordinates_of (c_rays mirror_contents))).
Proof.
  intros p d Lp Ld H. assert (X : forall s : Q, (0 <= nth 0 p 0 + s * nth 0 d 0)%Q /\ (0 <= nth 1 p 0 + s * nth 1 d 0)%Q).
  { intros s. destruct (H s) as (mus & nus & L1 & L2 & P1 & P2 & _ & Hc). rewrite Forall_forall in P1, P2.
    destruct mus as [|m1 [|m2 [|]]]; try discriminate L1. destruct nus as [|n1 [|n2 [|]]]; try discriminate L2.
    assert (M1 : (0 <= m1)%Q) by (apply P1; cbn; auto). assert (M2 : (0 <= m2)%Q) by (apply P1; cbn; auto). assert (N1 : (0 <= n1)%Q) by (apply P2; cbn; auto). assert (N2 : (0 <= n2)%Q) by (apply P2; cbn; auto).
    assert (C0 := Hc 0 ltac:(lia)). assert (C1 := Hc 1 ltac:(lia)). destruct p as [|a [|b [|]]]; try discriminate Lp. destruct d as [|x [|y [|]]]; try discriminate Ld. cbn in C0, C1 |- *.
    change (inject_Z 1 / inject_Z 2)%Q with (1 # 2)%Q in *. change (inject_Z 0 / inject_Z 1)%Q with (0 # 1)%Q in *. change (inject_Z 1 / inject_Z 1)%Q with (1 # 1)%Q in *. change (inject_Z 2 / inject_Z 1)%Q with (2 # 1)%Q in *. split; lra. }
  assert (Z0 : forall a b : Q, (forall s, (0 <= a + s * b)%Q) -> (b == 0)%Q).
  { intros a b G. assert (C1 : (- b <= 0)%Q) by (apply (bounded_slope (- a) (- b) 0); intros s _; specialize (G s); lra). assert (C2 : (b <= 0)%Q) by (apply (bounded_slope (- a) b 0); intros s _; specialize (G (- s)%Q); lra). lra. }
  destruct d as [|x [|y [|]]]; try discriminate Ld. intros [|[|[|j]]]; cbn [nth]; [apply (Z0 (nth 0 p 0%Q)); intros s; apply X|apply (Z0 (nth 1 p 0%Q)); intros s; apply X|reflexivity|reflexivity].
Qed.
Example C63_facets_example :
  c_maps mirror_contents <> [] /\ Forall simple_map (c_maps mirror_contents) /\ names_text (lit "x y") (c_names mirror_contents) /\
  (exists M, written (map_line (c_names mirror_contents)) (line "y x") M /\ c_maps mirror_contents = map (completed (c_names mirror_contents)) M) /\
  (exists F : list vec, m_fme (arith SAFE) sorted_order (file_rows mirror_contents NoSorting) = Ok F /\ F <> [] /\ Forall negatable_row F /\ forall f m k, In f F -> In m (c_maps mirror_contents) -> (facet_load m f k <= int_max)%Z) /\
  contains_no_line 2 (hull 2 (map coordinates_of (c_points mirror_contents)) (map coordinates_of (c_rays mirror_contents))) /\
  m_facet_program SAFE sorted_order (one_file mirror) 40 [lit "f"] = Some (line "Reduced Inequalities:" ++ line "-2x -2y <= -1" ++ line "-y <= 0", Ok tt) /\
  m_vertex_program SAFE sorted_order (one_file mirror_again) 60 [lit "f"] = Some (line "Reduced Vertices:" ++ line "1/2 0 " ++ line "Reduced Rays:" ++ line "  1  0", Ok tt).
Proof.
  split; [discriminate|]. split; [repeat constructor; cbn; try lia; intuition|]. split; [apply xy_text|].
  split. { exists [[[(1, 1%Z)]; [(0, 1%Z)]]]. split; [|reflexivity]. apply (written_line _ (lit "y x") _ [] []); [exact exchange_line|constructor]. }
  split.
  { eexists. split; [vm_compute; reflexivity|]. split; [discriminate|]. split; [repeat constructor; unfold negatable_row; repeat constructor; lia|].
    intros f m k [<-|[<-|[<-|[]]]] [<-|[]]; destruct k as [|[|[|[|k]]]]; vm_compute; discriminate. }
  split; [apply mirror_no_line|]. split; [vm_compute; reflexivity|]. vm_compute. reflexivity.
Qed.
(** With equations (not covered by the theorems above): the reduced output of facet enumeration of the segment from (1, 0) to (0, 1) (see C63_example), with names and maps before it, is read
    again, too. *)
Definition swapped_third : text := with_maps (lit "x y") (line "y x") (line "Equations:" ++ line "x +y = 1" ++ line "" ++ line "Reduced Inequalities:" ++ line "y <= 1").
Example C63_equations_example :
  m_vertex_program SAFE sorted_order (one_file swapped_third) 60 [lit "f"] = Some (line "Reduced Vertices:" ++ line "1 0 ", Ok tt).
Proof. vm_compute. reflexivity. Qed.
