(** * PropertiesProgram: the double description programs, from rows to text (C45, C46). *)
From Coq Require Import List ZArith QArith Arith Bool Ascii String Lia Lqa.
From Verif Require Import Base Spec LinAlg Cone ListUtil ArithModel MatrixModel FmeModel SafeIntModel IntTypes RowLcm StreamModel StreamProofs IntLcm InputModel InputProofs InputTotal VertexInput ClassesModel
  ConstraintModel ConstraintInput ConstraintSection PropertiesVertices PropertiesConstraints OutputModel OutputProofs PropertiesOutput Hull Corners FmeRefine FmeTheorems NormTheorems Samples
  ClassesProofs ApplyTheorems OrbitTheorems PropertiesMaps PropertiesFme MapModel.
Import ListNotations.
Open Scope Z_scope.
Open Scope list_scope.

(** ** Specification *)
(** A printed line and the constraint that it denotes: with names, terms, relation and right hand side; without names, the row of the coefficients and the constant,
    with the constant on the left hand side. *)
Inductive denotes (names : list text) (n : nat) (type : constraint_type) : text -> constraint -> Prop :=
| denotes_named line xs op b : names <> [] -> named_text names line xs op b -> denotes names n type line {| terms := xs; operator := op; constant := b |}
| denotes_raw u line zs b : names = [] -> blanks u -> raw_text line zs b -> length zs = n ->
    denotes names n type (u ++ line) {| terms := enumerate zs; operator := default_operator type; constant := - b |}.
Definition satisfies (c : constraint) (p : list Q) : Prop := holds (operator c) (linear_form (terms c) p) (inject_Z (constant c)).
(** The text of facet enumeration: a section of equations unless there is none, an empty line, and a section of inequalities. *)
Definition facet_text (equations : text) (inequalities : text) (no_equations : bool) (reduced : bool) : text :=
  (if no_equations then [] else lit "Equations:" ++ newline :: equations ++ [newline]) ++ (if reduced then lit "Reduced " else []) ++ lit "Inequalities:" ++ newline :: inequalities.

(** ** From rows to lines *)
Lemma printed_denotes type names n row : good_names names -> printable names row -> length row = S n -> (names = [] \/ length names = n) ->
  exists line c, m_pretty row names (relation_sign type) = Ok line /\ denotes names n type line c /\ same_solutions type n (terms c) (operator c) (constant c) row.
Proof.
  intros (Hd & Hn & Ho & Hlen) (zs & b & -> & HN & HP) Hrow Hnn. assert (HI := negatable_int _ HN). assert (HS := negatable_small _ HN).
  apply Forall_app in HI as [HIz HIb]. apply Forall_app in HS as [HSz HSb]. apply Forall_inv in HIb, HSb. destruct (small_range b HSb) as [_ HIb'].
  rewrite app_length in Hrow. cbn [length] in Hrow. destruct names as [|n0 names0].
  - destruct (print_row_raw zs b HIz HIb) as (u & l & E & Hu & Hne & HR). exists (u ++ l). eexists. split; [cbn [m_pretty]; rewrite E; reflexivity|]. split; [apply (denotes_raw [] n type u l zs b eq_refl Hu HR ltac:(lia))|].
    cbn [terms operator constant]. assert (S := oriented_solutions type (length zs) (enumerate zs) (default_operator type) (- b) ltac:(destruct type; cbn; auto) (enumerate_indices zs)).
    unfold coefficient_row in S. rewrite enumerate_coefficients, Z.opp_involutive in S. replace n with (length zs) by lia. destruct type; exact S.
  - set (names := n0 :: names0) in *. destruct (HP ltac:(discriminate)) as [Hl Hnz]. apply (nonzero_exists 0) in Hnz.
    destruct (pretty_named type names zs b ltac:(discriminate) Hn Hl HIz HIb HIb' Hnz) as (line & E & HT & _).
    exists line. eexists. split; [exact E|]. split; [apply denotes_named; [discriminate|exact HT]|]. cbn [terms operator constant].
    assert (EN : oriented (relation_of type) (coefficient_row (length names) (nonzero_terms 0 zs) (- b)) = zs ++ [b]).
    { unfold coefficient_row. rewrite <- Hl, nonzero_coefficients, Z.opp_involutive. destruct type; reflexivity. }
    rewrite <- EN. replace n with (length names) by lia. apply oriented_solutions; [destruct type; cbn; auto|]. eapply named_indices; eauto.
Qed.
Lemma matrix_denotes t type names n rows : good_names names -> Forall (printable names) rows -> dims (S n) rows -> (names = [] \/ length names = n) ->
  exists lines P, m_pretty_matrix t names (relation_sign type) rows = say lines /\ written (denotes names n type) lines P /\ represents_all type n P rows.
Proof.
  intros Hn Hp Hdim Hnn. unfold m_pretty_matrix. revert Hdim. induction Hp as [|row rows Hp _ IH]; intros Hdim; [exists [], []; split; [reflexivity|split; constructor]|].
  apply Forall_cons_iff in Hdim as [Hrow Hdim]. destruct (IH Hdim) as (lines & P & E & W & R). destruct (printed_denotes type names n row Hn Hp Hrow Hnn) as (line & c & EL & D & S).
  exists (line ++ newline :: lines), (c :: P). split; [|split].
  - cbn [for_all]. rewrite E. unfold m_pretty_line. destruct Hp as (zs & b & _ & HN & _). rewrite (C40_conversion t row) by (apply negatable_int; auto). cbn [calc]. rewrite EL.
    cbn [calc say andthen fst snd]. unfold end_line. rewrite <- app_assoc. reflexivity.
  - apply written_line; auto.
  - constructor; auto.
Qed.
Lemma represents_satisfied type n P rows p : represents_all type n P rows -> length p = n -> ((forall c, In c P -> satisfies c p) <-> (forall row, In row rows -> row_holds type row p)).
Proof.
  intros H Hp. induction H as [|c row P rows [_ S] _ IH]; [split; intros _ ? []|]. specialize (S p Hp). split; intros K z [<-|Hz].
  - apply S. apply K. left; auto.
  - apply IH; auto. intros c' Hc'. apply K. right; auto.
  - apply S. apply K. left; auto.
  - apply (proj2 IH); auto. intros r' Hr'. apply K. right; auto.
Qed.
Lemma homogenised_rows n V : dims (S n) V -> homogenised (S n) V -> homogeneous n V.
Proof.
  intros HV [H _]. unfold homogeneous. rewrite Forall_forall. intros v Hv. split; [apply (dims_in (S n) V v HV Hv)|]. specialize (H v Hv). replace (S n - 1)%nat with n in H by lia. exact H.
Qed.
(** ** No maps: every row is its own class *)
Lemma orbit_none t tg r x : orbit t tg [] r x -> x = r.
Proof. intros H. induction H as [|x m y _ _ []]; auto. Qed.
Lemma classes_none t tg (rows : list vec) fuel : (length rows <= fuel)%nat -> exists out, m_classes_of (arith t) fuel tg [] rows = Ok (Some out) /\ forall x, In x out <-> In x rows.
Proof.
  intros Hf. destruct (C27_returns t tg [] rows rows) with (fuel := fuel) as (out & E); auto.
  - intros r x Hr Hx. apply orbit_none in Hx. subst x. auto.
  - intros r x m _ _ [].
  - exists out. split; auto. destruct (C27_covering t tg [] fuel rows out E) as [C1 C2]. intros x. split.
    + intros Hx. destruct (C1 x Hx) as (r & Hr & [Ho _]). apply orbit_none in Ho. subst x. auto.
    + intros Hx. destruct (C2 x Hx) as (s & y & Hs & Ho & Hy & [Hl _]). apply orbit_none in Ho, Hl. subst. auto.
Qed.

(** The rows of the facets can be printed. *)
Lemma facets_printable t order n (V F : list vec) names : t <> INT16 -> sort_order order -> rows_representable t V -> dims (S n) V -> homogenised (S n) V ->
  (names = [] \/ length names = n) -> m_fme (arith t) order V = Ok F -> Forall negatable_row F -> dims (S n) F /\ Forall (printable names) F.
Proof.
  intros Ht Ho HR HV HH HNl HF BF.
  assert (Hnz := proj2 (proj2 (homogenised_pos (S n) V HV HH))). destruct HH as (_ & v & Hv & Hpos).
    assert (DF : forall f, In f F -> length f = S n /\ dot f v <= 0) by (intros f Hf; apply (C02_rows_valid t order (S n) V F f v); auto).
    assert (PF : forall f, In f F -> primitive f) by (intros f Hf; apply (C03_rows_are_facets t order (S n) V F f); auto).
    assert (TF : ~ In (unit_vec (S n) (S n - 1) (-1)) F) by (apply (C04_trivial_row_not_printed t order (S n) V F); auto; exists v; split; auto; lia).
    replace (S n - 1)%nat with n in * by lia.
    split; [apply Forall_forall; intros f Hf; apply (DF f Hf)|]. apply Forall_forall. intros f Hf. destruct (DF f Hf) as [Hl Hdot]. destruct (row_split n f Hl) as (zs & b & -> & Hz & _).
    exists zs, b. split; auto. split; [rewrite Forall_forall in BF; auto|]. intros Hne. destruct HNl as [HNl|HNl]; [congruence|]. split; [lia|].
    destruct (existsb (fun z => negb (z =? 0)) zs) eqn:EX; [apply existsb_exists in EX as (z & H1 & H2); exists z; split; auto; apply negb_true_iff, Z.eqb_neq in H2; auto|]. exfalso.
    assert (Z0 : forall z, In z zs -> z = 0).
    { intros z Hin. destruct (Z.eq_dec z 0); auto. assert (X : existsb (fun z => negb (z =? 0)) zs = true) by (apply existsb_exists; exists z; split; auto; apply negb_true_iff, Z.eqb_neq; auto). congruence. }
    assert (D : dot (zs ++ [b]) v = b * nth n v 0).
    { assert (Hv' := dims_in (S n) V v HV Hv). destruct (row_split n v Hv') as (ys & c & -> & Hy & Hc & _). rewrite Hc. clear - Z0 Hz Hy. subst n. revert ys Hy. induction zs as [|z zs IH]; intros [|y ys] Hy; cbn in Hy; try discriminate; cbn [app dot].
      - ring.
      - rewrite IH by (try lia; intros; apply Z0; right; auto). rewrite (Z0 z) by (left; auto). ring. }
    assert (Hb : b <= 0) by nia. assert (PG := PF _ Hf).
    assert (Eb : - b = 1) by (apply PG; [lia|]; intros x Hx; apply in_app_iff in Hx as [Hx|[<-|[]]]; [rewrite (Z0 x Hx); exists 0; lia|exists (-1); lia]).
    apply TF. replace (unit_vec (S n) n (-1)) with (zs ++ [b]); auto. replace b with (-1) by lia. apply (vec_ext_nth (S n)); auto using unit_vec_length.
    { rewrite app_length; cbn; lia. }
    intros j Hj. unfold unit_vec. rewrite nth_upd, nth_vzero, vzero_length. destruct (Nat.eqb_spec j n) as [->|].
    - destruct (Nat.ltb_spec n (S n)); [|lia]. rewrite app_nth2 by lia. rewrite Hz, Nat.sub_diag. cbn. reflexivity.
    - rewrite app_nth1 by lia. cbn [andb]. apply Z0. apply nth_In. lia.
Qed.

(** The rows that are printed can be printed. *)
Lemma equations_printable t n (V E : list vec) names : t <> INT16 -> rows_representable t V -> dims (S n) V -> homogenised (S n) V -> (names = [] \/ length names = n) ->
  m_extract_equations (arith t) V = Ok E -> Forall negatable_row E -> dims (S n) E /\ Forall (printable names) E.
Proof.
  intros Ht HR HV HH HNl HE BE.
  destruct HH as (_ & v & Hv & Hpos). replace (S n - 1)%nat with n in Hpos by lia.
    assert (DE : forall e, In e E -> length e = S n /\ dot e v = 0) by (intros e He; apply (C02_equations_valid t (S n) V E e v); auto; lia).
    assert (PE : forall e, In e E -> primitive e).
    { destruct (C05_equations t (S n) V E Ht HR HV) as (_ & K & _); auto; try lia; [destruct V; [destruct Hv|cbn; lia]|]. intros e He. apply (K e He). }
    split; [apply Forall_forall; intros e He; apply (DE e He)|]. apply Forall_forall. intros e He. destruct (DE e He) as [Hl Hdot]. destruct (row_split n e Hl) as (zs & b & -> & Hz & _).
    exists zs, b. split; auto. split; [rewrite Forall_forall in BE; auto|]. intros Hne. destruct HNl as [HNl|HNl]; [congruence|]. split; [lia|].
    destruct (existsb (fun z => negb (z =? 0)) zs) eqn:EX; [apply existsb_exists in EX as (z & H1 & H2); exists z; split; auto; apply negb_true_iff, Z.eqb_neq in H2; auto|]. exfalso.
    assert (Z0 : forall z, In z zs -> z = 0).
    { intros z Hin. destruct (Z.eq_dec z 0); auto. assert (X : existsb (fun z => negb (z =? 0)) zs = true) by (apply existsb_exists; exists z; split; auto; apply negb_true_iff, Z.eqb_neq; auto). congruence. }
    assert (D : dot (zs ++ [b]) v = b * nth n v 0).
    { assert (Hv' := dims_in (S n) V v HV Hv). destruct (row_split n v Hv') as (ys & c & -> & Hy & Hc & _). rewrite Hc. clear - Z0 Hz Hy. subst n. revert ys Hy. induction zs as [|z zs IH]; intros [|y ys] Hy; cbn in Hy; try discriminate; cbn [app dot].
      - ring.
      - rewrite IH by (try lia; intros; apply Z0; right; auto). rewrite (Z0 z) by (left; auto). ring. }
    assert (b = 0) by nia. subst b. assert (Q := PE _ He 0 ltac:(lia)). enough (0 = 1) by lia. apply Q. intros x Hx. apply in_app_iff in Hx as [Hx|[<-|[]]]; [rewrite (Z0 x Hx)|]; exists 0; lia.
Qed.
(** ** C45 *)
(** Facet enumeration without maps: the program exits with status 0, and its output is a list of equations and inequalities whose common solutions are exactly the points
    of the convex hull of the given points plus the conical hull of the given rays. *)
Theorem C45_facets : forall t order n (V E F : list vec) names fuel,
  t <> INT16 -> sort_order order -> rows_representable t V -> dims (S n) V -> homogenised (S n) V ->
  good_names names -> (names = [] \/ length names = n) ->
  m_extract_equations (arith t) V = Ok E -> m_fme (arith t) order V = Ok F -> Forall negatable_row E -> Forall negatable_row F -> (length F <= fuel)%nat ->
  exists equations Pe inequalities Pf,
    m_facet_call t order fuel V names [] = Some (facet_text equations inequalities (match Pe with [] => true | _ => false end) false, Ok tt) /\
    written (denotes names n Equation) equations Pe /\ written (denotes names n Inequality) inequalities Pf /\
    forall p : list Q, length p = n ->
      (hull n (points_of V) (rays_of V) p <-> forall c, In c (Pe ++ Pf) -> satisfies c p).
Proof.
  intros t order n V E F names fuel Ht Ho HR HV HH HN HNl HE HF BE BF Hfuel.
  destruct (equations_printable t n V E names Ht HR HV HH HNl HE BE) as [DE PE].
  assert (DF := facets_printable t order n V F names Ht Ho HR HV HH HNl HF BF).
  destruct DF as [DF PF].
  destruct (matrix_denotes t Equation names n E HN PE DE HNl) as (equations & Pe & E1 & W1 & R1).
  destruct (classes_none t Facet_tag F fuel Hfuel) as (out & EO & HO).
  assert (DO : dims (S n) out) by (apply Forall_forall; intros x Hx; apply (dims_in (S n) F); auto; apply HO; auto).
  assert (PO : Forall (printable names) out) by (apply Forall_forall; intros x Hx; rewrite Forall_forall in PF; apply PF; apply HO; auto).
  destruct (matrix_denotes t Inequality names n out HN PO DO HNl) as (inequalities & Pf & E2 & W2 & R2).
  exists equations, Pe, inequalities, Pf. split; [|split; [exact W1|split; [exact W2|]]].
  - unfold m_facet_call. change (num (arith t)) with Z in *. rewrite HE. cbn [m_normalize_maps mapM]. rewrite HF. cbn [bind]. rewrite EO. f_equal. unfold m_print_inequalities.
    unfold relation_sign in E1, E2. rewrite E2. cbn [nonempty m_reduced]. assert (EP : E = [] <-> Pe = []) by (inversion R1; subst; split; intros; congruence).
    destruct E as [|e0 E']; destruct Pe as [|c0 Pe']; try (exfalso; destruct EP as [EP1 EP2]; discriminate (EP1 eq_refl) || discriminate (EP2 eq_refl)).
    + cbn [say andthen fst snd app facet_text]. unfold facet_text, end_line. rewrite <- app_assoc. reflexivity.
    + rewrite E1. cbn [say andthen fst snd app facet_text]. unfold facet_text, end_line. rewrite <- !app_assoc. cbn [app]. rewrite <- !app_assoc. reflexivity.
  - intros p Hp. destruct (clear_point p) as (l & xs & Hl & HX). assert (Hxs : length xs = n) by (rewrite <- (forall2_length _ _ _ HX); auto).
    rewrite (hull_in_cone n V xs l p) by (auto using homogenised_rows).
    rewrite (C01_description t order (S n) V E F Ht Ho HR HV HH HE HF) by (rewrite app_length; cbn; lia).
    replace (S n - 1)%nat with n by lia. rewrite app_nth2 by lia. rewrite Hxs, Nat.sub_diag. cbn [nth].
    assert (S1 := represents_satisfied Equation n Pe E p R1 Hp). assert (S2 := represents_satisfied Inequality n Pf out p R2 Hp).
    split.
    + intros (_ & K1 & K2) c Hc. apply in_app_iff in Hc as [Hc|Hc].
      * revert c Hc. apply S1. intros e He. apply (row_holds_dot Equation e p xs l); auto. rewrite Hxs. apply (dims_in (S n) E); auto.
      * revert c Hc. apply S2. intros f Hf. apply HO in Hf. apply (row_holds_dot Inequality f p xs l); auto. rewrite Hxs. apply (dims_in (S n) F); auto.
    + intros K. split; [lia|]. split.
      * intros e He. apply (row_holds_dot Equation e p xs l); auto; [rewrite Hxs; apply (dims_in (S n) E); auto|]. apply (proj1 S1); auto. intros c Hc. apply K. apply in_app_iff; auto.
      * intros f Hf. apply (row_holds_dot Inequality f p xs l); auto; [rewrite Hxs; apply (dims_in (S n) F); auto|]. apply (proj1 S2); [|apply HO; auto]. intros c Hc. apply K. apply in_app_iff; auto.
Qed.
Print Assumptions C45_facets.

(** ** C46 *)
(** The text of vertex enumeration: a section of vertices and a section of rays, each only if there is something in it. *)
Definition vertex_text (vertices rays : text) (no_vertices no_rays : bool) (reduced : bool) : text :=
  (if no_vertices then [] else (if reduced then lit "Reduced " else []) ++ lit "Vertices:" ++ newline :: vertices) ++
  (if no_rays then [] else (if reduced then lit "Reduced " else []) ++ lit "Rays:" ++ newline :: rays).
(** The point or direction of a line of fractions. *)
Definition coordinates_of (pts : list (Z * Z)) : list Q := map (fun f => inject_Z (fst f) / inject_Z (snd f))%Q pts.

Lemma in_cone_same n (F G : list vec) x : dims n F -> dims n G -> length x = n -> (forall f, In f F -> In f G) -> in_cone n F x -> in_cone n G x.
Proof.
  intros HF HG Hx Hi Hc. apply (proj1 (gen_in_cone n G x HG)). assert (K := proj2 (gen_in_cone n F x HF) (conj Hx Hc)). clear Hx Hc.
  induction K; [apply gen_zero|apply gen_add; auto|eapply gen_div; eauto].
Qed.
Lemma represents_point pts row : Forall (fun p => 0 < snd p) pts -> represents pts row -> same_point (coordinates_of pts) (point_of_row row).
Proof.
  intros Hpos (xs & l & -> & Hl & HF & _). unfold point_of_row, coordinates_of, same_point. rewrite last_last, removelast_last. revert Hpos. induction HF as [|x p xs pts E _ IH]; intros Hpos; cbn [map]; constructor.
  - apply Forall_inv in Hpos. assert (P1 := inject_pos _ Hpos). assert (P2 := inject_pos _ Hl). assert (E' : (inject_Z x * inject_Z (snd p) == inject_Z (fst p) * inject_Z l)%Q) by (rewrite <- !inject_Z_mult, E; reflexivity).
    assert (N1 : ~ (inject_Z (snd p) == 0)%Q) by (intros K; rewrite K in P1; discriminate P1). assert (N2 : ~ (inject_Z l == 0)%Q) by (intros K; rewrite K in P2; discriminate P2).
    apply (Qmult_inj_r _ _ (inject_Z (snd p) * inject_Z l)); [intros K; apply Qmult_integral in K; tauto|].
    transitivity (inject_Z (fst p) * inject_Z l)%Q; [field; auto|]. transitivity (inject_Z x * inject_Z (snd p))%Q; [rewrite E'; reflexivity|field; auto].
  - apply IH. apply Forall_inv_tail in Hpos. auto.
Qed.

Lemma ray_same (rows : list vec) : Forall2 same_point (map coordinates_of (map (fun r => whole (removelast r)) rows)) (map ray_of_row rows).
Proof.
  induction rows as [|r rows IH]; cbn [map]; constructor; auto. unfold coordinates_of, whole, ray_of_row. rewrite map_map. generalize (removelast r). clear. intros l. induction l as [|x l IH]; cbn [map]; constructor; auto.
  cbn [fst snd]. change (inject_Z 1) with 1%Q. field.
Qed.
Lemma points_same P (rows : list vec) : Forall (Forall (fun p => 0 < snd p)) P -> Forall2 represents P rows -> Forall2 same_point (map coordinates_of P) (map point_of_row rows).
Proof. intros HP H. revert HP. induction H as [|p r P rows Hr _ IH]; intros HP; cbn [map]; constructor; apply Forall_cons_iff in HP as [H1 H2]; auto. apply represents_point; auto. Qed.
Lemma generator_rows t order n (A F : list vec) : t <> INT16 -> sort_order order -> rows_representable t A -> dims (S n) A -> (0 < n)%nat -> no_line (S n) A -> In (unit_vec (S n) n (-1)) A ->
  m_fme (arith t) order A = Ok F -> Forall negatable_row F -> dims (S n) F /\ homogeneous n F /\ Forall printable_generator F.
Proof.
  intros Ht Ho HR HA Hn HL HU HF BF. destruct (C41_extreme_rays t order (S n) A F) as (X1 & _ & _); auto; [replace (S n - 1)%nat with n by lia; auto|].
  assert (L : forall f, In f F -> length f = S n /\ 0 <= nth n f 0).
  { intros f Hf. destruct (X1 f Hf) as [((Hlen & Hs) & _) _]. split; auto. specialize (Hs _ HU). rewrite dot_unit in Hs by (auto; lia). lia. }
  split; [apply Forall_forall; intros f Hf; apply (L f Hf)|]. split; [apply Forall_forall; auto|]. apply Forall_forall. intros f Hf. destruct (L f Hf) as [H1 H2]. destruct (X1 f Hf) as [_ HP].
  destruct (row_split n f H1) as (xs & b & -> & Hx & Hb & _). exists xs, b. split; auto. split; [intros ->; cbn in Hx; lia|]. split; [rewrite Forall_forall in BF; auto|]. intros Hb0. split; [lia|auto].
Qed.
(** Every element of a list occurs once, up to the relation [R]. *)
Definition listed_once (R : list Q -> list Q -> Prop) (L : list (list Q)) : Prop := forall i j, (i < length L)%nat -> (j < length L)%nat -> R (nth i L []) (nth j L []) -> i = j.
Definition multiple (u v : list Q) : Prop := exists s, (0 < s)%Q /\ forall j, (nth j u 0 == s * nth j v 0)%Q.

Notation clears l := (Forall2 (fun q x => q * inject_Z l == inject_Z x)%Q).
Lemma clears_same l p q xs : same_point p q -> clears l p xs -> clears l q xs.
Proof. intros H. revert xs. induction H as [|x y p q E _ IH]; intros xs K; inversion K; subst; constructor; auto. rewrite <- E. auto. Qed.
Lemma represents_clears pts row : Forall (fun p => 0 < snd p) pts -> represents pts row -> exists xs l, row = xs ++ [l] /\ 0 < l /\ clears l (coordinates_of pts) xs.
Proof.
  intros Hp H. assert (S := represents_point pts row Hp H). destruct H as (xs & l & -> & Hl & _). exists xs, l. split; auto. split; auto. apply (clears_same l (point_of_row (xs ++ [l]))); [apply same_sym; auto|].
  unfold point_of_row. rewrite last_last, removelast_last. apply over. lia.
Qed.
Lemma vertices_clear P (conv : list vec) : Forall (Forall (fun p => 0 < snd p)) P -> Forall2 represents P conv ->
  Forall2 (fun q row => exists xs l, row = xs ++ [l] /\ 0 < l /\ clears l q xs) (map coordinates_of P) conv.
Proof. intros HP H. revert HP. induction H as [|p r P rows Hr _ IH]; intros HP; cbn [map]; constructor; apply Forall_cons_iff in HP as [H1 H2]; auto. apply represents_clears; auto. Qed.
Lemma whole_clears xs : clears 1 (coordinates_of (whole xs)) xs.
Proof. unfold coordinates_of, whole. rewrite map_map. induction xs as [|x xs IH]; cbn [map]; constructor; auto. cbn [fst snd]. change (inject_Z 1) with 1%Q. field. Qed.
Lemma rays_clear (cone : list vec) : Forall (fun r => exists xs, r = xs ++ [0]) cone ->
  Forall2 (fun q row => exists xs, row = xs ++ [0] /\ clears 1 q xs) (map coordinates_of (map (fun r => whole (removelast r)) cone)) cone.
Proof. induction 1 as [|r cone (xs & ->) _ IH]; cbn [map]; constructor; auto. exists xs. split; auto. rewrite removelast_last. apply whole_clears. Qed.
Lemma forall2_in_l {A B} (R : A -> B -> Prop) l m x : Forall2 R l m -> In x l -> exists y, In y m /\ R x y.
Proof. induction 1 as [|a b l m H _ IH]; [intros []|]; intros [<-|Hx]; [exists b; split; [left|]; auto|]. destruct (IH Hx) as (y & H1 & H2). exists y. split; [right|]; auto. Qed.
Lemma forall2_in_r {A B} (R : A -> B -> Prop) l m y : Forall2 R l m -> In y m -> exists x, In x l /\ R x y.
Proof. induction 1 as [|a b l m H _ IH]; [intros []|]; intros [<-|Hx]; [exists a; split; [left|]; auto|]. destruct (IH Hx) as (x & H1 & H2). exists x. split; [right|]; auto. Qed.
Lemma forall2_nth {A B} (R : A -> B -> Prop) l m i d d' : Forall2 R l m -> (i < length l)%nat -> R (nth i l d) (nth i m d').
Proof. intros H. revert i. induction H as [|a b l m H _ IH]; intros [|i] Hi; cbn in *; try lia; auto. apply IH. lia. Qed.
Lemma extreme_scale n A a x : 0 < a -> extreme_ray n A x -> extreme_ray n A (vscale a x).
Proof.
  intros Ha (H1 & H2 & H3). split; [apply solution_times; auto; lia|]. split.
  - intros E. apply H2. apply (vec_ext_nth n); [apply H1|apply vzero_length|]. intros j Hj. assert (K := f_equal (fun u => nth j u 0) E). cbn beta in K. rewrite nth_vscale, nth_vzero in K. rewrite nth_vzero. nia.
  - intros k y z Hk Hy Hz E. rewrite vscale_vscale in E. destruct (H3 (k * a) y z ltac:(nia) Hy Hz E) as (m & u & Hm & Hu & K). exists (m * a), u. split; [nia|]. split; auto.
    transitivity (vscale a (vscale u x)); [rewrite <- K, vscale_vscale; f_equal; ring|rewrite !vscale_vscale; f_equal; ring].
Qed.
Lemma clears_inj l m p xs ys : 0 < l -> 0 < m -> clears l p xs -> clears m p ys -> forall j, nth j xs 0 * m = nth j ys 0 * l.
Proof. intros Hl Hm H1 H2 j. apply inject_eq. rewrite !inject_Z_mult, <- (cleared_nth _ _ _ j H1), <- (cleared_nth _ _ _ j H2). ring. Qed.
Lemma primitive_same n (r r' : vec) g h : length r = n -> length r' = n -> primitive r -> primitive r' -> 0 < g -> 0 < h -> (forall j, g * nth j r 0 = h * nth j r' 0) -> r = r'.
Proof.
  intros L1 L2 P1 P2 Hg Hh H. apply (proportional_primitive n r r' g h); auto. apply (vec_ext_nth n); try (rewrite vscale_length; auto). intros j _. rewrite !nth_vscale. auto.
Qed.

(** The lines can be read again: the coordinates fit, and there are [n] in each line. *)
Definition readable_again (n : nat) (P R : list (list (Z * Z))) : Prop :=
  (exists rows, Forall2 represents P rows /\ Forall int_row rows) /\ (exists rows, Forall2 represents_ray R rows /\ Forall int_row rows) /\ (forall p, In p (P ++ R) -> length p = n).
Lemma vertex_call_lists : forall t order n (A F : list vec) fuel,
  t <> INT16 -> sort_order order -> rows_representable t A -> dims (S n) A -> (0 < n)%nat -> no_line (S n) A -> In (unit_vec (S n) n (-1)) A ->
  m_fme (arith t) order A = Ok F -> Forall negatable_row F -> (length F <= fuel)%nat ->
  exists vertices P rays R,
    m_vertex_call t order fuel A [] = Some (vertex_text vertices rays (match P with [] => true | _ => false end) (match R with [] => true | _ => false end) false, Ok tt) /\
    section_lines vertices P /\ section_lines rays R /\
    (forall p : list Q, length p = n -> (solves A p <-> hull n (map coordinates_of P) (map coordinates_of R) p)) /\
    (forall p : list Q, corner n A p <-> exists q, In q (map coordinates_of P) /\ same_point q p) /\
    listed_once same_point (map coordinates_of P) /\
    (forall d : list Q, extreme_direction n A d <-> length d = n /\ exists u, In u (map coordinates_of R) /\ multiple d u) /\
    listed_once multiple (map coordinates_of R) /\
    readable_again n P R.
Proof.
  intros t order n A F fuel Ht Ho HR HA Hn HL HU HF BF Hfuel. destruct (generator_rows t order n A F) as (DF & HomF & PF); auto.
  destruct (C41_extreme_rays t order (S n) A F) as (X1 & X2 & _); auto; [replace (S n - 1)%nat with n by lia; auto|].
  destruct (classes_none t Vertex_tag F fuel Hfuel) as (out & EO & HO).
  assert (NO : NoDup out).
  { apply (C27_classes t Vertex_tag [] fuel F out); auto. intros r Hr m []. }
  assert (DO : dims (S n) out) by (apply Forall_forall; intros x Hx; apply (dims_in (S n) F); auto; apply HO; auto).
  assert (HomO : homogeneous n out) by (apply Forall_forall; intros x Hx; unfold homogeneous in HomF; rewrite Forall_forall in HomF; apply HomF; apply HO; auto).
  assert (PO : Forall printable_generator out) by (apply Forall_forall; intros x Hx; rewrite Forall_forall in PF; apply PF; apply HO; auto).
  set (conv := filter is_vertex out). set (cone := filter (fun r => negb (is_vertex r)) out).
  assert (IC : forall r, In r conv <-> In r F /\ last r 0 <> 0).
  { intros r. unfold conv. rewrite filter_In, HO. unfold is_vertex. rewrite negb_true_iff, Z.eqb_neq. tauto. }
  assert (IR : forall r, In r cone <-> In r F /\ last r 0 = 0).
  { intros r. unfold cone. rewrite filter_In, HO. unfold is_vertex. rewrite negb_involutive, Z.eqb_eq. tauto. }
  destruct (vertex_lines_ok t conv) as (vertices & P & E1 & S1 & R1 & I1 & HP).
  { apply Forall_forall. intros r Hr. apply filter_In in Hr as [Hr _]. rewrite Forall_forall in PO. auto. }
  { apply Forall_forall. intros r Hr. apply filter_In in Hr as [_ Hr]. auto. }
  destruct (ray_lines_ok t cone) as (rays & R & E2 & S2 & R2 & I2 & HRw).
  { apply Forall_forall. intros r Hr. apply filter_In in Hr as [Hr _]. rewrite Forall_forall in PO. auto. }
  { apply Forall_forall. intros r Hr. apply filter_In in Hr as [_ Hr]. apply negb_true_iff; auto. }
  assert (CV := vertices_clear P conv HP R1).
  assert (CR : Forall2 (fun q row => exists xs, row = xs ++ [0] /\ clears 1 q xs) (map coordinates_of R) cone).
  { rewrite HRw. apply rays_clear. apply Forall_forall. intros r Hr. apply IR in Hr as [Hr Hz]. destruct (row_split n r (dims_in (S n) F r DF Hr)) as (xs & b & -> & _ & _ & Hb & _). exists xs. congruence. }
  assert (NV : NoDup conv) by (apply NoDup_filter; auto). assert (NR : NoDup cone) by (apply NoDup_filter; auto).
  exists vertices, P, rays, R. split; [|split; [exact S1|split; [exact S2|split; [|split; [|split; [|split; [|split]]]]]]].
  - unfold m_vertex_call. change (num (arith t)) with Z in *. rewrite HF. cbn [bind]. rewrite EO. f_equal. unfold m_print_vertices. rewrite split_ok by auto. cbn [calc nonempty m_reduced app]. fold conv cone.
    rewrite E1, E2. clear - R1 R2.
    destruct conv as [|c0 conv']; destruct P as [|p0 P']; try (inversion R1; fail); destruct cone as [|k0 cone']; destruct R as [|r0 R']; try (inversion R2; fail); cbn [say andthen fst snd app]; unfold vertex_text, end_line;
      rewrite <- ?app_assoc; cbn [app]; rewrite ?app_nil_r; reflexivity.
  - intros p Hp. destruct (clear_point p) as (l & xs & Hl & HX). assert (Hxs : length xs = n) by (rewrite <- (forall2_length _ _ _ HX); auto).
    unfold solves. rewrite (solution_rows n A p xs l) by auto. rewrite (C41_generators t order (S n) A F) by (auto; try lia; replace (S n - 1)%nat with n by lia; auto).
    assert (SP : Forall2 same_point (map coordinates_of P) (points_of out)) by (apply points_same; auto).
    assert (SR : Forall2 same_point (map coordinates_of R) (rays_of out)) by (rewrite HRw; apply ray_same).
    assert (HH := hull_in_cone n out xs l p HomO Hxs Hl HX). assert (Hlen : length (xs ++ [l]) = S n) by (rewrite app_length; cbn; lia). split.
    + intros [_ K]. apply (hull_same n (points_of out) (rays_of out)); auto using same_all_sym. apply HH. apply (in_cone_same (S n) F out); auto. intros f Hf. apply HO; auto.
    + intros K. split; [auto|]. apply (in_cone_same (S n) out F); auto; [intros f Hf; apply HO; auto|]. apply HH. revert K. apply hull_same; auto.
  - intros p. split.
    + intros Hc. assert (Hp := proj1 Hc). destruct (clear_point p) as (l & xs & Hl & HX). assert (Hxs : length xs = n) by (rewrite <- (forall2_length _ _ _ HX); auto).
      apply (corner_extreme n A p xs l) in Hc; auto. destruct (X2 _ Hc) as (f & k & s & Hf & Hk & Hs & E).
      destruct (row_split n f (dims_in (S n) F f DF Hf)) as (ys & b & -> & Hys & _ & Hb & _).
      assert (Ej : forall j, k * nth j (xs ++ [l]) 0 = s * nth j (ys ++ [b]) 0) by (intros j; rewrite <- !nth_vscale, E; reflexivity).
      assert (En := Ej n). rewrite !(nth_snoc n), Nat.eqb_refl in En by auto. assert (Hb0 : 0 < b) by nia.
      destruct (forall2_in_r _ _ _ (ys ++ [b]) CV) as (q & Hq & zs & b' & EZ & Hb' & HZ); [apply IC; rewrite last_last; split; auto; lia|]. apply app_inj_tail in EZ as [<- <-].
      exists q. split; auto. assert (Hq' : length q = n) by (rewrite (forall2_length _ _ _ HZ); auto). apply (same_nth_all n); auto. intros j.
      destruct (Nat.lt_ge_cases j n) as [Hj|Hj]; [|rewrite !nth_overflow by lia; reflexivity]. specialize (Ej j). rewrite !(nth_snoc n) in Ej by auto. destruct (Nat.eqb_spec j n); [lia|].
      assert (N := inject_zero (s * b) ltac:(nia)). apply (Qmult_inj_r _ _ (inject_Z (s * b))); auto. transitivity (inject_Z (s * nth j ys 0%Z)); [rewrite !inject_Z_mult, <- (cleared_nth _ _ _ j HZ); ring|].
      rewrite <- Ej, <- En, !inject_Z_mult, <- (cleared_nth _ _ _ j HX). ring.
    + intros (q & Hq & Hqp). destruct (forall2_in_l _ _ _ q CV Hq) as (r & Hr & xs & l & -> & Hl & HX). apply IC in Hr as [Hr _]. assert (Hlen := dims_in (S n) F _ DF Hr). rewrite app_length in Hlen. cbn [length] in Hlen.
      apply (corner_extreme n A p xs l); auto; [lia|apply (clears_same l q); auto|]. apply X1; auto.
  - intros i j Hi Hj HS. assert (Li := forall2_length _ _ _ CV). destruct (forall2_nth _ _ _ i [] [] CV Hi) as (xs & l & Ei & Hl & HX). destruct (forall2_nth _ _ _ j [] [] CV Hj) as (ys & m & Ej & Hm & HY).
    apply (proj1 (NoDup_nth conv []) NV i j); [exact (eq_ind _ (fun k => (i < k)%nat) Hi _ Li)|exact (eq_ind _ (fun k => (j < k)%nat) Hj _ Li)|]. assert (Ii : In (xs ++ [l]) conv) by (exact (eq_ind _ (fun r => In r conv) (nth_In conv [] (eq_ind _ (fun k => (i < k)%nat) Hi _ Li)) _ Ei)).
    assert (Ij : In (ys ++ [m]) conv) by (exact (eq_ind _ (fun r => In r conv) (nth_In conv [] (eq_ind _ (fun k => (j < k)%nat) Hj _ Li)) _ Ej)).
    transitivity (xs ++ [l]); [exact Ei|]. transitivity (ys ++ [m]); [|symmetry; exact Ej]. apply IC in Ii as [Ii _]. apply IC in Ij as [Ij _]. assert (L1 := dims_in (S n) F _ DF Ii). assert (L2 := dims_in (S n) F _ DF Ij).
    assert (K := clears_inj l m _ xs ys Hl Hm (clears_same _ _ _ _ HS HX) HY). rewrite app_length in L1, L2. cbn [length] in L1, L2.
    apply (primitive_same (S n) _ _ m l); auto; try (rewrite app_length; cbn; lia); [apply X1; auto|apply X1; auto|]. intros i'. rewrite !(nth_snoc n) by lia. destruct (Nat.eqb_spec i' n); [ring|]. specialize (K i'). lia.
  - intros d. split.
    + intros Hc. assert (Hp := proj1 Hc). split; auto. destruct (clear_point d) as (l & xs & Hl & HX). assert (Hxs : length xs = n) by (rewrite <- (forall2_length _ _ _ HX); auto).
      apply (direction_extreme n A d xs l) in Hc; auto. destruct (X2 _ Hc) as (f & k & s & Hf & Hk & Hs & E).
      destruct (row_split n f (dims_in (S n) F f DF Hf)) as (ys & b & -> & Hys & _ & Hb & _).
      assert (Ej : forall j, k * nth j (xs ++ [0]) 0 = s * nth j (ys ++ [b]) 0) by (intros j; rewrite <- !nth_vscale, E; reflexivity).
      assert (En := Ej n). rewrite !(nth_snoc n), Nat.eqb_refl in En by auto. assert (Hb0 : b = 0) by nia. subst b.
      destruct (forall2_in_r _ _ _ (ys ++ [0]) CR) as (q & Hq & zs & EZ & HZ); [apply IR; rewrite last_last; split; auto; lia|]. apply app_inj_tail in EZ as [<- _].
      exists q. split; auto. assert (Hq' : length q = n) by (rewrite (forall2_length _ _ _ HZ); auto). assert (N1 := inject_zero k Hk). assert (N2 := inject_zero l Hl).
      exists (inject_Z s / (inject_Z k * inject_Z l))%Q. split; [apply Qlt_shift_div_l; [apply Qmult_lt_0_compat; apply inject_pos; auto|]; setoid_replace (0 * (inject_Z k * inject_Z l))%Q with 0%Q by ring; apply inject_pos; auto|].
      intros j. destruct (Nat.lt_ge_cases j n) as [Hj|Hj]; [|rewrite !nth_overflow by lia; ring]. specialize (Ej j). rewrite !(nth_snoc n) in Ej by auto. destruct (Nat.eqb_spec j n); [lia|].
      apply (Qmult_inj_r _ _ (inject_Z k * inject_Z l)); [intros Z0; apply Qmult_integral in Z0; tauto|]. transitivity (inject_Z (k * nth j xs 0%Z)); [rewrite inject_Z_mult, <- (cleared_nth _ _ _ j HX); ring|].
      rewrite Ej, inject_Z_mult, <- (cleared_nth _ _ _ j HZ). change (inject_Z 1) with 1%Q. field. auto.
    + intros (Hd & u & Hu & s & Hs & Hj). destruct (forall2_in_l _ _ _ u CR Hu) as (r & Hr & xs & -> & HX). apply IR in Hr as [Hr _]. assert (Hlen := dims_in (S n) F _ DF Hr). rewrite app_length in Hlen. cbn [length] in Hlen.
      destruct s as [a b]. assert (Ha : 0 < a) by (unfold Qlt in Hs; cbn in Hs; lia). assert (ES := Qmake_Qdiv a b). assert (Nb := inject_zero (Z.pos b) ltac:(lia)).
      assert (HD : clears (Z.pos b) d (vscale a xs)).
      { assert (Hx : length (vscale a xs) = n) by (rewrite vscale_length; lia). assert (G : forall j, (nth j d 0 * inject_Z (Z.pos b) == inject_Z (nth j (vscale a xs) 0%Z))%Q).
        { intros j. rewrite nth_vscale, inject_Z_mult, <- (cleared_nth _ _ _ j HX), Hj, ES. change (inject_Z 1) with 1%Q. field. auto. }
        clear - Hd Hx G. revert d Hd G. generalize dependent (vscale a xs). intros l. revert n. induction l as [|y l IH]; intros n Hl [|z d] Hd G; cbn in *; try lia; constructor; [exact (G 0%nat)|]. apply (IH (n - 1)%nat); try lia. intros j. exact (G (S j)). }
      apply (direction_extreme n A d (vscale a xs) (Z.pos b)); auto; [rewrite vscale_length; lia|lia|].
      assert (EV : vscale a xs ++ [0] = vscale a (xs ++ [0])) by (unfold vscale; rewrite map_app; cbn [map]; rewrite Z.mul_0_r; reflexivity). rewrite EV. apply extreme_scale; auto. apply X1; auto.
  - intros i j Hi Hj (s & Hs & HS). assert (Li := forall2_length _ _ _ CR). destruct (forall2_nth _ _ _ i [] [] CR Hi) as (xs & Ei & HX). destruct (forall2_nth _ _ _ j [] [] CR Hj) as (ys & Ej & HY).
    apply (proj1 (NoDup_nth cone []) NR i j); [exact (eq_ind _ (fun k => (i < k)%nat) Hi _ Li)|exact (eq_ind _ (fun k => (j < k)%nat) Hj _ Li)|]. assert (Ii : In (xs ++ [0]) cone) by (exact (eq_ind _ (fun r => In r cone) (nth_In cone [] (eq_ind _ (fun k => (i < k)%nat) Hi _ Li)) _ Ei)).
    assert (Ij : In (ys ++ [0]) cone) by (exact (eq_ind _ (fun r => In r cone) (nth_In cone [] (eq_ind _ (fun k => (j < k)%nat) Hj _ Li)) _ Ej)).
    transitivity (xs ++ [0]); [exact Ei|]. transitivity (ys ++ [0]); [|symmetry; exact Ej]. apply IR in Ii as [Ii _]. apply IR in Ij as [Ij _]. assert (L1 := dims_in (S n) F _ DF Ii). assert (L2 := dims_in (S n) F _ DF Ij).
    rewrite app_length in L1, L2. cbn [length] in L1, L2. destruct s as [a b]. assert (Ha : 0 < a) by (unfold Qlt in Hs; cbn in Hs; lia). assert (ES := Qmake_Qdiv a b). assert (Nb := inject_zero (Z.pos b) ltac:(lia)).
    apply (primitive_same (S n) _ _ (Z.pos b) a); auto; try (rewrite app_length; cbn; lia); try lia; [apply X1; auto|apply X1; auto|]. intros i'. rewrite !(nth_snoc n) by lia. destruct (Nat.eqb_spec i' n); [ring|].
    apply inject_eq. rewrite !inject_Z_mult, <- (cleared_nth _ _ _ i' HX), <- (cleared_nth _ _ _ i' HY), (HS i'), ES. field. auto.
  - split; [exists conv; auto|]. split; [exists cone; auto|]. intros p Hp. apply in_app_iff in Hp as [Hp|Hp].
    + apply (in_map coordinates_of) in Hp. destruct (forall2_in_l _ _ _ _ CV Hp) as (r & Hr & xs & l & -> & _ & HX). apply IC in Hr as [Hr _]. assert (Hlen := dims_in (S n) F _ DF Hr).
      rewrite app_length in Hlen. cbn [length] in Hlen. assert (L := forall2_length _ _ _ HX). unfold coordinates_of in L. rewrite map_length in L. lia.
    + apply (in_map coordinates_of) in Hp. destruct (forall2_in_l _ _ _ _ CR Hp) as (r & Hr & xs & -> & HX). apply IR in Hr as [Hr _]. assert (Hlen := dims_in (S n) F _ DF Hr).
      rewrite app_length in Hlen. cbn [length] in Hlen. assert (L := forall2_length _ _ _ HX). unfold coordinates_of in L. rewrite map_length in L. lia.
Qed.
(** Vertex enumeration without maps, for inequalities (with the row (0, ..., 0, -1), which every input ends with) whose solutions contain no line: the program exits with status 0,
    and its output is a list of vertices and a list of rays: they generate exactly the set of the solutions, and they are exactly the vertices and the extreme directions of this set, each once. *)
Theorem C46_vertices : forall t order n (A F : list vec) fuel,
  t <> INT16 -> sort_order order -> rows_representable t A -> dims (S n) A -> (0 < n)%nat -> no_line (S n) A -> In (unit_vec (S n) n (-1)) A ->
  m_fme (arith t) order A = Ok F -> Forall negatable_row F -> (length F <= fuel)%nat ->
  exists vertices P rays R,
    m_vertex_call t order fuel A [] = Some (vertex_text vertices rays (match P with [] => true | _ => false end) (match R with [] => true | _ => false end) false, Ok tt) /\
    section_lines vertices P /\ section_lines rays R /\
    (forall p : list Q, length p = n -> (solves A p <-> hull n (map coordinates_of P) (map coordinates_of R) p)) /\
    (forall p : list Q, corner n A p <-> exists q, In q (map coordinates_of P) /\ same_point q p) /\
    listed_once same_point (map coordinates_of P) /\
    (forall d : list Q, extreme_direction n A d <-> length d = n /\ exists u, In u (map coordinates_of R) /\ multiple d u) /\
    listed_once multiple (map coordinates_of R).
Proof.
  intros t order n A F fuel Ht Ho HR HA Hn HL HU HF BF Hfuel.
  destruct (vertex_call_lists t order n A F fuel Ht Ho HR HA Hn HL HU HF BF Hfuel) as (vertices & P & rays & R & K1 & K2 & K3 & K4 & K5 & K6 & K7 & K8 & _). exists vertices, P, rays, R. auto 10.
Qed.
Print Assumptions C46_vertices.

(** ** The hypotheses of C45 and C46 hold for these inputs, for which the programs print the texts shown. *)
Example C45_example :
  INT32 <> INT16 /\ sort_order sorted_order /\ rows_representable INT32 tilted /\ dims 4 tilted /\ homogenised 4 tilted /\ good_names abc /\ length abc = 3%nat /\
  m_extract_equations (arith INT32) tilted = Ok [[1; 1; 1; -1]] /\ m_fme (arith INT32) sorted_order tilted = Ok [[0; 1; 1; -1]; [0; 1; -1; -1]; [0; -1; 1; -1]] /\
  Forall negatable_row [[1; 1; 1; -1]] /\ Forall negatable_row [[0; 1; 1; -1]; [0; 1; -1; -1]; [0; -1; 1; -1]] /\
  m_facet_call INT32 sorted_order 3 tilted abc [] =
    Some (lit "Equations:" ++ [newline] ++ lit "a +b +c = 1" ++ [newline] ++ [newline] ++ lit "Inequalities:" ++ [newline] ++ lit "-b +c <= 1" ++ [newline] ++ lit "b -c <= 1" ++ [newline] ++
      lit "b +c <= 1" ++ [newline], Ok tt).
Proof.
  split; [discriminate|]. split; [apply sorted_order_ok|]. split; [apply tilted_rep|]. split; [apply tilted_dims|]. split; [apply tilted_hom|]. split; [apply abc_good|]. split; [reflexivity|].
  split; [reflexivity|]. split; [reflexivity|]. split; [repeat constructor; lia|]. split; [repeat constructor; lia|]. reflexivity.
Qed.
Definition strip : list vec := [[-1; 0; 0]; [1; 0; -2]; [0; -3; 1]; [0; 0; -1]].
Example C46_example :
  sort_order sorted_order /\ rows_representable INT32 strip /\ dims 3 strip /\ no_line 3 strip /\ In (unit_vec 3 2 (-1)) strip /\
  m_fme (arith INT32) sorted_order strip = Ok [[0; 1; 0]; [6; 1; 3]; [0; 1; 3]] /\ Forall negatable_row [[0; 1; 0]; [6; 1; 3]; [0; 1; 3]] /\
  m_vertex_call INT32 sorted_order 3 strip [] =
    Some (lit "Vertices:" ++ [newline] ++ lit "0 1/3 " ++ [newline] ++ lit "2 1/3 " ++ [newline] ++ lit "Rays:" ++ [newline] ++ lit "  0  1" ++ [newline], Ok tt).
Proof.
  split; [apply sorted_order_ok|]. split; [solve_rows|]. split; [solve_rows|]. split.
  { intros x Hx H. destruct x as [|a [|b [|c [|]]]]; try discriminate. assert (H1 := H [-1; 0; 0] ltac:(cbn; tauto)). assert (H2 := H [0; -3; 1] ltac:(cbn; tauto)). assert (H3 := H [0; 0; -1] ltac:(cbn; tauto)).
    cbn [dot] in H1, H2, H3. unfold vzero. cbn [repeat]. repeat f_equal; lia. }
  split; [cbn; tauto|]. split; [reflexivity|]. split; [repeat constructor; lia|reflexivity].
Qed.
