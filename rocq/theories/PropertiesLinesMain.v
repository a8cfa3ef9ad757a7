(** * PropertiesLinesMain: the default method for files whose systems have solutions that contain lines (C62). *)
From Coq Require Import List ZArith QArith Arith Bool Ascii String Lia Lqa Permutation.
From Verif Require Import Base Spec LinAlg Cone ListUtil ArithModel MatrixModel FmeModel SafeIntModel IntTypes RowLcm StreamModel StreamProofs SortModel CliModel PropertiesCli InputModel InputProofs VertexInput ClassesModel
  ConstraintModel ConstraintInput ConstraintSection PropertiesVertices PropertiesConstraints OutputModel OutputProofs PropertiesOutput Hull Corners FmeCore FmePure FmePrepare FmeCorrect Refine MatrixRefine FmeRefine FmeTheorems DimTheorems NormTheorems
  Samples ClassesProofs ApplyTheorems OrbitTheorems OrbitExact PropertiesMaps PropertiesFme MapModel PropertiesProgram RotationModel RotationTheorems PropertiesRotation HeuristicTheorems
  NormalForm Symmetry Adjacency PropertiesAd HullSame VertexSymmetry VertexImages PropertiesReduced FileModel FileProofs FileInput SystemFile PropertiesFile PropertiesSystem PropertiesMapFile
  ListModel AdModel VertexAdModel VertexGraph VertexEdge VertexAd VertexAdExact SafeClasses SafeFacets PropertiesVertexAd MainModel ModeDetection ListExec PropertiesMain Lines PropertiesLines LineEdge LineGraph LineAd PropertiesLinesAd.
Import ListNotations.
Open Scope nat_scope.
Open Scope list_scope.

(** ** Specification *)
(** [differ_by_a_line], [vertex_up_to_lines], [extreme_up_to_lines], [multiple_up_to_lines]: PropertiesLines.  Every edge of the solutions that ends in a vertex is hidden from the search if it leads from the vertex
    straight away from the origin, or from the origin against the last axis that occurs in the constraints. *)
(** [x] lies on the line through [p] and [r], up to lines. *)
Definition on_line_up_to_lines (K : list constraint) (p r x : list Q) : Prop :=
  exists s, forall k, In k K -> (linear_form (terms k) x == linear_form (terms k) p + s * (linear_form (terms k) r - linear_form (terms k) p))%Q.
(** The segment from [p] to [r] is part of an edge: a segment of solutions with an inner point in common with it lies on the same line, up to lines. *)
Definition edge_up_to_lines (n : nat) (K : list constraint) (p r : list Q) : Prop :=
  length p = n /\ length r = n /\ all_satisfied K p /\ all_satisfied K r /\ ~ differ_by_a_line K p r /\
  forall m x y c d, length m = n -> length x = n -> length y = n -> all_satisfied K x -> all_satisfied K y -> (0 < c)%Q -> (c < 1)%Q -> (0 < d)%Q -> (d < 1)%Q ->
    between c p r m -> between d x y m -> on_line_up_to_lines K p r x.
Definition axis (n j : nat) : list Q := map (fun i => if i =? j then 1%Q else 0%Q) (seq 0 n).
(** The constraints depend on coordinate [j]. *)
Definition depends_on (n : nat) (K : list constraint) (j : nat) : Prop := exists k, In k K /\ ~ (linear_form (terms k) (axis n j) == 0)%Q.
Definition last_axis (n : nat) (K : list constraint) (j : nat) : Prop := j < n /\ depends_on n K j /\ forall c, j < c < n -> ~ depends_on n K c.
Definition hidden_up_to_lines (n : nat) (K : list constraint) (p r : list Q) : Prop :=
  vertex_up_to_lines n K p /\ edge_up_to_lines n K p r /\
  ((exists t, (1 < t)%Q /\ forall j, (nth j r 0 == t * nth j p 0)%Q) \/
   ((forall j, (nth j p 0 == 0)%Q) /\ exists i t, last_axis n K i /\ (0 < t)%Q /\ forall j, (nth j r 0 == if (j =? i)%nat then - t else 0)%Q)).
Definition lists_up_to_lines (n : nat) (K : list constraint) (rows : list vec) : Prop :=
  homogeneous n rows /\
  (forall q, In q (points_of rows) -> vertex_up_to_lines n K q) /\ listed_once (differ_by_a_line K) (points_of rows) /\
  (forall d, In d (rays_of rows) -> extreme_up_to_lines n K d) /\ listed_once (multiple_up_to_lines K) (rays_of rows).
Definition lists_all_up_to_lines (n : nat) (K : list constraint) (rows : list vec) : Prop :=
  (forall p, vertex_up_to_lines n K p -> exists q, In q (points_of rows) /\ differ_by_a_line K p q) /\
  (forall d, extreme_up_to_lines n K d -> exists u, In u (rays_of rows) /\ multiple_up_to_lines K d u) /\
  (forall p : list Q, length p = n -> (all_satisfied K p <-> exists q, length q = n /\ hull n (points_of rows) (rays_of rows) q /\ differ_by_a_line K p q)).

(** ** Rows and constraints *)
Definition combination (n : nat) (s : Q) (p r x : list Q) : list Q := map (fun j => nth j x 0 - (1 - s) * nth j p 0 - s * nth j r 0)%Q (seq 0 n).
Lemma combination_nth n s p r x j : length p = n -> length r = n -> length x = n -> (nth j (combination n s p r x) 0 == nth j x 0 - (1 - s) * nth j p 0 - s * nth j r 0)%Q.
Proof.
  intros Hp Hr Hx. unfold combination. destruct (Nat.lt_ge_cases j n) as [H|H].
  - rewrite (nth_indep _ 0%Q ((fun j => nth j x 0 - (1 - s) * nth j p 0 - s * nth j r 0)%Q 0)) by (rewrite map_length, seq_length; auto).
    rewrite (map_nth (fun j => nth j x 0 - (1 - s) * nth j p 0 - s * nth j r 0)%Q), seq_nth by auto. reflexivity.
  - rewrite !nth_overflow by (rewrite ?map_length, ?seq_length; lia). ring.
Qed.
Lemma linear_combination : forall a s (v p r x : list Q), length a = S (length v) -> length p = length v -> length r = length v -> length x = length v -> (forall j, (nth j v 0 == nth j x 0 - (1 - s) * nth j p 0 - s * nth j r 0)%Q) ->
  (linear a v == linear a x - (1 - s) * linear a p - s * linear a r)%Q.
Proof.
  induction a as [|z a IH]; intros s v p r x Ha Hp Hr Hx H; cbn [length] in Ha; [lia|]. destruct v as [|e v], p as [|f p], r as [|g r], x as [|h x]; cbn [length] in *; try lia.
  - cbn [linear]. ring.
  - cbn [linear]. rewrite (IH s v p r x) by (try lia; intros j; exact (H (S j))). assert (H0 := H 0%nat). cbn [nth] in H0. rewrite H0. ring.
Qed.
Lemma form_combination xs s (v p r x : list Q) : (forall j, (nth j v 0 == nth j x 0 - (1 - s) * nth j p 0 - s * nth j r 0)%Q) ->
  (linear_form xs v == linear_form xs x - (1 - s) * linear_form xs p - s * linear_form xs r)%Q.
Proof. intros H. unfold linear_form. induction xs as [|y xs IH]; cbn [fold_right]; [ring|]. rewrite IH. unfold coordinate_of. rewrite (H (fst y)). ring. Qed.
Lemma axis_length n j : length (axis n j) = n.
Proof. unfold axis. rewrite map_length, seq_length. auto. Qed.
Lemma axis_nth n j i : j < n -> nth i (axis n j) 0%Q = if i =? j then 1%Q else 0%Q.
Proof.
  intros Hj. unfold axis. destruct (Nat.lt_ge_cases i n) as [H|H].
  - rewrite (nth_indep _ 0%Q ((fun i => if i =? j then 1%Q else 0%Q) 0)) by (rewrite map_length, seq_length; auto). rewrite (map_nth (fun i => if i =? j then 1%Q else 0%Q)), seq_nth by auto. reflexivity.
  - rewrite nth_overflow by (rewrite map_length, seq_length; auto). destruct (Nat.eqb_spec i j); [lia|auto].
Qed.
Lemma linear_axis : forall a (v : list Q) j, length a = S (length v) -> j < length v -> (forall i, nth i v 0%Q = if i =? j then 1%Q else 0%Q) -> (linear a v == inject_Z (nth j a 0%Z))%Q.
Proof.
  assert (Z0 : forall a (v : list Q), (forall i, nth i v 0%Q = 0%Q) -> (linear a v == 0)%Q).
  { induction a as [|z a IH]; intros [|e v] H; cbn [linear]; try reflexivity. rewrite IH by (intros i; exact (H (S i))). assert (H0 := H 0). cbn in H0. rewrite H0. ring. }
  induction a as [|z a IH]; intros v j Ha Hj H; cbn [length] in *; [lia|]. destruct v as [|e v]; cbn [length] in *; [lia|]. cbn [linear]. destruct j as [|j].
  - rewrite Z0 by (intros i; exact (H (S i))). assert (H0 := H 0). cbn in H0. rewrite H0. cbn [nth]. ring.
  - rewrite (IH v j) by (try lia; intros i; exact (H (S i))). assert (H0 := H 0). cbn in H0. rewrite H0. cbn [nth]. ring.
Qed.
Lemma some_form (K : list constraint) (d : list Q) : (exists k, In k K /\ ~ (linear_form (terms k) d == 0)%Q) \/ (forall k, In k K -> (linear_form (terms k) d == 0)%Q).
Proof.
  induction K as [|k K [(x & Hx & N)|IH]]; [right; intros k []|left; exists x; split; [right|]; auto|]. destruct (Qeq_dec (linear_form (terms k) d) 0) as [E|E]; [|left; exists k; split; [left|]; auto].
  right. intros x [<-|Hx]; auto.
Qed.
Lemma some_entry (A : list vec) j : (exists a, In a A /\ nth j a 0%Z <> 0%Z) \/ (forall a, In a A -> nth j a 0%Z = 0%Z).
Proof.
  induction A as [|k K [(x & Hx & N)|IH]]; [right; intros k []|left; exists x; split; [right|]; auto|]. destruct (Z.eq_dec (nth j k 0%Z) 0) as [E|E]; [|left; exists k; split; [left|]; auto].
  right. intros x [<-|Hx]; auto.
Qed.
Section Translate.
  Variables (s : system) (so : input_order) (n : nat).
  Hypothesis Hn : fits_together s n.
  Hypothesis He : equations_fit s n.
  Hypothesis HS : sound_system s.
  Notation A := (system_rows s so).
  Notation K := (constraints_of s).

  Lemma t_dims : dims (S n) A.
  Proof. destruct (system_rows_facts s so n Hn He HS) as (HD & _). exact HD. Qed.
  Lemma t_alike p q : length p = n -> length q = n -> (alike A p q <-> differ_by_a_line K p q).
  Proof. apply alike_system; auto. Qed.
  Lemma t_multiple d u : length d = n -> length u = n -> (alike_multiple A d u <-> multiple_up_to_lines K d u).
  Proof. intros Hd Hu. split; intros (e & He0 & H); exists e; (split; [auto|]); apply (scaled_system s so n e d u Hn He HS Hd Hu); auto. Qed.
  Lemma t_vertex p : flat_corner n A p <-> vertex_up_to_lines n K p.
  Proof.
    unfold vertex_up_to_lines, flat_corner. split; intros (V1 & V2 & V3); split; auto; (split; [apply (solves_system s so n); auto|]); intros q r c Hq Hr Sq Sr C1 C2 B; apply t_alike; auto; apply (V3 q r c); auto; apply (solves_system s so n); auto.
  Qed.
  Lemma t_extreme d : flat_direction n A d <-> extreme_up_to_lines n K d.
  Proof.
    unfold extreme_up_to_lines, flat_direction. split; intros (V1 & V2 & V3 & V4); (split; [auto|]); (split; [apply (recedes_system s so n); auto|]); (split; [intros Z0; apply V3; apply (line_system s so n); auto|]); intros u v Hu Hv Su Sv HH;
      (destruct (V4 u v Hu Hv) as (e & He0 & HE0); [apply (recedes_system s so n); auto|apply (recedes_system s so n); auto|auto|]); exists e; (split; [auto|]); apply (scaled_system s so n e u d Hn He HS Hu V1); auto.
  Qed.
  Lemma t_on_line p r x : length p = n -> length r = n -> length x = n -> (on_flat_line A p r x <-> on_line_up_to_lines K p r x).
  Proof.
    intros Hp Hr Hx. assert (Lv : forall e, length (combination n e p r x) = n) by (intros e; unfold combination; rewrite map_length, seq_length; auto).
    assert (CA : forall e a, In a A -> (linear a (combination n e p r x) == linear a x - (1 - e) * linear a p - e * linear a r)%Q).
    { intros e a Ha. apply linear_combination; rewrite ?Lv; auto; [apply (dims_in (S n) A); auto; apply t_dims|]. intros j. apply combination_nth; auto. }
    assert (CK : forall e k, In k K -> (linear_form (terms k) (combination n e p r x) == linear_form (terms k) x - (1 - e) * linear_form (terms k) p - e * linear_form (terms k) r)%Q).
    { intros e k Hk. apply form_combination. intros j. apply combination_nth; auto. }
    split; intros (e & H); exists e.
    - assert (T : forall k, In k K -> (linear_form (terms k) (combination n e p r x) == 0)%Q) by (apply (line_system s so n _ Hn He HS (Lv e)); intros a Ha; rewrite (CA e a Ha), (H a Ha); ring).
      intros k Hk. specialize (T k Hk). rewrite (CK e k Hk) in T. set (X := linear_form (terms k) x) in *. assert (E : (X == (X - (1 - e) * linear_form (terms k) p - e * linear_form (terms k) r) + (1 - e) * linear_form (terms k) p + e * linear_form (terms k) r)%Q) by ring. rewrite E, T. ring.
    - assert (T : forall a, In a A -> (linear a (combination n e p r x) == 0)%Q) by (apply (line_system s so n _ Hn He HS (Lv e)); intros a Ha; rewrite (CK e a Ha), (H a Ha); ring).
      intros k Hk. specialize (T k Hk). rewrite (CA e k Hk) in T. set (X := linear k x) in *. assert (E : (X == (X - (1 - e) * linear k p - e * linear k r) + (1 - e) * linear k p + e * linear k r)%Q) by ring. rewrite E, T. ring.
  Qed.
  Lemma t_edge p r : part_of_flat_edge n A p r <-> edge_up_to_lines n K p r.
  Proof.
    unfold part_of_flat_edge, edge_up_to_lines. split; intros (L1 & L2 & S1 & S2 & N & H); (split; [auto|]); (split; [auto|]); (split; [apply (solves_system s so n); auto|]); (split; [apply (solves_system s so n); auto|]);
      (split; [intros E; apply N; apply t_alike; auto|]); intros m x y c d Lm Lx Ly Sx Sy C1 C2 D1 D2 B1 B2; apply t_on_line; auto; apply (H m x y c d); auto; apply (solves_system s so n); auto.
  Qed.
  Lemma t_depends j : j < n -> ((exists a, In a A /\ nth j a 0%Z <> 0%Z) <-> depends_on n K j).
  Proof.
    intros Hj. assert (L := axis_length n j). assert (E : forall a, In a A -> (linear a (axis n j) == inject_Z (nth j a 0%Z))%Q).
    { intros a Ha. apply linear_axis; rewrite ?L; auto; [apply (dims_in (S n) A); auto; apply t_dims|]. intros i. apply axis_nth; auto. }
    assert (D := line_system s so n (axis n j) Hn He HS L). split.
    - intros (a & Ha & Na). destruct (some_form K (axis n j)) as [H|H]; auto. exfalso. apply Na. apply inject_eq. rewrite <- (E a Ha). rewrite (proj2 D H a Ha). reflexivity.
    - intros (k & Hk & Nk). destruct (some_entry A j) as [H|H]; auto. exfalso. apply Nk. apply (proj1 D); auto. intros a Ha. rewrite (E a Ha), (H a Ha). reflexivity.
  Qed.
  Lemma t_last j : last_used n A j <-> last_axis n K j.
  Proof.
    split; intros (H1 & H2 & H3); (split; [auto|]); (split; [apply t_depends; auto|]).
    - intros c Hc D. apply t_depends in D as (a & Ha & N); [|lia]. apply N, H3; auto.
    - intros c a Hc Ha. destruct (Z.eq_dec (nth c a 0%Z) 0) as [E|E]; auto. exfalso. apply (H3 c Hc). apply t_depends; [lia|]. eauto.
  Qed.
  Lemma t_hidden : (forall p r, ~ hidden_up_to_lines n K p r) -> no_hidden_flat_edge n A.
  Proof.
    intros H p. split.
    - intros (V & r & e & He0 & Hr & E). apply (H p r). split; [apply t_vertex; auto|]. split; [apply t_edge; auto|]. left. exists e. auto.
    - intros (V & Z0 & i & r & e & Hi & He0 & Hr & E). apply (H p r). split; [apply t_vertex; auto|]. split; [apply t_edge; auto|]. right. split; auto. exists i, e. split; [apply t_last; auto|auto].
  Qed.
  Lemma t_mentions j : j < n -> depends_on n K j -> mentions n A.
  Proof. intros Hj D. apply t_depends in D as (a & Ha & N); auto. exists j, a. auto. Qed.
  Lemma t_lists rows : only_flat_rows n A rows -> lists_up_to_lines n K rows.
  Proof.
    intros (G1 & G2 & G3 & G4 & G5). split; auto. split; [intros q Hq; apply t_vertex; auto|]. split; [|split; [intros d Hd; apply t_extreme; auto|]].
    - intros i j Hi Hj HH. apply G3; auto. apply t_alike; auto; [apply (G2 (nth i (points_of rows) []))|apply (G2 (nth j (points_of rows) []))]; apply nth_In; auto.
    - intros i j Hi Hj HH. apply G5; auto. apply t_multiple; auto; [apply (G4 (nth i (rays_of rows) []))|apply (G4 (nth j (rays_of rows) []))]; apply nth_In; auto.
  Qed.
  Lemma t_lists_all rows : only_flat_rows n A rows -> all_flat_rows n A rows -> lists_all_up_to_lines n K rows.
  Proof.
    intros (_ & G2 & _ & G4 & _) (C1 & C2 & C3). split; [|split].
    - intros p Hp. destruct (C1 p) as (q & Hq & Ha); [apply t_vertex; auto|]. exists q. split; auto. apply t_alike; auto; [apply Hp|apply (G2 q Hq)].
    - intros d Hd. destruct (C2 d) as (q & Hq & Ha); [apply t_extreme; auto|]. exists q. split; auto. apply t_multiple; auto; [apply Hd|apply (G4 q Hq)].
    - intros p Hp. rewrite <- (solves_system s so n p Hn He HS Hp), (C3 p Hp). split; intros (q & Hq & Hh & Ha); exists q; (split; [auto|]); (split; [auto|]); apply t_alike; auto.
  Qed.
End Translate.

(** ** C62, the whole program *)
(** Whenever the program ends with status 0, whatever the number of threads and their schedule, the printed points and directions are vertices and extreme directions up to lines, up to lines none of them twice;
    and if no edge is hidden, none is missing, and up to lines they generate the solutions. *)
Theorem C62_main : forall t order fs args name so content s n j (F : list vec),
  t <> INT16 -> sort_order order -> Forall ordinary args -> chooses_method args AdjacencyDecomposition -> chooses_type args t ->
  asks args name so -> fs name = Some content -> early_keyword content -> system_text no_system (Some content) s -> ~ describes_hull content -> describes_system content ->
  fits_together s n -> equations_fit s n -> s_maps s = [] -> j < n -> depends_on n (constraints_of s) j ->
  m_fme (arith EXACT) order (system_rows s so) = Ok F -> Forall negatable_row F ->
  exists fuel0, forall texts fuel hardware out, fuel0 <= fuel -> m_main texts order fs fuel hardware args out (Status 0) ->
    exists lines (rows : list vec),
      out = lit "Vertices / Rays:" ++ newline :: lines /\ section_lines lines (map whole rows) /\ NoDup rows /\
      lists_up_to_lines n (constraints_of s) rows /\
      ((forall p r, ~ hidden_up_to_lines n (constraints_of s) p r) -> lists_all_up_to_lines n (constraints_of s) rows).
Proof.
  intros t order fs args name so content s n j F Ht Ho HO HM HT HA HF HK HX HS1 HS2 Hn He Hm Hj Hdep HE HB.
  assert (HS := system_sound _ _ _ HX no_system_sound). destruct (system_rows_facts s so n Hn He HS) as (HD & HU & HR). assert (H0 : 0 < n) by lia.
  destruct (input_inequalities_ok fs args name so content s HA HF HK HX) as (f0 & K). assert (EC := proj2 (fits_together_iff s HS) (ex_intro _ n Hn)). assert (HX' := t_mentions s so n Hn He HS j Hj Hdep).
  exists f0. intros texts fuel hardware out Hf H.
  destruct (C53_mode fs args name content HO (proj1 HA) HF) as (_ & _ & M). apply (main_mode texts order fs fuel hardware args _ (M (conj HS1 HS2))), (vertex_main order fs fuel hardware args _ t HM HT) in H.
  unfold m_vertex_ad in H. rewrite (K fuel Hf), EC in H. rewrite cast_rows_same in H by auto. cbn [m_cast_rows map] in H. rewrite Hm in H.
  destruct (C37_threads_positive hardware args) as [_ TP]. destruct (m_number_of_threads hardware args) as [threads| |]; [|destruct H; discriminate|discriminate]. specialize (TP threads eq_refl).
  destruct H as [(_ & st & H)|[H|H]].
  - destruct (C62_text t order n (system_rows s so) F fuel (Z.to_nat threads) st out Ht Ho (HR t Ht) HD H0 HU HX' ltac:(lia) HE HB H) as (lines & rows & EO & W & ND & G & G6).
    exists lines, rows. split; auto. split; auto. split; auto. split; [apply (t_lists s so n); auto|]. intros HH. apply (t_lists_all s so n); auto. apply G6. apply t_hidden; auto.
  - exfalso. unfold m_vad_stops in H. match type of H with context [m_vad_start ?a ?b ?c ?d ?e ?f] => destruct (m_vad_start a b c d e f) as [[start|]| |] end; [|destruct H|destruct H; discriminate|discriminate].
    destruct H as (lines & r & _ & N & _ & X). destruct r as [[]| |]; [congruence|discriminate|discriminate].
  - exfalso. destruct H as [(? & ? & _ & _ & X)|H]; [discriminate|]. destruct H as (? & ? & ? & ? & ? & _ & _ & _ & [(_ & [(_ & X)|(_ & X)])|(_ & _ & _ & [(_ & X)|(_ & X)])]); discriminate.
Qed.
Print Assumptions C62_main.

(** ** SafeInteger *)
Section Safe_lines.
  Variables (order : list nat -> list nat) (n : nat) (A F : list vec) (fuel : nat).
  Hypothesis Ho : sort_order order.
  Hypothesis HR : rows_representable SAFE A.
  Hypothesis HA : dims (S n) A.
  Hypothesis Hn : 0 < n.
  Hypothesis HU : In (unit_vec (S n) n (-1)) A.
  Hypothesis HX : mentions n A.
  Hypothesis HF : m_fme (arith EXACT) order A = Ok F.
  Hypothesis BF : Forall negatable_row F.
  Let Ht : SAFE <> INT16 := ltac:(discriminate).
  Let HMm : Forall (map_in (S n)) [] := Forall_nil _.

  Lemma safe_line_start : fine (fun _ => True) (m_vad_start SAFE order fuel A [] []).
  Proof.
    unfold m_vad_start. assert (NZ := unit_nonzero n A HU). assert (O := heuristic_outcome SAFE order (S n) A Ht Ho HR HA NZ).
    assert (RR := fme_heuristic_rel _ _ (arith SAFE) (sound_type SAFE Ht) order Ho (S n) A A (rows_rel SAFE Ht A HR) HA NZ).
    change (num (arith SAFE)) with Z in *. destruct (m_fme_heuristic (arith SAFE) order A) as [St| |] eqn:ES; cbn [bind outcome fine] in *; auto; [|destruct O; discriminate].
    eapply fine_weaken; [|apply (safe_vertex_representatives (S n)); auto]; auto. intros x Hx. cbn [rel] in RR. apply rel_rows in RR. destruct RR as (_ & RR). unfold rows_representable in RR. rewrite Forall_forall in RR.
    split; auto. subst St. assert (I : In x (all_rows order (S n) A)) by (apply heuristic_incl; auto using (unit_nonlast n A HU)). apply (l_rows order n A Ho HA) in I. apply I.
  Qed.
  Lemma safe_line_rotation r : l_good SAFE order n A r -> fine (fun _ => True) (m_rotation (arith SAFE) order fuel A r [] Vertex_tag).
  Proof.
    intros (Hr & Rr). apply (l_rows order n A Ho HA) in Hr as (Ff & _). assert (Ft := l_nonzero_tight n A HA HU HX r Ff).
    assert (O := RotationTheorems.rotated_outcome SAFE order (S n) A Ht Ho HR HA r Ff Rr Ft). assert (K := fun R => RotationTheorems.rotated_representable SAFE order (S n) A Ht Ho HR HA r R Ff Rr Ft).
    unfold m_rotation. change (num (arith SAFE)) with Z in *. destruct (m_rotated (arith SAFE) order A r) as [R| |] eqn:ER; cbn [bind outcome fine] in *; auto; [|destruct O; discriminate].
    eapply fine_weaken; [|apply (safe_classes_of (S n) Vertex_tag [] HMm fuel R)]; auto. intros x Hx. destruct (K R eq_refl) as (-> & RR). unfold rows_representable in RR. rewrite Forall_forall in RR. split; auto.
    destruct (rotated_ridge (S n) A order HA Ho r x Ff Hx) as (_ & _ & _ & _ & _ & _ & Ha). apply Ha.
  Qed.
  Lemma safe_line_printed rows : (forall r, In r rows -> l_good SAFE order n A r) -> exists lines, m_raw_lines SAFE rows = say lines.
  Proof. intros Hg. destruct (q_dims SAFE order n A F rows) as (D1 & _ & D3); auto. destruct (raw_lines SAFE n rows D1 D3) as (lines & E & _). eauto. Qed.
  Lemma vertex_line_safe threads out e : 0 < threads -> m_vad_stops SAFE order fuel A [] [] out e \/ m_vad_fails SAFE order fuel threads A [] [] e -> e = Status 1 \/ e = Terminated.
  Proof.
    intros Hth [H|H].
    - unfold m_vad_stops in H. assert (Q := safe_line_start). destruct (m_vad_start SAFE order fuel A [] []) as [[start|]| |] eqn:Es; cbn [fine] in Q; [|destruct H|tauto|destruct Q].
      destruct H as (lines & r & X & N & _ & ->). destruct (l_start SAFE order n A fuel Ht Ho HR HA HU start Es) as (G & _).
      destruct (safe_line_printed (m_new_rows start)) as (l & El); [intros x Hx'; apply new_rows_in in Hx' as [[]|Hx']; apply G; auto|]. rewrite El in X. unfold say in X. congruence.
    - destruct H as [(start & k & _ & X & _)|(start & added & ls & s & r & Es & Ea & Hrun & H)].
      { exfalso. rewrite firstn_nil in X. cbn in X. discriminate. }
      assert (Ea0 := l_added SAFE fuel added Ea). subst added.
      destruct (l_run SAFE order n A fuel Ht Ho HR HA HU HX start [] threads ls s Hth Es Ea Hrun) as (_ & G & _).
      destruct H as [(Hr & [(_ & ->)|(HUB & ->)])|(Hr & _ & _ & [(_ & ->)|(HUB & ->)])]; auto; exfalso.
      + assert (Q := safe_line_rotation r). rewrite HUB in Q. apply Q. apply G.
        destruct (l_start SAFE order n A fuel Ht Ho HR HA HU start Es) as (G2 & _).
        assert (CG : forall r, closure (m_vad_neighbours SAFE order fuel A []) (start ++ []) r -> r <> []).
        { intros x Hx. apply (l_not_empty SAFE order n A Ho HA). apply (l_closure SAFE order n A fuel Ht Ho HR HA HU HX (start ++ [])); auto. intros z Hz. rewrite app_nil_r in Hz. apply G2; auto. }
        assert (C := ListTheorems.r_contents _ start [] threads 0 CG ls s Hrun). rewrite (ListProofs.c_fifo _ _ _ _ C). apply in_app_iff. auto.
      + destruct (safe_line_printed [r]) as (l & El); [intros x [<-|[]]; auto|]. rewrite El in HUB. discriminate.
  Qed.
End Safe_lines.
(** With "-i safe" nothing is undefined: the program ends with status 0, and then the previous theorem describes the output; or an overflow ends it with status 1 (main thread) or terminates it (worker thread). *)
Theorem C62_safe : forall order fs args name so content s n j (F : list vec),
  sort_order order -> Forall ordinary args -> chooses_method args AdjacencyDecomposition -> chooses_type args SAFE ->
  asks args name so -> fs name = Some content -> early_keyword content -> system_text no_system (Some content) s -> ~ describes_hull content -> describes_system content ->
  fits_together s n -> equations_fit s n -> s_maps s = [] -> j < n -> depends_on n (constraints_of s) j ->
  m_fme (arith EXACT) order (system_rows s so) = Ok F -> Forall negatable_row F ->
  exists fuel0, forall texts fuel hardware out e, fuel0 <= fuel -> m_main texts order fs fuel hardware args out e -> e = Status 0 \/ e = Status 1 \/ e = Terminated.
Proof.
  intros order fs args name so content s n j F Ho HO HM HT HA HF HK HX HS1 HS2 Hn He Hm Hj Hdep HE HB.
  assert (HS := system_sound _ _ _ HX no_system_sound). destruct (system_rows_facts s so n Hn He HS) as (HD & HU & HR). assert (H0 : 0 < n) by lia.
  destruct (input_inequalities_ok fs args name so content s HA HF HK HX) as (f0 & K). assert (EC := proj2 (fits_together_iff s HS) (ex_intro _ n Hn)). assert (HX' := t_mentions s so n Hn He HS j Hj Hdep).
  exists f0. intros texts fuel hardware out e Hf H.
  destruct (C53_mode fs args name content HO (proj1 HA) HF) as (_ & _ & M). apply (main_mode texts order fs fuel hardware args _ (M (conj HS1 HS2))), (vertex_main order fs fuel hardware args _ SAFE HM HT) in H.
  unfold m_vertex_ad in H. rewrite (K fuel Hf), EC in H. rewrite cast_rows_same in H by (auto; discriminate). cbn [m_cast_rows map] in H. rewrite Hm in H.
  destruct (C37_threads_positive hardware args) as [TU TP]. destruct (m_number_of_threads hardware args) as [threads| |]; [|tauto|congruence]. specialize (TP threads eq_refl).
  destruct H as [(-> & _)|H]; auto. right.
  apply (vertex_line_safe order n (system_rows s so) F fuel Ho (HR SAFE ltac:(discriminate)) HD H0 HU HX' HE HB (Z.to_nat threads) out e); auto. lia.
Qed.
Print Assumptions C62_safe.

(** ** When no edge is hidden *)
(** If the origin is a solution and the last coordinate that the constraints depend on is nowhere negative, no edge is hidden. *)
Theorem C62_nothing_hidden : forall n (K : list constraint) i, all_satisfied K (repeat 0%Q n) -> last_axis n K i -> (forall p : list Q, length p = n -> all_satisfied K p -> (0 <= nth i p 0)%Q) ->
  forall p r, ~ hidden_up_to_lines n K p r.
Proof.
  intros n K i H0 HI Hpos p r (V & E & H). destruct V as (Lp & Sp & Vp). destruct E as (_ & Lr & _ & Sr & Hne & _).
  assert (N0 : forall j, (nth j (repeat 0%Q n) 0 == 0)%Q) by (intros j; destruct (Nat.lt_ge_cases j n); [rewrite nth_repeat; reflexivity|rewrite nth_overflow by (rewrite repeat_length; auto); reflexivity]).
  destruct H as [(t & Ht & Er)|(_ & i' & t & HI' & Ht & Er)].
  - apply Hne. assert (Nt : ~ (t == 0)%Q) by lra. assert (Hi : (0 < / t)%Q) by (apply Qinv_lt_0_compat; lra). assert (Ei : (t * / t == 1)%Q) by (apply Qmult_inv_r; auto).
    assert (Q0 : differ_by_a_line K r p).
    { apply (Vp r (repeat 0%Q n) (/ t)%Q); auto; [apply repeat_length| |].
      - apply (Qmult_lt_r _ _ t); [lra|]. rewrite Qmult_comm, Ei. lra.
      - intros j. rewrite (N0 j), (Er j), Qmult_0_r, Qplus_0_r, Qmult_assoc, (Qmult_comm (/ t)), Ei. ring. }
    intros k Hk. symmetry. auto.
  - assert (i' = i). { destruct HI as (I1 & I2 & I3), HI' as (J1 & J2 & J3). destruct (Nat.lt_trichotomy i i') as [L|[L|L]]; auto; exfalso; [apply (I3 i')|apply (J3 i)]; auto. }
    subst i'. specialize (Hpos r Lr Sr). rewrite (Er i), Nat.eqb_refl in Hpos. lra.
Qed.
Print Assumptions C62_nothing_hidden.

(** ** The half plane x >= 0 again, with the default method *)
Lemma half_plane_mode : ~ describes_hull half_plane /\ describes_system half_plane.
Proof.
  split.
  - intros [H|H]; revert H; apply not_said; exists false, false, true; (split; [vm_compute; reflexivity|auto]).
  - exists (lit "Inequalities:"). split; [|apply keyword_itself; vm_compute; tauto].
    exists (line "Names:" ++ line "x y" ++ line ""), (newline :: line "-x <= 0").
    split; [reflexivity|]. split; [right; eexists (line "Names:" ++ line "x y"); reflexivity|]. split; [right; eexists; reflexivity|cbn; intuition discriminate].
Qed.
Lemma half_plane_axis : last_axis 2 (constraints_of half_plane_system) 0.
Proof.
  split; [lia|]. split; [eexists; split; [left; reflexivity|vm_compute; discriminate]|]. intros c Hc (k & [<-|[]] & N). assert (c = 1) by lia. subst c. apply N. vm_compute. reflexivity.
Qed.
Example C62_example : forall texts,
  Forall ordinary ad_args /\ chooses_method ad_args AdjacencyDecomposition /\ chooses_type ad_args INT32 /\ asks ad_args (lit "f") NoSorting /\ ~ describes_hull half_plane /\ describes_system half_plane /\
  early_keyword half_plane /\ system_text no_system (Some half_plane) half_plane_system /\ fits_together half_plane_system 2 /\ equations_fit half_plane_system 2 /\
  depends_on 2 (constraints_of half_plane_system) 0 /\ (forall p r, ~ hidden_up_to_lines 2 (constraints_of half_plane_system) p r) /\ ~ pointed 2 (constraints_of half_plane_system) /\
  (exists F : list vec, m_fme (arith EXACT) sorted_order (system_rows half_plane_system NoSorting) = Ok F /\ Forall negatable_row F) /\
  m_main texts sorted_order (one_file half_plane) 40 4 ad_args (line "Vertices / Rays:" ++ line "  1  0  0" ++ line "  0  0  1") (Status 0).
Proof.
  intros texts. destruct asks_ad as (A0 & A1 & A2). split; [apply Forall_forall; intros a Ha; apply plain_args; apply in_app_iff; auto|]. split; auto. split; auto. split; auto. destruct half_plane_mode as (M1 & M2). split; auto. split; auto.
  destruct C61_example as (_ & _ & E1 & E2 & E3 & _ & _ & E4 & _). split; auto. split; [apply half_plane_text|]. split; auto. split; auto. split; [apply half_plane_axis|].
  split. { apply (C62_nothing_hidden 2 _ 0); [intros k [<-|[]]; vm_compute; discriminate|apply half_plane_axis|]. intros [|x [|y [|]]] Hl; try discriminate Hl. intros Hs. specialize (Hs _ (or_introl eq_refl)). unfold satisfies, linear_form, coordinate_of in Hs. cbn in *. unfold inject_Z in *. lra. }
  split; auto. split; [eexists; split; [vm_compute; reflexivity|repeat constructor; unfold negatable_row; repeat constructor; lia]|].
  assert (MA : m_detect_mode (one_file half_plane) ad_args = Ok VertexEnumeration) by (vm_compute; reflexivity).
  apply (main_mode texts sorted_order (one_file half_plane) 40 4 ad_args _ MA), (vertex_main sorted_order (one_file half_plane) 40 4 ad_args _ INT32 A1 A2). unfold m_vertex_ad.
  assert (EI : m_input_inequalities (one_file half_plane) 40 ad_args = Ok (Some ([[-1; 0; 0]; [0; 0; -1]]%Z, [lit "x"; lit "y"], [], []))) by (vm_compute; reflexivity). rewrite EI.
  assert (ET : m_number_of_threads 4 ad_args = Ok 1%Z) by (vm_compute; reflexivity). rewrite ET. left. split; [reflexivity|].
  change (m_cast_rows INT32 [[-1; 0; 0]; [0; 0; -1]]%Z) with [[-1; 0; 0]; [0; 0; -1]]%Z. change (m_cast_rows INT32 []) with (@nil vec). change (Z.to_nat 1) with 1.
  exists (State (Jobs 1 [[1; 0; 0]; [0; 0; 1]; []]%Z [[]] [[1; 0; 0]; [0; 0; 1]]%Z [[1; 0; 0]; [0; 0; 1]]%Z) None [Stopped] []).
  assert (R : exists ls, ListModel.run (m_vad_neighbours INT32 sorted_order 40 [[-1; 0; 0]; [0; 0; -1]]%Z []) (initial [[1; 0; 0]; [0; 0; 1]]%Z [] 1 0) ls
    (State (Jobs 1 [[1; 0; 0]; [0; 0; 1]; []]%Z [[]] [[1; 0; 0]; [0; 0; 1]]%Z [[1; 0; 0]; [0; 0; 1]]%Z) None [Stopped] [])).
  { apply (exec_all_ok _ (repeat CMain 3 ++ repeat (CThread 0) 15)). vm_compute. reflexivity. }
  destruct R as (ls & R). exists [[1; 0; 0]; [0; 0; 1]]%Z, [], ls, (line "  1  0  0" ++ line "  0  0  1").
  split; [vm_compute; reflexivity|]. split; [exists 0; split; [reflexivity|left; cbn; auto]|]. split; [exact R|]. split; [split; [reflexivity|split; [reflexivity|]]; cbn; intuition|].
  split; [|split; [vm_compute; reflexivity|reflexivity]].
  intros r [<-|[<-|[]]]; unfold m_vad_processed; eexists; vm_compute; reflexivity.
Qed.

(** Some constraint has to depend on some coordinate: for the system 0x <= 1, whose solutions are the whole plane, the program can end in undefined behaviour
    (fourierMotzkinElimination of an empty matrix, algorithm_rotation.cpp 85-91). *)
Definition whole_plane : text := line "Names:" ++ line "x y" ++ line "" ++ line "Inequalities:" ++ line "0x <= 1".
Example C62_whole_plane : forall texts, m_main texts sorted_order (one_file whole_plane) 40 4 ad_args (line "Vertices / Rays:" ++ line "  0  0  1") Undefined.
Proof.
  intros texts. destruct asks_ad as (A0 & A1 & A2).
  assert (MA : m_detect_mode (one_file whole_plane) ad_args = Ok VertexEnumeration) by (vm_compute; reflexivity).
  apply (main_mode texts sorted_order (one_file whole_plane) 40 4 ad_args _ MA), (vertex_main sorted_order (one_file whole_plane) 40 4 ad_args _ INT32 A1 A2). unfold m_vertex_ad.
  assert (EI : m_input_inequalities (one_file whole_plane) 40 ad_args = Ok (Some ([[0; 0; -1]; [0; 0; -1]]%Z, [lit "x"; lit "y"], [], []))) by (vm_compute; reflexivity). rewrite EI.
  assert (ET : m_number_of_threads 4 ad_args = Ok 1%Z) by (vm_compute; reflexivity). rewrite ET. right. right. right.
  change (m_cast_rows INT32 [[0; 0; -1]; [0; 0; -1]]%Z) with [[0; 0; -1]; [0; 0; -1]]%Z. change (m_cast_rows INT32 []) with (@nil vec). change (Z.to_nat 1) with 1.
  assert (R : exists s, exec_all (m_vad_neighbours INT32 sorted_order 40 [[0; 0; -1]; [0; 0; -1]]%Z []) (repeat CMain 2 ++ repeat (CThread 0) 4) (initial [[0; 0; 1]]%Z [] 1 0) = Some s /\ In [0; 0; 1]%Z (handed (sh s))).
  { eexists. split; [vm_compute; reflexivity|]. cbn. auto. }
  destruct R as (s & R & Hs). destruct (exec_all_ok _ _ _ _ R) as (ls & Hl). exists [[0; 0; 1]]%Z, [], ls, s, [0; 0; 1]%Z.
  split; [vm_compute; reflexivity|]. split; [exists 0; split; [reflexivity|left; cbn; auto]|]. split; [exact Hl|]. left. split; [exact Hs|]. right. split; vm_compute; reflexivity.
Qed.
