(** * PropertiesSystem: whole files with equations and inequalities, and vertex enumeration from the file to the text that is printed (C49, C50). *)
From Coq Require Import List ZArith QArith Arith Bool Ascii String Lia Lqa Permutation.
From Verif Require Import Base Spec LinAlg ListUtil ArithModel MatrixModel FmeModel SafeIntModel IntTypes StreamModel StreamProofs ClassesModel MapModel ValidityModel SortModel SortProofs PropertiesSort CliModel PropertiesCli
  IntLcm FmeRefine InputModel InputProofs VertexInput ConstraintModel ConstraintInput ConstraintSection PropertiesVertices PropertiesConstraints MapInput OutputModel OutputProofs PropertiesOutput FileModel FileProofs Hull Corners
  FmeTheorems PropertiesFme PropertiesProgram FileInput HullSame SystemFile PropertiesFile Samples.
Import ListNotations.
Open Scope nat_scope.
Open Scope list_scope.

(** ** Specification *)
(** All constraints, and their common solutions. *)
Definition constraints_of (s : system) : list constraint := map snd (s_equations s ++ s_inequalities s).
Definition all_satisfied (K : list constraint) (p : list Q) : Prop := forall k, In k K -> satisfies k p.
(** A vertex of a set of points: a point of the set that does not lie between two others. *)
Definition vertex_of (n : nat) (S : list Q -> Prop) (p : list Q) : Prop :=
  length p = n /\ S p /\ forall q r c, length q = n -> length r = n -> S q -> S r -> (0 < c)%Q -> (c < 1)%Q -> between c q r p -> same_point q p.
(** The directions in which all solutions can be moved, and the extreme ones. *)
Definition moves (K : list constraint) (d : list Q) : Prop := forall k, In k K -> holds (operator k) (linear_form (terms k) d) 0.
Definition extreme_move (n : nat) (K : list constraint) (d : list Q) : Prop :=
  length d = n /\ moves K d /\ (exists j, ~ (nth j d 0 == 0)%Q) /\
  forall u v, length u = n -> length v = n -> moves K u -> moves K v -> (forall j, (nth j d 0 == nth j u 0 + nth j v 0)%Q) -> exists s, (0 <= s)%Q /\ forall j, (nth j u 0 == s * nth j d 0)%Q.
(** The solutions contain no line. *)
Definition pointed (n : nat) (K : list constraint) : Prop :=
  forall d : list Q, length d = n -> (forall k, In k K -> (linear_form (terms k) d == 0)%Q) -> forall j, (nth j d 0 == 0)%Q.
(** The parts of a description fit together, as far as it is checked: there is an inequality, and the inequalities have [n] variables, as many as there are names and as the dimension says. *)
Definition fits_together (s : system) (n : nat) : Prop :=
  s_inequalities s <> [] /\ (forall k, In k (s_inequalities s) -> fst k = n) /\ (s_names s = [] \/ length (s_names s) = n) /\ (s_dimension s = None \/ s_dimension s = Some (Z.of_nat n)).
(** The equations have [n] variables, too. *)
Definition equations_fit (s : system) (n : nat) : Prop := forall k, In k (s_equations s) -> fst k = n.

(** ** Rows and constraints *)
Lemma good_rows type k n : good_constraint type k -> fst k = n -> same_solutions type n (terms (snd k)) (operator (snd k)) (constant (snd k)) (wide_row k).
Proof. intros (H1 & H2 & _) <-. apply oriented_solutions; auto. Qed.
Lemma opposite_rows row p : length row = S (length p) -> ((row_holds Inequality row p /\ row_holds Inequality (map Z.opp row) p) <-> row_holds Equation row p).
Proof. intros H. unfold row_holds. rewrite affine_opp by lia. split; [intros [H1 H2]; lra|intros K; rewrite K; split; lra]. Qed.
Lemma trivial_affine (p : list Q) : (affine (repeat 0%Z (length p) ++ [(-1)%Z]) p == -1)%Q.
Proof. induction p as [|x p IH]; cbn [length repeat app affine]; [reflexivity|]. rewrite IH. change (inject_Z 0) with 0%Q. ring. Qed.
Lemma trivial_unit n : repeat 0%Z n ++ [(-1)%Z] = unit_vec (S n) n (-1).
Proof.
  apply (nth_ext _ _ 0%Z 0%Z); [rewrite app_length, repeat_length, unit_vec_length; cbn; lia|]. intros i Hi. rewrite app_length, repeat_length in Hi. cbn in Hi. unfold unit_vec. rewrite nth_upd, nth_vzero, vzero_length.
  destruct (Nat.eqb_spec i n) as [E|].
  - subst i. destruct (Nat.ltb_spec n (S n)); [|lia]. cbn [andb]. rewrite app_nth2 by (rewrite repeat_length; lia). rewrite repeat_length, Nat.sub_diag. reflexivity.
  - cbn [andb]. rewrite app_nth1 by (rewrite repeat_length; lia). apply nth_repeat.
Qed.
Lemma in_both r rows : In r (both_sides rows) <-> exists e, In e rows /\ (r = e \/ r = map Z.opp e).
Proof. unfold both_sides. rewrite in_flat_map. split; intros (e & He & H); exists e; split; auto; cbn in *; intuition auto. Qed.
Lemma stated_widths s n : fits_together s n -> equations_fit s n -> dims (S n) (stated_rows s).
Proof.
  intros (_ & H1 & _) H2. apply Forall_app. split.
  - apply Forall_map, Forall_forall. intros k Hk. rewrite wide_row_length, (H1 k Hk). reflexivity.
  - apply Forall_forall. intros r Hr. apply in_both in Hr as (e & He & Hr). apply in_map_iff in He as (k & <- & Hk). destruct Hr as [->| ->]; rewrite ?map_length, wide_row_length, (H2 k Hk); reflexivity.
Qed.
Lemma stated_nonempty s n : fits_together s n -> stated_rows s <> [].
Proof. intros (H & _) E. unfold stated_rows in E. apply app_eq_nil in E as [E _]. apply map_eq_nil in E. auto. Qed.
(** The rows are those of the constraints, and (0, ..., 0, -1). *)
Lemma system_rows_form s so n : fits_together s n -> equations_fit s n ->
  exists rows, system_rows s so = rows ++ [unit_vec (S n) n (-1)] /\ Permutation (stated_rows s) rows /\ dims (S n) rows.
Proof.
  intros H1 H2. assert (HP := m_sort_perm so (stated_rows s)). assert (HD := stated_widths s n H1 H2). exists (m_sort so (stated_rows s)).
  assert (HD' : dims (S n) (m_sort so (stated_rows s))) by (apply (Permutation_Forall HP); auto). split; [|auto].
  unfold system_rows. f_equal. f_equal. rewrite <- trivial_unit. f_equal. f_equal.
  assert (Hne : m_sort so (stated_rows s) <> []). { intros E. rewrite E in HP. apply Permutation_sym, Permutation_nil in HP. apply (stated_nonempty s n H1 HP). }
  destruct (exists_last Hne) as (l & x & E). rewrite E in *. rewrite last_last. apply Forall_app in HD' as [_ HD']. apply Forall_inv in HD'. lia.
Qed.
Lemma system_rows_facts s so n : fits_together s n -> equations_fit s n -> sound_system s ->
  dims (S n) (system_rows s so) /\ In (unit_vec (S n) n (-1)) (system_rows s so) /\ (forall t, t <> INT16 -> rows_representable t (system_rows s so)).
Proof.
  intros H1 H2 (S1 & S2 & _). destruct (system_rows_form s so n H1 H2) as (rows & -> & HP & HD). split; [|split].
  - apply Forall_app. split; auto. constructor; [apply unit_vec_length|constructor].
  - apply in_app_iff. right. left. auto.
  - intros t Ht. apply Forall_app. split.
    + apply (Permutation_Forall HP). assert (IR : Forall int_row (stated_rows s)).
      { apply Forall_app. split; [apply Forall_map; eapply Forall_impl; [|exact S2]; intros k K; apply K|]. apply Forall_forall. intros r Hr. apply in_both in Hr as (e & He & Hr).
        apply in_map_iff in He as (k & <- & Hk). rewrite Forall_forall in S1. destruct (S1 k Hk) as [K1 K2]. assert (N := fits_negatable Equation k K1 K2). destruct Hr as [->| ->]; [apply K1|].
        apply negatable_int. apply Forall_map. eapply Forall_impl; [|exact N]. cbn. intros z Hz. lia. }
      eapply Forall_impl; [|exact IR]. intros r Hr. eapply Forall_impl; [|exact Hr]. intros z Hz. apply int_representable; auto.
    + constructor; [|constructor]. rewrite <- trivial_unit. apply Forall_app. split; [apply Forall_forall; intros z Hz; apply repeat_spec in Hz; subst z|constructor; [|constructor]];
        apply int_representable; auto; unfold int_range, StreamModel.int_min, StreamModel.int_max; lia.
Qed.
Lemma in_system_rows s so n : fits_together s n -> equations_fit s n -> forall (X : vec -> Prop),
  (forall a, In a (system_rows s so) -> X a) <-> (forall k, In k (s_inequalities s) -> X (wide_row k)) /\ (forall k, In k (s_equations s) -> X (wide_row k) /\ X (map Z.opp (wide_row k))) /\ X (unit_vec (S n) n (-1)).
Proof.
  intros H1 H2 X. destruct (system_rows_form s so n H1 H2) as (rows & -> & HP & _). split.
  - intros H. split; [|split].
    + intros k Hk. apply H. apply in_app_iff. left. apply (Permutation_in _ HP). apply in_app_iff. left. apply in_map; auto.
    + intros k Hk. split; apply H; apply in_app_iff; left; apply (Permutation_in _ HP); apply in_app_iff; right; apply in_both; exists (wide_row k); (split; [apply in_map; auto|auto]).
    + apply H. apply in_app_iff. right. left. auto.
  - intros (K1 & K2 & K3) a Ha. apply in_app_iff in Ha as [Ha|[<-|[]]]; auto. apply (Permutation_in _ (Permutation_sym HP)) in Ha. apply in_app_iff in Ha as [Ha|Ha].
    + apply in_map_iff in Ha as (k & <- & Hk). auto.
    + apply in_both in Ha as (e & He & Ha). apply in_map_iff in He as (k & <- & Hk). destruct Ha as [->| ->]; apply K2; auto.
Qed.
Lemma solves_system s so n p : fits_together s n -> equations_fit s n -> sound_system s -> length p = n -> (solves (system_rows s so) p <-> all_satisfied (constraints_of s) p).
Proof.
  intros H1 H2 (S1 & S2 & _) Hp. unfold solves. rewrite (in_system_rows s so n H1 H2 (fun a => row_holds Inequality a p)). rewrite Forall_forall in S1, S2.
  assert (T : row_holds Inequality (unit_vec (S n) n (-1)) p) by (rewrite <- trivial_unit, <- Hp; unfold row_holds; rewrite trivial_affine; lra).
  assert (E1 : forall k, In k (s_inequalities s) -> (row_holds Inequality (wide_row k) p <-> satisfies (snd k) p)) by (intros k Hk; apply (good_rows Inequality k n (S2 k Hk)); auto; apply H1; auto).
  assert (E2 : forall k, In k (s_equations s) -> ((row_holds Inequality (wide_row k) p /\ row_holds Inequality (map Z.opp (wide_row k)) p) <-> satisfies (snd k) p)).
  { intros k Hk. rewrite opposite_rows by (rewrite wide_row_length, (H2 k Hk), Hp; auto). apply (good_rows Equation k n); auto. apply (S1 k Hk). }
  split.
  - intros (K1 & K2 & _) c Hc. apply in_map_iff in Hc as (k & <- & Hk). apply in_app_iff in Hk as [Hk|Hk]; [apply E2|apply E1]; auto.
  - intros K. split; [|split; auto]; intros k Hk; [apply E1|apply E2]; auto; apply K; apply in_map; apply in_app_iff; auto.
Qed.

(** ** Directions *)
Lemma linear_app row c d : length d = length row -> (linear (row ++ [c]) d == affine row d)%Q.
Proof. revert d. induction row as [|a row IH]; intros [|x d] H; cbn in *; try discriminate; [reflexivity|]. rewrite IH by lia. reflexivity. Qed.
Lemma linear_opp row d : (linear (map Z.opp row) d == - linear row d)%Q.
Proof. revert d. induction row as [|a row IH]; intros [|x d]; cbn [map linear]; try reflexivity. rewrite IH, inject_Z_opp. ring. Qed.
Lemma linear_wide k n d : Forall (fun t => fst t < n) (terms (snd k)) -> fst k = n -> length d = n ->
  (linear (wide_row k) d == (match operator (snd k) with GreaterEqual => -1 | _ => 1 end) * linear_form (terms (snd k)) d)%Q.
Proof.
  intros HI Hk Hd. unfold wide_row, row_for_constraint. assert (E : (linear (coefficient_row (fst k) (terms (snd k)) (constant (snd k))) d == linear_form (terms (snd k)) d)%Q).
  { unfold coefficient_row. rewrite linear_app by (rewrite coefficients_length; lia). apply affine_coefficients; [lia|rewrite Hk; auto]. }
  destruct (operator (snd k)); cbn [oriented]; rewrite ?linear_opp, E; ring.
Qed.
Lemma linear_trivial (d : list Q) : (linear (unit_vec (S (length d)) (length d) (-1)) d == 0)%Q.
Proof. rewrite <- trivial_unit, linear_app by (rewrite repeat_length; auto). induction d as [|x d IH]; cbn [length repeat affine]; [reflexivity|]. rewrite IH. change (inject_Z 0) with 0%Q. ring. Qed.
Lemma recedes_system s so n d : fits_together s n -> equations_fit s n -> sound_system s -> length d = n -> (recedes (system_rows s so) d <-> moves (constraints_of s) d).
Proof.
  intros H1 H2 (S1 & S2 & _) Hd. unfold recedes. rewrite (in_system_rows s so n H1 H2 (fun a => (linear a d <= 0)%Q)). rewrite Forall_forall in S1, S2.
  assert (T : (linear (unit_vec (S n) n (-1)) d <= 0)%Q) by (rewrite <- Hd; rewrite linear_trivial; lra).
  assert (E1 : forall k, In k (s_inequalities s) -> ((linear (wide_row k) d <= 0)%Q <-> holds (operator (snd k)) (linear_form (terms (snd k)) d) 0)).
  { intros k Hk. destruct (S2 k Hk) as (R & I & _). assert (Ek : fst k = n) by (apply H1; auto). rewrite Ek in I. rewrite (linear_wide k n d I Ek Hd). destruct R as [R|R]; rewrite R; cbn [holds]; split; intros; lra. }
  assert (E2 : forall k, In k (s_equations s) -> ((linear (wide_row k) d <= 0 /\ linear (map Z.opp (wide_row k)) d <= 0)%Q <-> holds (operator (snd k)) (linear_form (terms (snd k)) d) 0)).
  { intros k Hk. destruct (S1 k Hk) as ((R & I & _) & _). rewrite linear_opp. assert (Ek : fst k = n) by (apply H2; auto). rewrite Ek in I. rewrite (linear_wide k n d I Ek Hd).
    cbn in R. rewrite R. cbn [holds]. split; [intros [K1 K2]; lra|intros K; rewrite K; split; lra]. }
  split.
  - intros (K1 & K2 & _) c Hc. apply in_map_iff in Hc as (k & <- & Hk). apply in_app_iff in Hk as [Hk|Hk]; [apply E2|apply E1]; auto.
  - intros K. split; [|split; auto]; intros k Hk; [apply E1|apply E2]; auto; apply K; apply in_map; apply in_app_iff; auto.
Qed.
Lemma pointed_no_line s so n : fits_together s n -> equations_fit s n -> sound_system s -> pointed n (constraints_of s) -> no_line (S n) (system_rows s so).
Proof.
  intros H1 H2 HS HP x Hx Hz. destruct (system_rows_facts s so n H1 H2 HS) as (_ & HU & _). destruct HS as (S1 & S2 & _). rewrite Forall_forall in S1, S2.
  destruct (row_split n x Hx) as (xs & b & -> & Hxs & _). assert (HX : Forall2 (fun q z => q * inject_Z 1 == inject_Z z)%Q (map inject_Z xs) xs).
  { clear. induction xs as [|z xs IH]; cbn [map]; constructor; auto. change (inject_Z 1) with 1%Q. ring. }
  assert (Hb : b = 0%Z).
  { assert (K := Hz _ HU). rewrite <- trivial_unit in K. clear - K Hxs. subst n. induction xs as [|z xs IH]; cbn [length repeat app dot] in K; [lia|]. apply IH. lia. }
  subst b. assert (L : forall k, In k (s_equations s ++ s_inequalities s) -> fst k = n /\ Forall (fun t => fst t < n) (terms (snd k)) /\ In (wide_row k) (system_rows s so)).
  { intros k Hk. assert (IN := proj1 (in_system_rows s so n H1 H2 (fun a => In a (system_rows s so))) (fun a Ha => Ha)). destruct IN as (I1 & I2 & _). apply in_app_iff in Hk as [Hk|Hk].
    - assert (E := H2 k Hk). destruct (S1 k Hk) as ((_ & I & _) & _). rewrite E in I. split; auto. split; auto. apply (I2 k Hk).
    - assert (E : fst k = n) by (apply H1; auto). destruct (S2 k Hk) as (_ & I & _). rewrite E in I. split; auto. }
  assert (Z0 : forall j, (nth j (map inject_Z xs) 0 == 0)%Q).
  { apply HP; [rewrite map_length; auto|]. intros c Hc. apply in_map_iff in Hc as (k & <- & Hk). destruct (L k Hk) as (E & I & HI).
    assert (D := linear_dot (wide_row k) (map inject_Z xs) xs 1 HX ltac:(rewrite wide_row_length, E, Hxs; auto)). rewrite (Hz _ HI) in D.
    rewrite (linear_wide k n (map inject_Z xs) I E ltac:(rewrite map_length; auto)) in D. change (inject_Z 1) with 1%Q in D. change (inject_Z 0) with 0%Q in D. destruct (operator (snd k)); lra. }
  apply (nth_ext _ _ 0%Z 0%Z); [rewrite vzero_length; auto|]. intros j Hj. rewrite nth_vzero. assert (C := cleared_nth _ _ _ j HX). rewrite (Z0 j) in C.
  destruct (Nat.lt_ge_cases j n) as [Hj'|Hj'].
  - rewrite app_nth1 by lia. apply inject_eq. rewrite <- C. change (inject_Z 0) with 0%Q. ring.
  - rewrite app_nth2 by lia. rewrite app_length in Hj. cbn in Hj. replace (j - length xs) with 0 by lia. reflexivity.
Qed.

(** ** C49: the whole file *)
Lemma fits_together_iff s : sound_system s ->
  (m_consistent_inequalities (map wide_row (s_inequalities s)) (s_names s) (match s_dimension s with Some d => d | None => size_max end) = Ok tt <-> exists n, fits_together s n).
Proof.
  intros (_ & _ & HD). rewrite (proj2 (C47_outer_consistency (map wide_row (s_inequalities s)) (s_names s) (match s_dimension s with Some d => d | None => size_max end) ltac:(destruct (s_dimension s); unfold size_max in *; lia))).
  change (2 ^ 64 - 1)%Z with size_max. unfold fits_together. split.
  - intros (m & K1 & K2 & K3 & K4). assert (L : forall k, In k (s_inequalities s) -> S (fst k) = m) by (intros k Hk; rewrite <- wide_row_length; apply K2; apply in_map; auto).
    destruct (s_inequalities s) as [|k0 ks] eqn:E; [exfalso; apply K1; reflexivity|]. destruct m as [|n]; [specialize (L k0 ltac:(left; auto)); lia|]. exists n. split; [discriminate|].
    split; [intros k Hk; specialize (L k Hk); lia|]. split; [destruct K3; [left; auto|right; lia]|]. destruct (s_dimension s) as [d|]; [right|left; auto]. destruct K4 as [K4|K4]; [lia|]. f_equal. lia.
  - intros (n & K1 & K2 & K3 & K4). exists (S n). split; [intros E; apply map_eq_nil in E; auto|]. split; [intros r Hr; apply in_map_iff in Hr as (k & <- & Hk); rewrite wide_row_length, (K2 k Hk); auto|].
    split; [destruct K3; [left; auto|right; lia]|]. destruct K4 as [->| ->]; [left; auto|right; lia].
Qed.
(** A file that is written as the grammar [system_text] says, with a keyword among its first twenty lines, is rejected if its parts do not fit together; otherwise it is read as a list of rows
    that have the same common solutions as its equations and inequalities, if the equations have as many variables as the inequalities (which is not checked). *)
Theorem C49_read : forall fs args name so t s, asks args name so -> fs name = Some t -> early_keyword t -> system_text no_system (Some t) s ->
  exists fuel0, forall fuel, fuel0 <= fuel ->
    (forall n, fits_together s n -> exists A, m_input_inequalities fs fuel args = Ok (Some (A, s_names s, s_maps s, [])) /\
       (equations_fit s n -> dims (S n) A /\ In (unit_vec (S n) n (-1)) A /\ length A = length (s_inequalities s) + 2 * length (s_equations s) + 1 /\
         forall p : list Q, length p = n -> (solves A p <-> all_satisfied (constraints_of s) p))) /\
    ((forall n, ~ fits_together s n) -> m_input_inequalities fs fuel args = Throw).
Proof.
  intros fs args name so t s HA HF HE HT. destruct (input_inequalities_ok fs args name so t s HA HF HE HT) as (fuel0 & K). exists fuel0. intros fuel Hf. rewrite (K fuel Hf).
  assert (HS := system_sound _ _ _ HT no_system_sound). assert (HC := fits_together_iff s HS). split.
  - intros n Hn. assert (EC := proj2 HC (ex_intro _ n Hn)). rewrite EC. exists (system_rows s so). split; auto. intros He. destruct (system_rows_facts s so n Hn He HS) as (F1 & F2 & _). split; auto. split; auto. split.
    + unfold system_rows. rewrite app_length, <- (Permutation_length (m_sort_perm so (stated_rows s))). unfold stated_rows. rewrite app_length, !map_length. cbn [length]. f_equal. f_equal.
      unfold both_sides. rewrite flat_map_concat_map. clear. induction (s_equations s) as [|k ks IH]; cbn [map concat app length]; auto. rewrite IH. lia.
    + intros p Hp. apply solves_system with (n := n); auto.
  - intros HN. destruct (m_consistent_inequalities _ _ _) as [[]| |] eqn:EC; auto. exfalso. destruct (proj1 HC eq_refl) as (n & Hn). exact (HN n Hn).
Qed.
Print Assumptions C49_read.
(** The order of the rows: sorted as the command line says; without -s inequalities, then equations with their negatives, in the order of the file. *)
Theorem C49_order : forall fs args name so t s n, asks args name so -> fs name = Some t -> early_keyword t -> system_text no_system (Some t) s -> fits_together s n -> equations_fit s n ->
  exists fuel0 rows, (forall fuel, fuel0 <= fuel -> m_input_inequalities fs fuel args = Ok (Some (rows ++ [unit_vec (S n) n (-1)], s_names s, s_maps s, []))) /\
    ordered so rows /\ Permutation rows (map wide_row (s_inequalities s) ++ flat_map (fun k => [wide_row k; map Z.opp (wide_row k)]) (s_equations s)) /\
    (so = NoSorting -> rows = map wide_row (s_inequalities s) ++ flat_map (fun k => [wide_row k; map Z.opp (wide_row k)]) (s_equations s)).
Proof.
  intros fs args name so t s n HA HF HE HT Hn He. destruct (input_inequalities_ok fs args name so t s HA HF HE HT) as (fuel0 & K). assert (HS := system_sound _ _ _ HT no_system_sound).
  assert (EC := proj2 (fits_together_iff s HS) (ex_intro _ n Hn)). assert (E : stated_rows s = map wide_row (s_inequalities s) ++ flat_map (fun k => [wide_row k; map Z.opp (wide_row k)]) (s_equations s)).
  { unfold stated_rows, both_sides. f_equal. rewrite !flat_map_concat_map, map_map. reflexivity. }
  rewrite <- E. exists fuel0, (m_sort so (stated_rows s)). split; [|split; [|split]].
  - intros fuel Hf. rewrite (K fuel Hf), EC. f_equal. f_equal. f_equal. f_equal. f_equal. unfold system_rows. f_equal. f_equal. rewrite <- trivial_unit. f_equal. f_equal.
    assert (HP := m_sort_perm so (stated_rows s)). assert (Hne : m_sort so (stated_rows s) <> []). { intros E0. rewrite E0 in HP. apply Permutation_sym, Permutation_nil in HP. apply (stated_nonempty s n Hn HP). }
    assert (HD : dims (S n) (m_sort so (stated_rows s))) by (apply (Permutation_Forall HP); apply stated_widths; auto).
    destruct (exists_last Hne) as (l & x & E1). rewrite E1 in *. rewrite last_last. apply Forall_app in HD as [_ HD]. apply Forall_inv in HD. lia.
  - apply (C34_ordered so (S n)). apply stated_widths; auto.
  - apply Permutation_sym, m_sort_perm.
  - intros ->. reflexivity.
Qed.
Print Assumptions C49_order.

(** ** C50: vertex enumeration from the file to the text *)
Lemma vertex_program_lists : forall t order fs args name so content s n (F : list vec),
  t <> INT16 -> sort_order order -> asks args name so -> fs name = Some content -> early_keyword content -> system_text no_system (Some content) s ->
  fits_together s n -> equations_fit s n -> 0 < n -> s_maps s = [] -> pointed n (constraints_of s) ->
  m_fme (arith t) order (system_rows s so) = Ok F -> Forall negatable_row F ->
  exists vertices P rays R,
    section_lines vertices P /\ section_lines rays R /\
    (exists fuel0, forall fuel, fuel0 <= fuel ->
      m_vertex_program t order fs fuel args = Some (vertex_text vertices rays (match P with [] => true | _ => false end) (match R with [] => true | _ => false end) false, Ok tt)) /\
    (forall p : list Q, length p = n -> (all_satisfied (constraints_of s) p <-> hull n (map coordinates_of P) (map coordinates_of R) p)) /\
    (forall p : list Q, vertex_of n (all_satisfied (constraints_of s)) p <-> exists q, In q (map coordinates_of P) /\ same_point q p) /\
    listed_once same_point (map coordinates_of P) /\
    (forall d : list Q, extreme_move n (constraints_of s) d <-> length d = n /\ exists u, In u (map coordinates_of R) /\ multiple d u) /\
    listed_once multiple (map coordinates_of R) /\
    readable_again n P R.
Proof.
  intros t order fs args name so content s n F Ht Ho HA HF HK HT Hn He H0 HM HP HE HB. assert (HS := system_sound _ _ _ HT no_system_sound).
  destruct (system_rows_facts s so n Hn He HS) as (HD & HU & HR). destruct (input_inequalities_ok fs args name so content s HA HF HK HT) as (f0 & K).
  assert (EC := proj2 (fits_together_iff s HS) (ex_intro _ n Hn)). assert (NL := pointed_no_line s so n Hn He HS HP).
  destruct (vertex_call_lists t order n (system_rows s so) F (length F) Ht Ho (HR t Ht) HD H0 NL HU HE HB (le_n _)) as (vertices & P & rays & R & E1 & L1 & L2 & X1 & X2 & X3 & X4 & X5 & X6).
  exists vertices, P, rays, R. split; auto. split; auto. split; [|split; [|split; [|split; [|split; [|split]]]]]; auto.
  - exists (f0 + length F). intros fuel Hfuel. unfold m_vertex_program. rewrite (K fuel) by lia. rewrite EC. cbn [calco]. rewrite cast_rows_same by auto. rewrite HM, <- E1. clear - HE Hfuel. unfold m_vertex_call.
    change (num (arith t)) with Z in *. rewrite HE. cbn [bind]. destruct (classes_none t Vertex_tag F (length F) (le_n _)) as (out & EO & _).
    rewrite EO, (classes_mono (arith t) (length F) fuel Vertex_tag [] F out ltac:(lia) EO). reflexivity.
  - intros p Hp. rewrite <- (X1 p Hp). symmetry. apply (solves_system s so n); auto.
  - intros p. rewrite <- X2. unfold vertex_of, corner. split; intros (V1 & V2 & V3); split; auto; (split; [apply (solves_system s so n); auto|]); intros q r c Hq Hr Sq Sr; apply V3; auto; apply (solves_system s so n); auto.
  - intros d. rewrite <- X4. unfold extreme_move, extreme_direction. split; intros (V1 & V2 & V3 & V4); split; auto; (split; [apply (recedes_system s so n); auto|]); (split; [auto|]); intros u v Hu Hv Su Sv; apply V4; auto;
      apply (recedes_system s so n); auto.
Qed.
(** Without maps, for a system whose solutions contain no line: unless an overflow stops the computation, the program prints points and rays that generate exactly the common solutions of the equations
    and inequalities in the file, and they are exactly the vertices and the extreme directions of this set, each printed once. *)
Theorem C50_vertices : forall t order fs args name so content s n (F : list vec),
  t <> INT16 -> sort_order order -> asks args name so -> fs name = Some content -> early_keyword content -> system_text no_system (Some content) s ->
  fits_together s n -> equations_fit s n -> 0 < n -> s_maps s = [] -> pointed n (constraints_of s) ->
  m_fme (arith t) order (system_rows s so) = Ok F -> Forall negatable_row F ->
  exists vertices P rays R,
    section_lines vertices P /\ section_lines rays R /\
    (exists fuel0, forall fuel, fuel0 <= fuel ->
      m_vertex_program t order fs fuel args = Some (vertex_text vertices rays (match P with [] => true | _ => false end) (match R with [] => true | _ => false end) false, Ok tt)) /\
    (forall p : list Q, length p = n -> (all_satisfied (constraints_of s) p <-> hull n (map coordinates_of P) (map coordinates_of R) p)) /\
    (forall p : list Q, vertex_of n (all_satisfied (constraints_of s)) p <-> exists q, In q (map coordinates_of P) /\ same_point q p) /\
    listed_once same_point (map coordinates_of P) /\
    (forall d : list Q, extreme_move n (constraints_of s) d <-> length d = n /\ exists u, In u (map coordinates_of R) /\ multiple d u) /\
    listed_once multiple (map coordinates_of R).
Proof.
  intros t order fs args name so content s n F Ht Ho HA HF HK HT Hn He H0 HM HP HE HB.
  destruct (vertex_program_lists t order fs args name so content s n F Ht Ho HA HF HK HT Hn He H0 HM HP HE HB) as (vertices & P & rays & R & K1 & K2 & K3 & K4 & K5 & K6 & K7 & K8 & _). exists vertices, P, rays, R. auto 10.
Qed.
Print Assumptions C50_vertices.
(** With SafeInteger (option "-i safe"): if the exact result can be printed, the program prints the vertices and extreme directions or stops with status 1. *)
Theorem C50_safe : forall order fs args name so content s n (F : list vec),
  sort_order order -> asks args name so -> fs name = Some content -> early_keyword content -> system_text no_system (Some content) s ->
  fits_together s n -> equations_fit s n -> 0 < n -> s_maps s = [] -> pointed n (constraints_of s) ->
  m_fme (arith EXACT) order (system_rows s so) = Ok F -> Forall negatable_row F ->
  (exists fuel0, forall fuel, fuel0 <= fuel -> m_vertex_program SAFE order fs fuel args = Some ([], Throw)) \/
  exists vertices P rays R,
    section_lines vertices P /\ section_lines rays R /\
    (exists fuel0, forall fuel, fuel0 <= fuel ->
      m_vertex_program SAFE order fs fuel args = Some (vertex_text vertices rays (match P with [] => true | _ => false end) (match R with [] => true | _ => false end) false, Ok tt)) /\
    (forall p : list Q, length p = n -> (all_satisfied (constraints_of s) p <-> hull n (map coordinates_of P) (map coordinates_of R) p)) /\
    (forall p : list Q, vertex_of n (all_satisfied (constraints_of s)) p <-> exists q, In q (map coordinates_of P) /\ same_point q p) /\
    (forall d : list Q, extreme_move n (constraints_of s) d <-> length d = n /\ exists u, In u (map coordinates_of R) /\ multiple d u).
Proof.
  intros order fs args name so content s n F Ho HA HF HK HT Hn He H0 HM HP HE HB. assert (HS := system_sound _ _ _ HT no_system_sound).
  destruct (system_rows_facts s so n Hn He HS) as (HD & HU & HR). assert (Ht : SAFE <> INT16) by discriminate.
  assert (NZ : nonzero (S n) (system_rows s so)).
  { exists (unit_vec (S n) n (-1)). split; auto. intros E. assert (K := f_equal (fun v => nth n v 0%Z) E). cbn beta in K. rewrite <- trivial_unit, nth_vzero in K.
    rewrite app_nth2 in K by (rewrite repeat_length; lia). rewrite repeat_length, Nat.sub_diag in K. discriminate. }
  destruct (C21_safe_elimination order (S n) (system_rows s so) Ho (HR SAFE Ht) HD NZ) as ([E|E] & _).
  - right. rewrite HE in E. destruct (C50_vertices SAFE order fs args name so content s n F Ht Ho HA HF HK HT Hn He H0 HM HP E HB) as (vertices & P & rays & R & K1 & K2 & K3 & K4 & K5 & _ & K6 & _).
    exists vertices, P, rays, R. auto 10.
  - left. destruct (input_inequalities_ok fs args name so content s HA HF HK HT) as (f0 & K). assert (EC := proj2 (fits_together_iff s HS) (ex_intro _ n Hn)). exists f0. intros fuel Hf.
    unfold m_vertex_program. rewrite (K fuel Hf), EC. cbn [calco]. rewrite cast_rows_same by auto. unfold m_vertex_call. change (num (arith SAFE)) with Z in *. rewrite E. reflexivity.
Qed.
Print Assumptions C50_safe.

(** ** A concrete file *)
Definition segment : text := line "Names:" ++ line "x y" ++ line "" ++ line "Equations:" ++ line "x + y = 1" ++ line "" ++ line "Inequalities:" ++ line "-x <= 0" ++ line "2y >= 0".
Definition segment_system : system :=
  {| s_equations := [(2, {| terms := [(0, 1%Z); (1, 1%Z)]; operator := Equal; constant := 1 |})];
     s_inequalities := [(2, {| terms := [(0, (-1)%Z)]; operator := LessEqual; constant := 0 |}); (2, {| terms := [(1, 2%Z)]; operator := GreaterEqual; constant := 0 |})];
     s_names := [lit "x"; lit "y"]; s_maps := []; s_dimension := None |}.
Ltac short := apply Nat.leb_le; vm_compute; reflexivity.
Lemma one_distinct (t : nat * Z) : NoDup (map fst [t]).
Proof. constructor; [intros []|constructor]. Qed.
Lemma segment_equation : constraint_line xy Equation (lit "x + y = 1") (2, {| terms := [(0, 1%Z); (1, 1%Z)]; operator := Equal; constant := 1 |}).
Proof.
  split; [reflexivity|]. cbn [snd]. apply (written_short_line xy Equation [] (lit "x + y = 1")); try reflexivity; try short; try discriminate.
  - constructor. constructor.
  - change (lit "x + y = 1") with ((lit "x" ++ lit " " ++ (lit "+" ++ lit " " ++ [] ++ lit "y") ++ lit " " ++ []) ++ lit "= " ++ lit "1" ++ []). constructor.
    + constructor; [exact (term_joined xy [] (lit "x") 1 0 factor_none (xy_variable 0 _ eq_refl))|repeat constructor|discriminate|].
      constructor; [|repeat constructor|discriminate|constructor].
      exact (term_plus xy (lit " ") [] (lit "y") 1 1 ltac:(repeat constructor) ltac:(discriminate) factor_none ltac:(lia) (xy_variable 1 _ eq_refl)).
    + apply (relation_eq (lit " ")); [repeat constructor|discriminate].
    + exact (integer_plain (lit "1") ltac:(discriminate) ltac:(repeat constructor)).
    + ranges.
    + ranges.
    + constructor.
  - constructor; [intros [K|[]]; discriminate K|apply (one_distinct (1, 1%Z))].
  - repeat constructor; cbn; lia.
Qed.
Lemma segment_left : constraint_line xy Inequality (lit "-x <= 0") (2, {| terms := [(0, (-1)%Z)]; operator := LessEqual; constant := 0 |}).
Proof.
  split; [reflexivity|]. cbn [snd]. apply (written_short_line xy Inequality [] (lit "-x <= 0")); try reflexivity; try short; try discriminate.
  - constructor. constructor.
  - change (lit "-x <= 0") with ((lit "-x" ++ lit " " ++ []) ++ lit "<= " ++ lit "0" ++ []). constructor.
    + constructor; [|repeat constructor|discriminate|constructor]. exact (term_joined xy (lit "-") (lit "x") (-1) 0 factor_minus (xy_variable 0 _ eq_refl)).
    + apply (relation_le (lit " ")). repeat constructor.
    + exact (integer_plain (lit "0") ltac:(discriminate) ltac:(repeat constructor)).
    + ranges.
    + ranges.
    + constructor.
  - apply one_distinct.
  - repeat constructor; cbn; lia.
  - left. reflexivity.
Qed.
Lemma segment_below : constraint_line xy Inequality (lit "2y >= 0") (2, {| terms := [(1, 2%Z)]; operator := GreaterEqual; constant := 0 |}).
Proof.
  split; [reflexivity|]. cbn [snd]. apply (written_short_line xy Inequality [] (lit "2y >= 0")); try reflexivity; try short; try discriminate.
  - constructor. constructor.
  - change (lit "2y >= 0") with ((lit "2y" ++ lit " " ++ []) ++ lit ">= " ++ lit "0" ++ []). constructor.
    + constructor; [|repeat constructor|discriminate|constructor].
      exact (term_joined xy (lit "2") (lit "y") 2 1 (factor_integer (lit "2") 2 (integer_plain (lit "2") ltac:(discriminate) ltac:(repeat constructor)) ltac:(ranges)) (xy_variable 1 _ eq_refl)).
    + apply (relation_ge (lit " ")). repeat constructor.
    + exact (integer_plain (lit "0") ltac:(discriminate) ltac:(repeat constructor)).
    + ranges.
    + ranges.
    + constructor.
  - apply one_distinct.
  - repeat constructor; cbn; lia.
  - right. reflexivity.
Qed.
Lemma keyword_itself words w : In w words -> keyword_line words (lit w).
Proof. intros Hw. exists [], w, []. rewrite app_nil_r. repeat split; auto; constructor. Qed.
Lemma xy_text : names_text (lit "x y") [lit "x"; lit "y"].
Proof.
  assert (FW : forall c, Forall (fun d => is_space d = false) [c] -> forallb (fun w => negb (text_eqb [c] (lit w))) all_words = true -> free_word [c]).
  { intros c H1 H2. split; [split; [discriminate|auto]|]. intros w Hw E. rewrite forallb_forall in H2. specialize (H2 w Hw). rewrite <- E in H2. destruct (text_eqb_spec [c] [c]); [discriminate|congruence]. }
  apply (names_cons [] (lit "x") (lit " y") [lit "y"]); [constructor|apply FW; [repeat constructor|reflexivity]|reflexivity|].
  apply (names_cons (lit " ") (lit "y") [] []); [repeat constructor|apply FW; [repeat constructor|reflexivity]|reflexivity|constructor].
Qed.
Example segment_text : system_text no_system (Some segment) segment_system.
Proof.
  apply (system_names no_system (lit "Names:") (lit "x y") [lit "x"; lit "y"] [newline; newline] (lit "Equations:") (line "x + y = 1" ++ line "" ++ line "Inequalities:" ++ line "-x <= 0" ++ line "2y >= 0"));
    try (apply keyword_itself; vm_compute; tauto); try discriminate; try apply xy_text.
  - repeat constructor.
  - assert (PL : plain_line []). { destruct (plain_or_keyword [] ltac:(intros [])) as [H|H]; [exact H|discriminate H]. }
    apply (system_line _ []); [left; exact PL|]. apply (system_line _ []); [left; exact PL|].
    apply (system_equations _ (lit "Equations:") (line "x + y = 1" ++ line "") [(2, {| terms := [(0, 1%Z); (1, 1%Z)]; operator := Equal; constant := 1 |})]
      (line "Inequalities:" ++ line "-x <= 0" ++ line "2y >= 0") [] (Some (line "Inequalities:" ++ line "-x <= 0" ++ line "2y >= 0"))); cbn [s_names].
    + exact xy_names.
    + apply keyword_itself. vm_compute. tauto.
    + apply (written_line _ (lit "x + y = 1")); [exact segment_equation|]. apply (written_blank _ [] []); [constructor|constructor].
    + apply (follows_keyword _ (lit "Inequalities:")); [apply keyword_itself; vm_compute; tauto|reflexivity].
    + constructor; [|constructor]. split; [repeat constructor; cbn; lia|cbn; lia].
    + apply (system_inequalities _ (lit "Inequalities:") (line "-x <= 0" ++ line "2y >= 0")
        [(2, {| terms := [(0, (-1)%Z)]; operator := LessEqual; constant := 0 |}); (2, {| terms := [(1, 2%Z)]; operator := GreaterEqual; constant := 0 |})] [] [] None); cbn [s_names].
      * exact xy_names.
      * apply keyword_itself. vm_compute. tauto.
      * apply (written_line _ (lit "-x <= 0")); [exact segment_left|]. apply (written_line _ (lit "2y >= 0")); [exact segment_below|constructor].
      * apply follows_end; constructor.
      * apply system_none.
Qed.
Example C50_example :
  asks [lit "f"] (lit "f") NoSorting /\ one_file segment (lit "f") = Some segment /\ early_keyword segment /\ fits_together segment_system 2 /\ equations_fit segment_system 2 /\ pointed 2 (constraints_of segment_system) /\
  system_rows segment_system NoSorting = [[-1; 0; 0]; [0; -2; 0]; [1; 1; -1]; [-1; -1; 1]; [0; 0; -1]]%Z /\
  m_fme (arith SAFE) sorted_order (system_rows segment_system NoSorting) = Ok [[1; 0; 1]; [0; 1; 1]]%Z /\
  m_vertex_program SAFE sorted_order (one_file segment) 20 [lit "f"] = Some (line "Vertices:" ++ line "0 1 " ++ line "1 0 ", Ok tt).
Proof.
  split; [apply asks_plain|]. split; [reflexivity|]. split.
  { exists (lit "Names:"). split; [exists [], (newline :: line "x y" ++ line "" ++ line "Equations:" ++ line "x + y = 1" ++ line "" ++ line "Inequalities:" ++ line "-x <= 0" ++ line "2y >= 0")|].
    - split; [reflexivity|]. split; [cbn; lia|]. split; [constructor|]. split; [cbn; intuition discriminate|]. right. eexists. reflexivity.
    - apply keyword_itself. vm_compute. tauto. }
  split. { split; [discriminate|]. split; [cbn; intuition (subst; reflexivity)|]. split; [right; reflexivity|left; reflexivity]. }
  split. { intros k [<-|[]]. reflexivity. }
  split. { intros d Hd H j. destruct d as [|a [|b [|]]]; try discriminate. assert (H1 := H _ (or_intror (or_introl eq_refl))). assert (H2 := H _ (or_intror (or_intror (or_introl eq_refl)))).
    unfold linear_form, coordinate_of in H1, H2. cbn [fold_right terms fst snd nth] in H1, H2. change (inject_Z (-1)) with (-1)%Q in H1. change (inject_Z 2) with 2%Q in H2.
    destruct j as [|[|[|j]]]; cbn [nth]; try reflexivity; lra. }
  split; [reflexivity|]. split; vm_compute; reflexivity.
Qed.

(** ** What goes wrong *)
(** The number of variables in the equations is not checked: the equation "1 = 1" (of one variable) beside inequalities in two is taken for the row (1, -1), and the rows do not have the same length. *)
Theorem C49_equations_refuted :
  m_input_inequalities (one_file (line "Equations:" ++ line "1 = 1" ++ line "Inequalities:" ++ line "1 0 <= 1" ++ line "0 1 <= 1")) 20 [lit "f"] =
    Ok (Some ([[1; 0; -1]; [0; 1; -1]; [1; -1]; [-1; 1]; [0; -1]]%Z, [], [], [])).
Proof. vm_compute. reflexivity. Qed.
Print Assumptions C49_equations_refuted.
(** Lines are not printed: for the half plane x <= 1 the program prints the vertex (1, 0) and the ray (-1, 0) with status 0.  The point (1, 1) is a solution, but it is not generated by them. *)
Theorem C50_lines_refuted :
  m_vertex_program SAFE sorted_order (one_file (line "Inequalities:" ++ line "1 0 <= 1")) 20 [lit "f"] = Some (line "Vertices:" ++ line "1 0 " ++ line "Rays:" ++ line " -1  0", Ok tt) /\
  satisfies {| terms := enumerate [1; 0]%Z; operator := LessEqual; constant := 1 |} [1; 1]%Q /\ ~ hull 2 [[1; 0]%Q] [[-1 # 1; 0]%Q] [1; 1]%Q.
Proof.
  split; [vm_compute; reflexivity|]. split; [vm_compute; discriminate|]. intros (mus & nus & L1 & L2 & _ & _ & _ & H). destruct mus as [|m [|]]; try discriminate. destruct nus as [|u [|]]; try discriminate.
  specialize (H 1 ltac:(lia)). cbn [nth comb] in H. lra.
Qed.
Print Assumptions C50_lines_refuted.
