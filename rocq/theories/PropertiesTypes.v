(** * PropertiesTypes: the whole program called with a larger integer type (C42, C56). *)
From Coq Require Import List ZArith Arith Bool Lia Ascii String.
From Verif Require Import Base Spec ListUtil ArithModel MatrixModel FmeModel SafeIntModel IntTypes MapModel StreamModel SortModel CliModel PropertiesCli OutputModel FileModel FileInput TypedModel MainModel ModeDetection PropertiesMain PropertiesInf Samples PropertiesFile.
Import ListNotations.
Open Scope list_scope.

(** The same call with another type: both ask for double description of the same file, with the same sorting. *)
Definition same_call (args args' : list text) (name : text) : Prop :=
  Forall ordinary args /\ Forall ordinary args' /\ chooses_method args DoubleDescription /\ chooses_method args' DoubleDescription /\
  exists so, asks args name so /\ asks args' name so.
Definition chooses_inf (args : list text) : Prop := exists p, parameter "i" (lit "integer-type") args p /\ integer_word p Type_variable.

Lemma same_inputs fs fuel args args' name : same_call args args' name -> m_input_vertices fs fuel args = m_input_vertices fs fuel args' /\ m_input_inequalities fs fuel args = m_input_inequalities fs fuel args'.
Proof.
  intros (_ & _ & _ & _ & so & H & H'). destruct (asks_ok args name so H) as (E1 & E2 & E3 & E4 & E5). destruct (asks_ok args' name so H') as (F1 & F2 & F3 & F4 & F5).
  unfold m_input_vertices, m_input_inequalities, m_known_facets, m_known_vertices. rewrite E1, E2, E3, E4, E5, F1, F2, F3, F4, F5. split; reflexivity.
Qed.
Lemma same_mode fs args args' name : same_call args args' name -> m_detect_mode fs args = m_detect_mode fs args'.
Proof.
  intros (HO & HO' & _ & _ & so & H & H').
  rewrite (decided fs args name HO (command_line_args args name (proj1 H)) (proj1 (asks_ok args name so H))), (decided fs args' name HO' (command_line_args args' name (proj1 H')) (proj1 (asks_ok args' name so H'))). reflexivity.
Qed.
Lemma ended_well p out : m_dd_ends p out (Status 0) -> p = Some (out, Ok tt).
Proof. destruct p as [[o [[]| |]]|]; cbn; intros H; try contradiction; destruct H as (-> & H); try discriminate. reflexivity. Qed.
Lemma inf_choice args : chooses_inf args -> m_integer_type args = Ok Type_variable.
Proof. intros (p & H & W). apply C37_integer_type. right. exists p. auto. Qed.
Lemma the_mode fs args args' name : same_call args args' name -> m_detect_mode fs args = Ok FacetEnumeration \/ m_detect_mode fs args = Ok VertexEnumeration \/ m_detect_mode fs args = Ok CliModel.Invalid.
Proof.
  intros H. assert (H' := H). destruct H' as (HO & _ & _ & _ & so & HA & _).
  destruct (fs name) as [content|] eqn:EF.
  - destruct (C53_mode fs args name content HO (proj1 HA) EF) as (K1 & _ & _).
    assert (D := decided fs args name HO (command_line_args args name (proj1 HA)) (proj1 (asks_ok args name so HA))). rewrite EF in D. cbn [rest opened] in D.
    destruct (keywords_ok (length content + 2) content [] false false false (le_n _)) as (x & y & z & E & _). rewrite E in D. cbn [bind] in D. rewrite D. unfold sums. destruct x, y, z; cbn [orb andb]; auto.
  - assert (D := decided fs args name HO (command_line_args args name (proj1 HA)) (proj1 (asks_ok args name so HA))). rewrite EF in D. rewrite D. auto.
Qed.

(** Whenever the program ends with status 0, the same call with a larger type prints the same and ends with status 0. *)
Theorem C56_main : forall texts texts' order fs fuel hardware hardware' args args' name t t' out,
  larger t t' -> same_call args args' name -> chooses_type args t -> chooses_type args' t' ->
  m_main texts order fs fuel hardware args out (Status 0) -> only_ends (m_main texts' order fs fuel hardware' args') out (Status 0).
Proof.
  intros texts texts' order fs fuel hardware hardware' args args' name t t' out Hl HS HT HT' HM. assert (HS' := HS). destruct HS' as (_ & _ & M & M' & _).
  destruct (C56_program t t' order fs fuel args out Hl) as (KF & KV). destruct (same_inputs fs fuel args args' name HS) as (IV & II).
  assert (PF : m_facet_program t' order fs fuel args = m_facet_program t' order fs fuel args') by (unfold m_facet_program; rewrite IV; reflexivity).
  assert (PV : m_vertex_program t' order fs fuel args = m_vertex_program t' order fs fuel args') by (unfold m_vertex_program; rewrite II; reflexivity).
  assert (SM := same_mode fs args args' name HS). intros o x.
  destruct (the_mode fs args args' name HS) as [E|[E|E]]; rewrite E in SM; symmetry in SM; rewrite (main_mode texts order fs fuel hardware args _ E) in HM; rewrite (main_mode texts' order fs fuel hardware' args' _ SM).
  - rewrite (facet_main order fs fuel hardware args _ t M HT) in HM. rewrite (facet_main order fs fuel hardware' args' _ t' M' HT'). rewrite <- PF, (KF (ended_well _ _ HM)), dd_ends. reflexivity.
  - rewrite (vertex_main order fs fuel hardware args _ t M HT) in HM. rewrite (vertex_main order fs fuel hardware' args' _ t' M' HT'). rewrite <- PV, (KV (ended_well _ _ HM)), dd_ends. reflexivity.
  - destruct HM as (_ & HM). discriminate.
Qed.
Print Assumptions C56_main.
(** The same for "-i inf" in place of int, the default type. *)
Theorem C42_main_partial : forall texts texts' order fs fuel hardware hardware' args args' name out,
  same_call args args' name -> chooses_type args INT32 -> chooses_inf args' ->
  m_main texts order fs fuel hardware args out (Status 0) -> only_ends (m_main texts' order fs fuel hardware' args') out (Status 0).
Proof.
  intros texts texts' order fs fuel hardware hardware' args args' name out HS HT HT' HM. assert (HS' := HS). destruct HS' as (_ & _ & M & M' & _).
  destruct (C42_as_int_program_partial order fs fuel args out) as (KF & KV). destruct (same_inputs fs fuel args args' name HS) as (IV & II).
  assert (PF : m_inf_facet_program order fs fuel args = m_inf_facet_program order fs fuel args') by (unfold m_inf_facet_program; rewrite IV; reflexivity).
  assert (PV : m_inf_vertex_program order fs fuel args = m_inf_vertex_program order fs fuel args') by (unfold m_inf_vertex_program; rewrite II; reflexivity).
  assert (SM := same_mode fs args args' name HS). intros o x. apply inf_choice in HT'. apply chosen_method in M'.
  destruct (the_mode fs args args' name HS) as [E|[E|E]]; rewrite E in SM; symmetry in SM; rewrite (main_mode texts order fs fuel hardware args _ E) in HM; rewrite (main_mode texts' order fs fuel hardware' args' _ SM).
  - rewrite (facet_main order fs fuel hardware args _ INT32 M HT) in HM. unfold m_facet_main, m_uncaught. rewrite M', HT'. cbn [m_selected]. rewrite <- PF, (KF (ended_well _ _ HM)), dd_ends. reflexivity.
  - rewrite (vertex_main order fs fuel hardware args _ INT32 M HT) in HM. unfold m_vertex_main, m_uncaught. rewrite M', HT'. cbn [m_selected]. rewrite <- PV, (KV (ended_well _ _ HM)), dd_ends. reflexivity.
  - destruct HM as (_ & HM). discriminate.
Qed.
Print Assumptions C42_main_partial.
(** "-m dd f", "-m dd f --integer-type=safe" and "-m dd f -i inf" with the file of C48. *)
Definition int_args : list text := [lit "-m"; lit "dd"; lit "f"].
Definition inf_args : list text := [lit "-m"; lit "dd"; lit "f"; lit "-i"; lit "inf"].
Lemma plain_again a : In a (int_args ++ inf_args) -> ordinary a.
Proof.
  intros H. cbn in H. repeat destruct H as [<-|H]; try contradiction;
    (repeat split; try (intros [K|[K|[K|[K|[]]]]]; discriminate); try discriminate; try (intros (q & K); discriminate)).
Qed.
Lemma asks_int : asks int_args (lit "f") NoSorting /\ chooses_method int_args DoubleDescription /\ chooses_type int_args INT32.
Proof.
  split; [split; [|split; [not_concerning|split; [cbn; intuition discriminate|split; [cbn; intuition discriminate|left; split; [not_concerning|reflexivity]]]]]|split].
  - apply (line_parameter "m" (lit "dd")); try discriminate. apply line_free; [split; [discriminate|intros (p & E); discriminate]|]. apply PropertiesCli.line_end.
  - right. exists (lit "dd"). split; [|constructor]. apply (parameter_next "m" (lit "method") []). constructor.
  - left. split; [not_concerning|reflexivity].
Qed.
Lemma asks_inf : asks inf_args (lit "f") NoSorting /\ chooses_method inf_args DoubleDescription /\ chooses_inf inf_args.
Proof.
  split; [split; [|split; [not_concerning|split; [cbn; intuition discriminate|split; [cbn; intuition discriminate|left; split; [not_concerning|reflexivity]]]]]|split].
  - apply (line_parameter "m" (lit "dd")); try discriminate. apply line_free; [split; [discriminate|intros (p & E); discriminate]|]. apply (line_parameter "i" (lit "inf")); try discriminate. apply PropertiesCli.line_end.
  - right. exists (lit "dd"). split; [|constructor]. apply (parameter_next "m" (lit "method") []). constructor.
  - exists (lit "inf"). split; [|constructor]. apply (parameter_next "i" (lit "integer-type") [lit "-m"; lit "dd"; lit "f"]). not_concerning.
Qed.
Example C56_main_instance : forall texts,
  same_call int_args dd_args (lit "f") /\ chooses_type int_args INT32 /\ chooses_type dd_args SAFE /\
  same_call int_args inf_args (lit "f") /\ chooses_inf inf_args /\
  m_main texts sorted_order (one_file half_strip) 20 4 int_args (line "Inequalities:" ++ line "-x <= 0" ++ line "-y <= 0" ++ line "2x <= 1") (Status 0).
Proof.
  intros texts. destruct asks_int as (I1 & I2 & I3), asks_dd as (D1 & D2 & D3), asks_inf as (F1 & F2 & F3).
  assert (PI : Forall ordinary int_args) by (apply Forall_forall; intros a Ha; apply plain_again; apply in_app_iff; auto).
  assert (PD : Forall ordinary dd_args) by (apply Forall_forall; intros a Ha; apply plain_args; apply in_app_iff; auto).
  assert (PN : Forall ordinary inf_args) by (apply Forall_forall; intros a Ha; apply plain_again; apply in_app_iff; auto).
  split; [split; [exact PI|split; [exact PD|split; [exact I2|split; [exact D2|exists NoSorting; split; [exact I1|exact D1]]]]]|].
  split; [exact I3|]. split; [exact D3|].
  split; [split; [exact PI|split; [exact PN|split; [exact I2|split; [exact F2|exists NoSorting; split; [exact I1|exact F1]]]]]|].
  split; [exact F3|].
  apply (main_mode texts sorted_order (one_file half_strip) 20 4 int_args FacetEnumeration); [vm_compute; reflexivity|].
  apply (facet_main sorted_order (one_file half_strip) 20 4 int_args _ INT32 I2 I3).
  assert (E : m_facet_program INT32 sorted_order (one_file half_strip) 20 int_args = Some (line "Inequalities:" ++ line "-x <= 0" ++ line "-y <= 0" ++ line "2x <= 1", Ok tt)) by (vm_compute; reflexivity).
  rewrite E, dd_ends. split; reflexivity.
Qed.
