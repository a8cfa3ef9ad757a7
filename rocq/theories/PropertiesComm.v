(** * PropertiesComm: rows and matrices sent between the processes of a distributed run (C39). *)
From Coq Require Import List ZArith Arith Bool Lia.
From Verif Require Import Base Spec ArithModel FmeModel MapModel ClassesModel SafeIntModel IntTypes OutputModel FileModel RotationModel CommModel CommProofs Samples.
Import ListNotations.
Open Scope Z_scope.

(** ** Specification *)
(** The values of [int]; the rows that can be sent as values of the type [t]. *)
Definition int_value_range (z : Z) : Prop := - 2147483648 <= z <= 2147483647.
Definition row_of (t : int_type) (n : nat) (row : vec) : Prop := length row = n /\ forall z, In z row -> representable t z /\ int_value_range z.
(** A matrix with at least one row, all of the same length [n] > 0, of values of the type that fit into [int] (and of a size that fits into the memory). *)
Definition proper_matrix (t : int_type) (M : list vec) : Prop :=
  M <> [] /\ Z.of_nat (length M) < 2 ^ 64 /\ exists n, (0 < n)%nat /\ Z.of_nat n < 2 ^ 29 /\ forall row, In row M -> row_of t n row.
(** The matrices given to the link in a run. *)
Fixpoint matrices (es : list event) : list (list vec) := match es with [] => [] | Send M :: es' => M :: matrices es' | Other :: es' => matrices es' end.
Definition prefix {A} (l l' : list A) : Prop := exists rest, l' = l ++ rest.

Lemma proper_sendable t M : proper_matrix t M -> sendable t M.
Proof.
  intros (H1 & H2 & n & H3 & H4 & H5). split; auto. split; auto. exists n. split; auto. split; auto. apply Forall_forall. intros row Hr. destruct (H5 row Hr) as [H6 H7]. split; auto. apply Forall_forall. intros z Hz.
  destruct (H7 z Hz) as [H8 H9]. split; auto. unfold in_int, int_value_range in *. lia.
Qed.
Lemma matrices_app es es' : matrices (es ++ es') = matrices es ++ matrices es'.
Proof. induction es as [|[M|] es IH]; cbn [app matrices]; auto. rewrite IH. reflexivity. Qed.
Lemma sent_matrices t eager es l : link_run t eager es l -> sent l = matrices es.
Proof. induction 1 as [|es e l l' _ IH HS]; auto. rewrite matrices_app, <- IH. destruct HS; cbn [sent matrices]; rewrite ?app_nil_r; auto. Qed.
Lemma proper_allowed t es : (forall M, In M (matrices es) -> proper_matrix t M) -> Forall (allowed t) es.
Proof. induction es as [|[M|] es IH]; intros H; constructor; cbn [allowed matrices] in *; auto; [apply proper_sendable; apply H; left; auto|]. apply IH. intros M' HM. apply H. right. auto. Qed.

(** ** C39: rows *)
(** Every row of values that fit into [int] arrives unchanged at the slave; in particular the empty row, which stops a thread of the slave. *)
Theorem C39_row : forall t n row, row_of t n row -> Z.of_nat n < 2 ^ 29 -> exists x, m_to_slave t row = Ok x /\ m_from_master t x = Ok row.
Proof.
  intros t n row [HL HR] Hn. assert (HI : Forall in_int row) by (apply Forall_forall; intros z Hz; destruct (HR z Hz) as [_ K]; unfold in_int, int_value_range in *; lia).
  exists (ints_bytes row). unfold m_to_slave, m_from_master. rewrite cast_ok by auto. cbn [bind]. rewrite HL, count_ok by auto. destruct (Z.ltb_spec (4 * Z.of_nat n) 0); [lia|]. split.
  - f_equal. apply firstn_all2. rewrite ints_bytes_length. lia.
  - assert (E : (length (ints_bytes row) / 4)%nat = n) by (rewrite ints_bytes_length, Nat.mul_comm, Nat.div_mul by lia; auto). rewrite E, receive_ok by (rewrite count_ok, ints_bytes_length by auto; lia).
    cbn [bind]. f_equal. rewrite <- HL, ints_ok by auto. rewrite <- (map_id row) at 2. apply map_ext_in. intros z Hz. apply from_int_ok. apply HR. auto.
Qed.
Print Assumptions C39_row.
(** With SafeInteger a row that does not fit stops the run. *)
Theorem C39_safe_row : forall row, Z.of_nat (length row) < 2 ^ 29 -> (forall z, In z row -> representable SAFE z) ->
  (exists x, m_to_slave SAFE row = Ok x /\ m_from_master SAFE x = Ok row) \/ m_to_slave SAFE row = Throw.
Proof.
  intros row HL HR. assert (D : (forall z, In z row -> int_value_range z) \/ exists z, In z row /\ ~ int_value_range z).
  { clear. induction row as [|z row [IH|(y & H1 & H2)]]; [left; intros z []| |right; exists y; split; [right; auto|auto]].
    destruct (Z_le_dec (-2147483648) z); [|right; exists z; split; [left; auto|unfold int_value_range; lia]]. destruct (Z_le_dec z 2147483647); [|right; exists z; split; [left; auto|unfold int_value_range; lia]].
    left. intros y [<-|Hy]; [unfold int_value_range; lia|auto]. }
  destruct D as [D|(z & Hz & D)]; [left; apply (C39_row SAFE (length row)); auto; split; auto|right].
  unfold m_to_slave. assert (E : m_cast SAFE row = Throw); [|rewrite E; reflexivity]. clear HL HR. induction row as [|y row IH]; [destruct Hz|]. unfold m_cast in *. cbn [mapM m_to_int].
  assert (K : forall u, ~ int_value_range u -> si_to_int u = Throw).
  { intros u Hu. unfold si_to_int, int_value_range, SafeIntModel.int_max, SafeIntModel.int_min in *. change (- 2 ^ (32 - 1)) with (-2147483648). change (2 ^ (32 - 1)) with 2147483648. destruct (Z.gtb_spec u (2147483648 - 1)); auto. destruct (Z.ltb_spec u (-2147483648)); auto. lia. }
  destruct Hz as [->|Hz]; [rewrite (K z D); reflexivity|]. assert (C : si_to_int y = Throw \/ exists v, si_to_int y = Ok v) by (unfold si_to_int; destruct (_ || _)%bool; eauto).
  destruct C as [C|(v & C)]; rewrite C; cbn [bind]; auto. rewrite (IH Hz). reflexivity.
Qed.
Print Assumptions C39_safe_row.

(** ** C39: matrices *)
(** Any number of threads of the slave send proper matrices and any number of request threads receive them: at any time the matrices received are the first ones sent, each
    complete and unchanged, and no receive fails - unless MPI has read a buffer after its lifetime. *)
Theorem C39_matrices_partial : forall t eager es l, link_run t eager es l -> (forall M, In M (matrices es) -> proper_matrix t M) ->
  prefix (got l) (matrices es) /\ reading l <> Failed.
Proof.
  intros t eager es l HR HM. assert (E := sent_matrices _ _ _ _ HR). rewrite <- E. destruct (invariant_run t eager es l HR (proper_allowed t es HM)) as [[(xs & Ms & H1 & H2 & H3)]|(H1 & Ms & H2)].
  - split; [exists Ms; auto|]. apply (expects_defined _ _ _ _ H2).
  - split; [exists Ms; auto|]. rewrite H1. discriminate.
Qed.
Print Assumptions C39_matrices_partial.
(** If MPI takes the bytes when a message is posted, nothing is undefined, there is always something to do until all matrices have arrived, and the number of steps
    is at most the given bound: every matrix arrives. *)
Theorem C39_delivered_partial : forall t es l, link_run t true es l -> (forall M, In M (matrices es) -> proper_matrix t M) ->
  reading l <> Undefined /\ (got l = matrices es \/ exists l', link_step t true Other l l').
Proof.
  intros t es l HR HM. assert (E := sent_matrices _ _ _ _ HR). assert (I := eager_defined t es l HR (proper_allowed t es HM)). split.
  - destruct I as [(xs & Ms & _ & H2 & _)]. apply (expects_defined _ _ _ _ H2).
  - rewrite <- E. destruct (invariant_progress t true l I) as [(H & _)|H]; auto.
Qed.
Print Assumptions C39_delivered_partial.
Definition is_other (e : event) : bool := match e with Other => true | _ => false end.
Theorem C39_steps_partial : forall t eager es l, link_run t eager es l -> (forall M, In M (matrices es) -> proper_matrix t M) ->
  (length (filter is_other es) <= 1 + list_sum (map (fun M => 11 + 5 * length M) (matrices es)))%nat.
Proof.
  intros t eager es l HR HM. assert (K : (length (filter is_other es) + rank l <= 1 + list_sum (map (fun M => 11 + 5 * length M) (matrices es)))%nat); [|lia].
  induction HR as [|es e l l' HR IH HS]; [cbn; lia|]. rewrite filter_app, app_length, matrices_app, map_app, list_sum_app. rewrite matrices_app in HM.
  assert (IH' := IH (fun M H => HM M (proj2 (in_app_iff _ _ _) (or_introl H)))). destruct e as [M|].
  - cbn [filter is_other length matrices map]. rewrite list_sum_cons'. change (list_sum []) with 0%nat. assert (PM : proper_matrix t M) by (apply HM; apply in_app_iff; right; left; auto).
    destruct (proper_sendable _ _ PM) as (Hne & _ & n & H0 & Hn & HF). inversion HS as [l0 M0 ms E1 E2| | | | | |]; subst. rewrite (to_master_ok t M n Hne H0 Hn HF) in E2. injection E2 as <-.
    unfold rank in *. cbn [sending pipe reading]. rewrite E1 in IH'. unfold encoding. cbn [length]. rewrite map_length. lia.
  - assert (R := rank_step _ _ _ _ HS). cbn [filter is_other length matrices map]. change (list_sum []) with 0%nat. lia.
Qed.
Print Assumptions C39_steps_partial.

(** Whatever has happened so far, everything that has been sent arrives. *)
Theorem C39_arrives_partial : forall t es l, link_run t true es l -> (forall M, In M (matrices es) -> proper_matrix t M) ->
  exists es' l', link_run t true (es ++ es') l' /\ Forall (eq Other) es' /\ got l' = matrices es /\ sending l' = None.
Proof.
  intros t es l HR HM. remember (rank l) as k eqn:Ek. revert es l HR HM Ek. induction k as [k IH] using lt_wf_ind. intros es l HR HM Ek.
  assert (I := eager_defined t es l HR (proper_allowed t es HM)). destruct (invariant_progress t true l I) as [(H1 & _ & H2)|(l' & HS)].
  - exists [], l. rewrite app_nil_r, <- (sent_matrices _ _ _ _ HR). auto.
  - assert (E : matrices (es ++ [Other]) = matrices es) by (rewrite matrices_app, app_nil_r; auto).
    destruct (IH (rank l') ltac:(rewrite Ek; eapply rank_step; eauto) (es ++ [Other]) l' (link_cons _ _ _ _ _ _ HR HS) ltac:(rewrite E; auto) eq_refl) as (es' & l2 & K1 & K2 & K3 & K4).
    exists (Other :: es'), l2. rewrite <- app_assoc in K1. rewrite E in K3. split; auto.
Qed.
Print Assumptions C39_arrives_partial.

(** ** What goes wrong *)
(** The empty matrix cannot be sent: [matrix.back()] is undefined.  It occurs: a facet of a segment has no neighbours. *)
Theorem C39_empty_refuted : (forall t, m_to_master t [] = UB) /\
  m_fme_heuristic (arith SAFE) sorted_order [[1; 1]; [2; 1]; [3; 1]] = Ok [[-1; 1]] /\ m_rotation (arith SAFE) sorted_order 1 [[1; 1]; [2; 1]; [3; 1]] [-1; 1] [] Facet_tag = Ok (Some []).
Proof. split; [intros t; destruct t; reflexivity|]. split; vm_compute; reflexivity. Qed.
Print Assumptions C39_empty_refuted.
(** The variables [size] and [row_size] are sent without waiting, but live only until the end of the block: if MPI reads one of them after the block has been left (as it may), behaviour is undefined.
    For every proper matrix there is such a run. *)
Theorem C39_dangling_refuted : forall t M, proper_matrix t M -> exists es l, link_run t false es l /\ matrices es = [M] /\ reading l = Undefined.
Proof.
  intros t M HP. destruct (proper_sendable _ _ HP) as (Hne & _ & n & H0 & Hn & HF). assert (E := to_master_ok t M n Hne H0 Hn HF).
  set (l0 := Link (Some (encoding n M)) [] Idle [M] []). assert (R0 : link_run t false [Send M] l0) by (apply (link_cons t false [] _ link_start); [constructor|]; apply link_begin; auto).
  assert (P : forall ms pre es, link_run t false es (Link (Some ms) pre Idle [M] []) -> exists es', link_run t false es' (Link (Some []) (pre ++ map (slot_for false) ms) Idle [M] []) /\ matrices es' = matrices es).
  { induction ms as [|m ms IH]; intros pre es HR; [exists es; rewrite app_nil_r; auto|]. destruct (IH (pre ++ [slot_for false m]) (es ++ [Other])) as (es' & K1 & K2).
    - apply (link_cons t false es Other _ _ HR). apply (link_post t false (Link (Some (m :: ms)) pre Idle [M] []) m ms). reflexivity.
    - exists es'. cbn [map]. rewrite <- app_assoc in K1. split; auto. rewrite K2, matrices_app, app_nil_r. reflexivity. }
  destruct (P _ _ _ R0) as (es1 & R1 & E1). cbn [app] in R1. cbn [matrices] in E1.
  eexists _, _. split; [|split].
  - eapply link_cons. eapply link_cons. eapply link_cons. exact R1.
    apply link_leave; reflexivity.
    apply link_probe; [reflexivity|discriminate].
    eapply link_dangling; try discriminate; reflexivity.
  - rewrite !matrices_app, E1. reflexivity.
  - reflexivity.
Qed.
Print Assumptions C39_dangling_refuted.
(** With int64_t entries that do not fit into [int] are changed silently. *)
Theorem C39_int64_refuted : exists x, m_to_slave INT64 [4294967297; 5] = Ok x /\ m_from_master INT64 x = Ok [1; 5].
Proof. exists (ints_bytes [1; 5]). split; vm_compute; reflexivity. Qed.
Print Assumptions C39_int64_refuted.

(** ** Concrete cases *)
Example C39_example : proper_matrix SAFE [[1; -3]; [-2; 70000]] /\ exists x, m_to_slave SAFE [] = Ok x /\ m_from_master SAFE x = Ok [].
Proof.
  split; [|exists []; split; vm_compute; reflexivity]. split; [discriminate|]. split; [reflexivity|]. exists 2%nat. split; [lia|]. split; [reflexivity|].
  intros row [<-|[<-|[]]]; (split; [reflexivity|]); intros z Hz; cbn in Hz; (split; [|unfold int_value_range; intuition lia]); destruct Hz as [<-|[<-|[]]]; reflexivity.
Qed.
Example C39_two_matrices : exists es l, link_run INT32 true es l /\ matrices es = [[[1; 2]]; [[3; 4]; [5; 6]]] /\ got l = matrices es.
Proof.
  assert (P1 : proper_matrix INT32 [[1; 2]]).
  { split; [discriminate|]. split; [reflexivity|]. exists 2%nat. split; [lia|]. split; [reflexivity|]. intros row [<-|[]]. split; [reflexivity|]. intros z [<-|[<-|[]]]; (split; [reflexivity|unfold int_value_range; lia]). }
  assert (P2 : proper_matrix INT32 [[3; 4]; [5; 6]]).
  { split; [discriminate|]. split; [reflexivity|]. exists 2%nat. split; [lia|]. split; [reflexivity|]. intros row [<-|[<-|[]]]; (split; [reflexivity|]); intros z [<-|[<-|[]]]; (split; [reflexivity|unfold int_value_range; lia]). }
  assert (S1 : exists ms, m_to_master INT32 [[1; 2]] = Ok ms) by (destruct (sendable_ok _ _ (proper_sendable _ _ P1)) as (ms & K & _); eauto).
  assert (S2 : exists ms, m_to_master INT32 [[3; 4]; [5; 6]] = Ok ms) by (destruct (sendable_ok _ _ (proper_sendable _ _ P2)) as (ms & K & _); eauto).
  destruct S1 as (m1 & S1), S2 as (m2 & S2).
  assert (R1 := link_cons INT32 true [] _ _ _ (link_nil _ _) (link_begin INT32 true link_start _ _ eq_refl S1)).
  destruct (C39_arrives_partial _ _ _ R1) as (es1 & l1 & R2 & O1 & G1 & N1); [intros M [<-|[]]; auto|].
  assert (R3 := link_cons INT32 true _ _ _ _ R2 (link_begin INT32 true l1 _ _ N1 S2)).
  assert (M1 : matrices es1 = []) by (clear - O1; induction O1 as [|e es He _ IH]; auto; subst e; auto).
  assert (E : matrices ((([] ++ [Send [[1; 2]]]) ++ es1) ++ [Send [[3; 4]; [5; 6]]]) = [[[1; 2]]; [[3; 4]; [5; 6]]]) by (rewrite !matrices_app, M1; reflexivity).
  destruct (C39_arrives_partial _ _ _ R3) as (es2 & l2 & R4 & O2 & G2 & _); [rewrite E; intros M [<-|[<-|[]]]; auto|].
  assert (M2 : matrices es2 = []) by (clear - O2; induction O2 as [|e es He _ IH]; auto; subst e; auto).
  exists (((([] ++ [Send [[1; 2]]]) ++ es1) ++ [Send [[3; 4]; [5; 6]]]) ++ es2), l2. split; [exact R4|]. rewrite matrices_app, M2, app_nil_r, G2, E. auto.
Qed.
