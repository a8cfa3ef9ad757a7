(** * MpiProofs: a distributed run is a run of the job list. *)
From Coq Require Import List ZArith Arith Bool Lia Permutation.
From Verif Require Import Spec ListModel ListProofs ListProtocol ListTheorems MpiModel.
Import ListNotations.
Open Scope nat_scope.

(** ** Threads are interchangeable *)
Lemma perm_split {A} (l1 l2 T : list A) p : Permutation (l1 ++ p :: l2) T -> exists a b, T = a ++ p :: b /\ Permutation (l1 ++ l2) (a ++ b).
Proof.
  intros H. assert (In p T) by (apply (Permutation_in _ H); apply in_app_iff; right; left; auto). apply in_split in H0 as (a & b & ->). exists a, b. split; auto. apply Permutation_app_inv in H. auto.
Qed.
Lemma perm_put {A} (l1 l2 a b : list A) q : Permutation (l1 ++ l2) (a ++ b) -> Permutation (l1 ++ q :: l2) (a ++ q :: b).
Proof. intros H. rewrite <- !Permutation_middle. constructor. auto. Qed.
Lemma perm_notified b T T' T1 : notified b T T' -> Permutation T T1 -> exists T1', notified b T1 T1' /\ Permutation T' T1'.
Proof.
  intros H HP. destruct b; cbn [notified] in *; [|subst; exists T1; auto]. destruct H as [(H & ->)|(l1 & l2 & -> & ->)].
  - exists T1. split; auto. left. split; auto. intros K. apply H. apply (Permutation_in _ (Permutation_sym HP) K).
  - apply perm_split in HP as (a & c & -> & HP). exists (a ++ Woken :: c). split; [right; eauto|apply perm_put; auto].
Qed.
Lemma perm_step nb lab s s' : step nb lab s s' -> forall T1, Permutation (threads s) T1 ->
  exists T1', step nb lab (State (sh s) (main s) T1 (known s)) (State (sh s') (main s') T1' (known s')) /\ Permutation (threads s') T1'.
Proof.
  intros H T1 HP. steps H; prj; try (rewrite Ht in HP; apply perm_split in HP as (a & b & -> & HP)).
  - destruct (perm_notified _ _ _ _ Hnot HP) as (T1' & K1 & K2). exists T1'. split; auto. apply (step_main_put nb (State (sh s) (main s) T1 (known s)) x l); auto.
  - exists T1. split; auto. apply (step_main_done nb (State (sh s) (main s) T1 (known s))). auto.
  - destruct (perm_notified _ _ _ _ Hnot HP) as (T1' & K1 & K2). exists T1'. split; auto. apply (step_known nb (State (sh s) (main s) T1 (known s)) x l); auto.
  - eexists. split; [apply (step_start nb (State (sh s) (main s) _ (known s)) a b); auto|apply perm_put; auto].
  - eexists. split; [apply (step_test nb (State (sh s) (main s) _ (known s)) a b); auto|apply perm_put; auto].
  - eexists. split; [apply (step_abort1 nb (State (sh s) (main s) _ (known s)) a b); auto|apply perm_put; auto].
  - eexists. split; [apply (step_abort2 nb (State (sh s) (main s) _ (known s)) a b); auto|apply perm_put; rewrite <- !map_app; apply Permutation_map; auto].
  - eexists. split; [apply (step_wait nb (State (sh s) (main s) _ (known s)) a b p); auto|apply perm_put; auto].
  - eexists. split; [apply (step_take nb (State (sh s) (main s) _ (known s)) a b p r q); auto|apply perm_put; auto].
  - eexists. split; [apply (step_work nb (State (sh s) (main s) _ (known s)) a b r); auto|apply perm_put; auto].
  - destruct (perm_notified _ _ _ (a ++ Put l :: b) Hnot (perm_put _ _ _ _ _ HP)) as (T1' & K1 & K2). exists T1'. split; auto. apply (step_put nb (State (sh s) (main s) _ (known s)) a b x l); auto.
  - eexists. split; [apply (step_done nb (State (sh s) (main s) _ (known s)) a b); auto|apply perm_put; auto].
  - eexists. split; [apply (step_spurious nb (State (sh s) (main s) _ (known s)) a b); auto|apply perm_put; auto].
Qed.
(** Further threads that do not wait do not disturb. *)
Definition busy_or_ended (p : phase) : Prop := match p with Work _ | Put _ | Stopped => True | _ => False end.
Lemma frame_notified b T T' X : notified b T T' -> Forall busy_or_ended X -> notified b (T ++ X) (T' ++ X).
Proof.
  intros H HX. destruct b; cbn [notified] in *; [|congruence]. destruct H as [(H & ->)|(l1 & l2 & -> & ->)].
  - left. split; auto. intros K. apply in_app_iff in K as [K|K]; auto. rewrite Forall_forall in HX. apply (HX _ K).
  - right. exists l1, (l2 ++ X). rewrite <- !app_assoc. auto.
Qed.
Lemma frame_wake X : Forall busy_or_ended X -> map wake X = X.
Proof. induction 1 as [|p X Hp _ IH]; cbn [map]; auto. rewrite IH. destruct p; cbn in *; try tauto; auto. Qed.
Lemma frame_step nb lab s s' X : step nb lab s s' -> Forall busy_or_ended X -> step nb lab (State (sh s) (main s) (threads s ++ X) (known s)) (State (sh s') (main s') (threads s' ++ X) (known s')).
Proof.
  intros H HX. steps H; prj; rewrite ?Ht, <- ?app_assoc; cbn [app].
  - apply (step_main_put nb (State (sh s) (main s) _ (known s)) x l); auto. apply frame_notified; auto.
  - apply (step_main_done nb (State (sh s) (main s) _ (known s))). auto.
  - apply (step_known nb (State (sh s) (main s) _ (known s)) x l); auto. apply frame_notified; auto.
  - apply (step_start nb (State (sh s) (main s) _ (known s)) l1 (l2 ++ X)); auto.
  - apply (step_test nb (State (sh s) (main s) _ (known s)) l1 (l2 ++ X)); auto.
  - apply (step_abort1 nb (State (sh s) (main s) _ (known s)) l1 (l2 ++ X)); auto.
  - rewrite <- (frame_wake X HX) at 2. rewrite <- map_app. apply (step_abort2 nb (State (sh s) (main s) _ (known s)) l1 (l2 ++ X)); auto.
  - apply (step_wait nb (State (sh s) (main s) _ (known s)) l1 (l2 ++ X) p); auto.
  - apply (step_take nb (State (sh s) (main s) _ (known s)) l1 (l2 ++ X) p r q); auto.
  - apply (step_work nb (State (sh s) (main s) _ (known s)) l1 (l2 ++ X) r); auto.
  - apply (step_put nb (State (sh s) (main s) _ (known s)) l1 (l2 ++ X) x l); auto. assert (K := frame_notified _ _ _ _ Hnot HX). rewrite <- app_assoc in K. exact K.
  - apply (step_done nb (State (sh s) (main s) _ (known s)) l1 (l2 ++ X)); auto.
  - apply (step_spurious nb (State (sh s) (main s) _ (known s)) l1 (l2 ++ X)); auto.
Qed.

(** ** The simulation *)
(** The threads of the job list: a row on its way or being processed is a working thread, a matrix on its way a thread that puts it. *)
Definition slave_phase (s : sphase) : list phase := match s with SWork r => [Work r] | SSend l => [Put l] | _ => [] end.
Definition row_phase (r : vec) : list phase := match r with [] => [] | _ => [Work r] end.
Definition node_phases (n : node) : list phase := flat_map row_phase (n_rows n) ++ flat_map slave_phase (n_slaves n) ++ map Put (n_replies n) ++ repeat Stopped (n_done n).
Definition phases (d : dstate) : list phase := map snd (d_threads d) ++ flat_map node_phases (d_nodes d).
Record same (d : dstate) (s : state) : Prop := {
  same_sh : sh s = d_sh d; same_main : main s = d_main d; same_known : known s = d_known d; same_threads : Permutation (phases d) (threads s) }.
Lemma node_busy n : Forall busy_or_ended (node_phases n).
Proof.
  unfold node_phases. rewrite !Forall_app. split; [|split; [|split]].
  - apply Forall_forall. intros p Hp. apply in_flat_map in Hp as (r & _ & Hp). destruct r; cbn in Hp; [tauto|]; destruct Hp as [<-|[]]; exact I.
  - apply Forall_forall. intros p Hp. apply in_flat_map in Hp as (s & _ & Hp). destruct s; cbn in Hp; try tauto; destruct Hp as [<-|[]]; exact I.
  - apply Forall_forall. intros p Hp. apply in_map_iff in Hp as (l & <- & _). exact I.
  - apply Forall_forall. intros p Hp. apply repeat_spec in Hp. subst. exact I.
Qed.
Lemma nodes_busy ns : Forall busy_or_ended (flat_map node_phases ns).
Proof. induction ns as [|n ns IH]; cbn [flat_map]; [constructor|]. apply Forall_app. split; auto using node_busy. Qed.
Lemma combine_snd (ths : list (option nat * phase)) (ps : list phase) : length ps = length ths -> map snd (combine (map fst ths) ps) = ps.
Proof. revert ps. induction ths as [|t ths IH]; intros [|p ps] H; cbn in *; try lia; auto. f_equal. apply IH. lia. Qed.
Lemma combine_fst (ths : list (option nat * phase)) (ps : list phase) : length ps = length ths -> map fst (combine (map fst ths) ps) = map fst ths.
Proof. revert ps. induction ths as [|t ths IH]; intros [|p ps] H; cbn in *; try lia; auto. f_equal. apply IH. lia. Qed.
Lemma Forall2_length {A B} (R : A -> B -> Prop) l l2 : Forall2 R l l2 -> length l = length l2.
Proof. induction 1; cbn; auto. Qed.
Lemma keeps_length ths ps : keeps_jobs ths ps -> length ps = length ths.
Proof. intros H. symmetry. eapply Forall2_length; eauto. Qed.
Ltac perms := repeat (rewrite ?map_app, ?flat_map_app, <- ?app_assoc; cbn [map flat_map app snd n_rows n_slaves n_replies n_done d_threads d_nodes]).
(** Weights: how often the messages can still move. *)
Definition tw (t : option nat * phase) : nat := match t with (Some _, Work _) => 4 | (Some _, Stopped) => 2 | _ => 0 end.
Definition rw (r : vec) : nat := match r with [] => 1 | _ => 3 end.
Definition sw (s : sphase) : nat := match s with SWork _ | SSend _ => 2 | _ => 0 end.
Definition nw (n : node) : nat := list_sum (map rw (n_rows n)) + list_sum (map sw (n_slaves n)) + length (n_replies n).
Definition dweight (d : dstate) : nat := list_sum (map tw (d_threads d)) + list_sum (map nw (d_nodes d)).
Lemma sum_cons x l : list_sum (x :: l) = x + list_sum l. Proof. reflexivity. Qed.
Lemma sum_nil : list_sum [] = 0. Proof. reflexivity. Qed.

Lemma threads_split (ths : list (option nat * phase)) l1 p l2 : map snd ths = l1 ++ p :: l2 -> exists t1 o t2, ths = t1 ++ (o, p) :: t2 /\ map snd t1 = l1 /\ map snd t2 = l2.
Proof.
  revert l1. induction ths as [|[o q] ths IH]; intros [|x l1] H; cbn [map app snd] in H; try discriminate.
  - injection H as -> <-. exists [], o, ths. auto.
  - injection H as -> H. destruct (IH _ H) as (t1 & o' & t2 & -> & <- & <-). exists ((o, x) :: t1), o', t2. auto.
Qed.
Lemma combine_split t1 (o : option nat) (p q : phase) t2 ps1 ps2 : length ps1 = length t1 -> combine (map fst (t1 ++ (o, p) :: t2)) (ps1 ++ q :: ps2) = combine (map fst t1) ps1 ++ (o, q) :: combine (map fst t2) ps2.
Proof. revert ps1. induction t1 as [|t t1 IH]; intros [|x ps1] H; cbn in *; try lia; auto. f_equal. apply IH. lia. Qed.
Lemma combine_same (ths : list (option nat * phase)) : combine (map fst ths) (map snd ths) = ths.
Proof. induction ths as [|[o p] ths IH]; cbn; congruence. Qed.
Definition calm (p q : phase) : Prop := q = p \/ (p = Waiting /\ q = Woken).
Lemma calm_weight (ths : list (option nat * phase)) ps : Forall2 (fun t q => calm (snd t) q) ths ps -> list_sum (map tw (combine (map fst ths) ps)) = list_sum (map tw ths).
Proof. induction 1 as [|[o p] q ths ps Hq _ IH]; cbn [map fst combine]; auto. rewrite !sum_cons, IH. f_equal. destruct Hq as [->|[E ->]]; cbn [snd] in *; [auto|subst]. destruct o; reflexivity. Qed.
Lemma calm_notified b T T' : notified b T T' -> Forall2 calm T T'.
Proof.
  assert (R : forall l, Forall2 calm l l) by (induction l; constructor; auto; left; auto). intros H. destruct b; cbn [notified] in H; [|subst; auto]. destruct H as [(_ & ->)|(l1 & l2 & -> & ->)]; auto.
  apply Forall2_app; auto. constructor; auto. right. auto.
Qed.
Lemma calm_map (ths : list (option nat * phase)) ps : Forall2 calm (map snd ths) ps -> Forall2 (fun t q => calm (snd t) q) ths ps.
Proof. revert ps. induction ths as [|t ths IH]; intros ps H; inversion H; subst; constructor; auto. Qed.
Lemma tw_bound t : tw t <= 4. Proof. destruct t as [[|] []]; cbn; lia. Qed.
Lemma list_weight nb lab s s' : step nb lab s s' -> forall ths : list (option nat * phase), threads s = map snd ths -> list_sum (map tw (combine (map fst ths) (threads s'))) <= list_sum (map tw ths) + 4.
Proof.
  intros H ths ET. assert (One : forall l1 p q l2, threads s = l1 ++ p :: l2 -> list_sum (map tw (combine (map fst ths) (l1 ++ q :: l2))) <= list_sum (map tw ths) + 4).
  { intros l1 p q l2 E. rewrite ET in E. apply threads_split in E as (t1 & o & t2 & -> & <- & <-). rewrite combine_split by apply map_length. rewrite !combine_same, !map_app, !list_sum_app. cbn [map]. rewrite !sum_cons. assert (B := tw_bound (o, q)). lia. }
  assert (Calm : forall ps, Forall2 calm (threads s) ps -> list_sum (map tw (combine (map fst ths) ps)) <= list_sum (map tw ths) + 4) by (intros ps K; rewrite ET in K; rewrite calm_weight by (apply calm_map; auto); lia).
  assert (R : forall l, Forall2 calm l l) by (induction l; constructor; auto; left; auto).
  steps H; prj; try (apply Calm; eauto using calm_notified; fail); try (eapply One; eauto; fail).
  - rewrite ET in Ht. apply threads_split in Ht as (t1 & o & t2 & -> & <- & <-). rewrite combine_split by (rewrite !map_length; auto). rewrite !map_app, !list_sum_app. cbn [map]. rewrite !sum_cons.
    assert (W : forall t : list (option nat * phase), list_sum (map tw (combine (map fst t) (map wake (map snd t)))) = list_sum (map tw t)).
    { intros t. apply calm_weight. clear. induction t as [|[o p] t IH]; cbn [map snd]; constructor; auto. cbn [snd]. destruct p; cbn; try (left; reflexivity). right. auto. }
    rewrite !W. assert (B := tw_bound (o, Lock)). lia.
  - rewrite ET in Ht. apply threads_split in Ht as (t1 & o & t2 & -> & <- & <-). assert (CN := calm_notified _ _ _ Hnot).
    apply Forall2_app_inv_l in CN as (p1 & p2 & C1 & C2 & ->). inversion C2 as [|x0 q x1 p3 Cq C3]; subst. assert (q = Put l) by (destruct Cq as [->|[K _]]; [auto|discriminate]). subst q.
    rewrite combine_split by (rewrite <- (map_length snd t1); symmetry; eapply Forall2_length; eauto). rewrite !map_app, !list_sum_app. cbn [map]. rewrite !sum_cons, !calm_weight by (apply calm_map; auto). assert (B := tw_bound (o, Put l)). lia.
Qed.
Definition phase_dec (p q : phase) : {p = q} + {p <> q} := ltac:(decide equality; apply list_eq_dec; try apply row_eq_dec; apply Z.eq_dec).
Definition one (p q : phase) : nat := if phase_dec p q then 1 else 0.
Lemma count_cons p l q : count_occ phase_dec (p :: l) q = one p q + count_occ phase_dec l q.
Proof. unfold one. cbn [count_occ]. destruct (phase_dec p q); auto. Qed.
Lemma count_nil q : count_occ phase_dec [] q = 0.
Proof. reflexivity. Qed.
Ltac perm_solve :=
  apply (Permutation_count_occ phase_dec); intros ?q; unfold node_phases; cbn [n_rows n_slaves n_replies n_done]; repeat (rewrite ?map_app, ?flat_map_app, ?repeat_app, ?count_occ_app, ?count_cons; cbn [map flat_map app snd repeat slave_phase row_phase n_rows n_slaves n_replies n_done]); rewrite ?count_nil; lia.
(** One step of a distributed run is a step of the job list, or moves a message. *)
Lemma simulation nb lab d d' s : dstep nb lab d d' -> same d s ->
  (exists s', step nb lab s s' /\ same d' s' /\ dweight d' <= dweight d + 4) \/ (lab = Normal /\ same d' s /\ dweight d' < dweight d).
Proof.
  intros H [S1 S2 S3 S4]. destruct H as [lab h m ths kn ns h' m' ps kn' HS HK|h m kn t1 t2 r a n c Hr|h m kn t1 t2 a n c|h m ths kn a c r rs s1 s2 replies aw dn|h m ths kn a c rs s1 s2 r replies aw dn|h m ths kn a c rs s1 s2 l replies aw dn Hl|h m ths kn a c rs ss l replies aw dn];
    unfold phases in *; cbn [d_sh d_main d_known d_threads d_nodes] in *.
  - left. assert (F := frame_step nb lab _ _ _ HS (nodes_busy ns)). prj. destruct (perm_step nb lab _ _ F (threads s) S4) as (T & K1 & K2). prj. exists (State h' m' T kn'). split; [|split].
    + destruct s; prj. subst. exact K1.
    + constructor; prj; auto. unfold phases. cbn [d_threads d_nodes]. rewrite combine_snd by (apply keeps_length; auto). auto.
    + unfold dweight. cbn [d_threads d_nodes]. assert (B := list_weight nb lab _ _ HS ths eq_refl). prj. lia.
  - right. split; auto. split.
    + constructor; auto. unfold phases. cbn [d_threads d_nodes]. rewrite <- S4. destruct r as [|z r]; [congruence|]. perm_solve.
    + unfold dweight. cbn [d_threads d_nodes]. rewrite !map_app, !list_sum_app. cbn [map]. rewrite !sum_cons. unfold nw. cbn [n_rows n_slaves n_replies]. rewrite !map_app, !list_sum_app. cbn [map tw]. rewrite sum_cons, sum_nil. destruct r; [congruence|]. cbn [rw]. lia.
  - right. split; auto. split.
    + constructor; auto. unfold phases. cbn [d_threads d_nodes]. rewrite <- S4. perm_solve.
    + unfold dweight. cbn [d_threads d_nodes]. rewrite !map_app, !list_sum_app. cbn [map]. rewrite !sum_cons. unfold nw. cbn [n_rows n_slaves n_replies]. rewrite !map_app, !list_sum_app. cbn [map tw rw]. rewrite sum_cons, sum_nil. lia.
  - right. split; auto. split.
    + constructor; auto. unfold phases. cbn [d_threads d_nodes]. rewrite <- S4. destruct r as [|z r]; perm_solve.
    + unfold dweight. cbn [d_threads d_nodes]. rewrite !map_app, !list_sum_app. cbn [map]. rewrite !sum_cons. unfold nw. cbn [n_rows n_slaves n_replies]. rewrite !map_app, !list_sum_app. cbn [map]. rewrite !sum_cons. destruct r; cbn [rw sw]; lia.
  - left. assert (P : Permutation (map snd ths ++ flat_map node_phases (a ++ Node rs (s1 ++ SWork r :: s2) replies aw dn :: c)) ([] ++ Work r :: map snd ths ++ flat_map node_phases (a ++ Node rs (s1 ++ SIdle :: s2) replies aw dn :: c))) by perm_solve.
    rewrite P in S4. apply perm_split in S4 as (l1 & l2 & E & S4). exists (State (sh s) (main s) (l1 ++ Put (nb r) :: l2) (known s)). split; [|split].
    + apply step_work. auto.
    + constructor; prj; auto. unfold phases. cbn [d_threads d_nodes]. rewrite <- (perm_put [] _ l1 l2 (Put (nb r)) S4). cbn [app]. perm_solve.
    + unfold dweight. cbn [d_threads d_nodes]. rewrite !map_app, !list_sum_app. cbn [map]. rewrite !sum_cons. unfold nw. cbn [n_rows n_slaves n_replies]. rewrite !map_app, !list_sum_app. cbn [map]. rewrite !sum_cons. cbn [sw]. lia.
  - right. split; auto. split.
    + constructor; auto. unfold phases. cbn [d_threads d_nodes]. rewrite <- S4. perm_solve.
    + unfold dweight. cbn [d_threads d_nodes]. rewrite !map_app, !list_sum_app. cbn [map]. rewrite !sum_cons. unfold nw. cbn [n_rows n_slaves n_replies]. rewrite !map_app, !list_sum_app, app_length. cbn [map length]. rewrite !sum_cons. cbn [sw]. lia.
  - right. split; auto. split.
    + constructor; auto. unfold phases. cbn [d_threads d_nodes]. rewrite <- S4. perm_solve.
    + unfold dweight. cbn [d_threads d_nodes]. rewrite !map_app, !list_sum_app. cbn [map]. rewrite !sum_cons. unfold nw. cbn [n_rows n_slaves n_replies length tw]. rewrite sum_nil. lia.
Qed.

(** ** Counting *)
Definition requests (k : nat) (t : option nat * phase) : bool := match fst t with Some j => j =? k | None => false end.
Definition count (k : nat) (ths : list (option nat * phase)) : nat := length (filter (requests k) ths).
Definition reals (rs : list vec) : nat := length (filter real rs).
Definition working (ss : list sphase) : nat := length (filter (fun s => match s with SWork _ | SSend _ => true | _ => false end) ss).
Definition stopped (ss : list sphase) : nat := length (filter (fun s => match s with SStopped => true | _ => false end) ss).
Record node_ok (R S : nat) (ths : list (option nat * phase)) (k : nat) (n : node) : Prop := {
  ok_requests : count k ths + n_awaiting n + n_done n = R;
  ok_slaves : length (n_slaves n) = S;
  ok_awaiting : n_awaiting n = reals (n_rows n) + working (n_slaves n) + length (n_replies n);
  ok_stopped : stopped (n_slaves n) + length (n_rows n) = n_done n + reals (n_rows n);
  ok_replies : forall l, In (SSend l) (n_slaves n) -> l <> [] }.
Record dinv (R S : nat) (d : dstate) : Prop := {
  inv_nodes : forall k n, nth_error (d_nodes d) k = Some n -> node_ok R S (d_threads d) k n;
  inv_owners : forall k p, In (Some k, p) (d_threads d) -> k < length (d_nodes d) }.
Lemma count_app k a b : count k (a ++ b) = count k a + count k b.
Proof. unfold count. rewrite filter_app, app_length. auto. Qed.
Lemma count_one k o p ths : count k ((o, p) :: ths) = (if requests k (o, p) then 1 else 0) + count k ths.
Proof. unfold count. cbn [filter]. destruct (requests k (o, p)); auto. Qed.
Lemma count_owners k ths ths' : map fst ths' = map fst ths -> count k ths' = count k ths.
Proof.
  revert ths'. induction ths as [|[o p] ths IH]; intros [|[o' p'] ths'] H; cbn [map fst] in H; try discriminate; auto. injection H as -> H. rewrite !count_one, (IH _ H). reflexivity.
Qed.
Lemma reals_app a b : reals (a ++ b) = reals a + reals b.
Proof. unfold reals. rewrite filter_app, app_length. auto. Qed.
Lemma working_app a b : working (a ++ b) = working a + working b.
Proof. unfold working. rewrite filter_app, app_length. auto. Qed.
Lemma stopped_app a b : stopped (a ++ b) = stopped a + stopped b.
Proof. unfold stopped. rewrite filter_app, app_length. auto. Qed.
Lemma working_cons s l : working (s :: l) = (match s with SWork _ | SSend _ => 1 | _ => 0 end) + working l.
Proof. unfold working. cbn [filter]. destruct s; auto. Qed.
Lemma stopped_cons s l : stopped (s :: l) = (match s with SStopped => 1 | _ => 0 end) + stopped l.
Proof. unfold stopped. cbn [filter]. destruct s; auto. Qed.
Lemma reals_cons r l : reals (r :: l) = (match r with [] => 0 | _ => 1 end) + reals l.
Proof. unfold reals. cbn [filter]. destruct r; auto. Qed.
Lemma nth_replaced {A} (a : list A) x y c k z : nth_error (a ++ y :: c) k = Some z -> (k = length a /\ z = y) \/ (k <> length a /\ nth_error (a ++ x :: c) k = Some z).
Proof.
  intros H. destruct (Nat.lt_trichotomy k (length a)) as [L|[->|L]].
  - right. split; [lia|]. rewrite nth_error_app1 in * by auto. auto.
  - left. rewrite nth_error_app2, Nat.sub_diag in H by auto. cbn in H. split; auto. congruence.
  - right. split; [lia|]. rewrite nth_error_app2 in * by lia. destruct (k - length a) eqn:E; [lia|]. auto.
Qed.
Lemma node_ok_threads R S ths ths' k n : count k ths' = count k ths -> node_ok R S ths k n -> node_ok R S ths' k n.
Proof. intros E [K1 K2 K3 K4 K5]. constructor; auto. rewrite E. auto. Qed.
Lemma requests_self k p : requests k (Some k, p) = true.
Proof. unfold requests. cbn. apply Nat.eqb_refl. Qed.
Lemma requests_other j k p : j <> k -> requests j (Some k, p) = false.
Proof. unfold requests. cbn. intros H. apply Nat.eqb_neq. auto. Qed.
Lemma dinv_step nb R S lab d d' : dstep nb lab d d' -> (forall r, In (Work r) (phases d) -> nb r <> []) -> dinv R S d -> dinv R S d'.
Proof.
  intros H HB [I1 I2]. destruct H as [lab h m ths kn ns h' m' ps kn' HS HK|h m kn t1 t2 r a n c Hr|h m kn t1 t2 a n c|h m ths kn a c r rs s1 s2 replies aw dn|h m ths kn a c rs s1 s2 r replies aw dn|h m ths kn a c rs s1 s2 l replies aw dn Hl|h m ths kn a c rs ss l replies aw dn];
    cbn [d_threads d_nodes] in *.
  - assert (L := keeps_length _ _ HK). assert (E := combine_fst ths ps L). constructor; cbn [d_threads d_nodes].
    + intros k n Hn. apply (node_ok_threads R S ths); auto. apply count_owners. auto.
    + intros k p Hp. assert (K : In (Some k) (map fst ths)) by (rewrite <- E; apply in_map_iff; exists (Some k, p); auto). apply in_map_iff in K as ([o q] & E2 & K). cbn in E2. subst o. apply (I2 k q K).
  - constructor; cbn [d_threads d_nodes].
    + intros k n' Hn. apply (nth_replaced a n) in Hn as [(-> & ->)|(Hk & Hn)].
      * destruct (I1 (length a) n) as [K1 K2 K3 K4 K5]; [rewrite nth_error_app2, Nat.sub_diag by auto; auto|]. rewrite count_app, count_one, requests_self in K1. constructor; cbn [n_rows n_slaves n_replies n_awaiting n_done]; auto.
        -- rewrite count_app. lia.
        -- rewrite reals_app, reals_cons. destruct r; [congruence|]. change (reals []) with 0. lia.
        -- rewrite reals_app, reals_cons, app_length. destruct r; [congruence|]. change (reals []) with 0. cbn [length]. lia.
      * specialize (I1 k n' Hn). eapply node_ok_threads; [|exact I1]. rewrite !count_app, count_one, requests_other by auto. auto.
    + intros k p Hp. rewrite app_length in *. cbn [length] in *. apply (I2 k p). rewrite in_app_iff in *. cbn [In]. tauto.
  - constructor; cbn [d_threads d_nodes].
    + intros k n' Hn. apply (nth_replaced a n) in Hn as [(-> & ->)|(Hk & Hn)].
      * destruct (I1 (length a) n) as [K1 K2 K3 K4 K5]; [rewrite nth_error_app2, Nat.sub_diag by auto; auto|]. rewrite count_app, count_one, requests_self in K1. constructor; cbn [n_rows n_slaves n_replies n_awaiting n_done]; auto.
        -- rewrite count_app. lia.
        -- rewrite reals_app, reals_cons. change (reals []) with 0. lia.
        -- rewrite reals_app, reals_cons, app_length. change (reals []) with 0. cbn [length]. lia.
      * specialize (I1 k n' Hn). eapply node_ok_threads; [|exact I1]. rewrite !count_app, count_one, requests_other by auto. auto.
    + intros k p Hp. rewrite app_length in *. cbn [length] in *. apply (I2 k p). rewrite in_app_iff in *. cbn [In]. tauto.
  - constructor; cbn [d_threads d_nodes].
    + intros k n' Hn. apply (nth_replaced a (Node (r :: rs) (s1 ++ SIdle :: s2) replies aw dn)) in Hn as [(-> & ->)|(Hk & Hn)]; [|auto].
      destruct (I1 (length a) (Node (r :: rs) (s1 ++ SIdle :: s2) replies aw dn)) as [K1 K2 K3 K4 K5]; [rewrite nth_error_app2, Nat.sub_diag by auto; auto|]. cbn [n_rows n_slaves n_replies n_awaiting n_done] in *.
      rewrite app_length, working_app, stopped_app, working_cons, stopped_cons, reals_cons in *. cbn [length] in *. constructor; cbn [n_rows n_slaves n_replies n_awaiting n_done]; auto; rewrite ?app_length, ?working_app, ?stopped_app, ?working_cons, ?stopped_cons; cbn [length]; try lia; try (destruct r; lia).
      intros l Hin. apply K5. rewrite in_app_iff in *. cbn [In] in *. destruct Hin as [Hin|[Hin|Hin]]; auto. destruct r; discriminate.
    + intros k p Hp. rewrite app_length in *. cbn [length] in *. apply (I2 k p Hp).
  - constructor; cbn [d_threads d_nodes].
    + intros k n' Hn. apply (nth_replaced a (Node rs (s1 ++ SWork r :: s2) replies aw dn)) in Hn as [(-> & ->)|(Hk & Hn)]; [|auto].
      destruct (I1 (length a) (Node rs (s1 ++ SWork r :: s2) replies aw dn)) as [K1 K2 K3 K4 K5]; [rewrite nth_error_app2, Nat.sub_diag by auto; auto|]. cbn [n_rows n_slaves n_replies n_awaiting n_done] in *.
      rewrite app_length, working_app, stopped_app, working_cons, stopped_cons in *. cbn [length] in *. constructor; cbn [n_rows n_slaves n_replies n_awaiting n_done]; auto; rewrite ?app_length, ?working_app, ?stopped_app, ?working_cons, ?stopped_cons; cbn [length]; try lia.
      intros l Hin. rewrite in_app_iff in *. cbn [In] in *. destruct Hin as [Hin|[Hin|Hin]]; [apply K5; rewrite in_app_iff; auto| |apply K5; rewrite in_app_iff; cbn [In]; auto]. injection Hin as <-. apply HB.
      unfold phases. cbn [d_threads d_nodes]. rewrite flat_map_app, !in_app_iff. right. right. cbn [flat_map]. rewrite in_app_iff. left. unfold node_phases. cbn [n_slaves n_rows]. rewrite !in_app_iff. right. left. rewrite flat_map_app, in_app_iff. right. cbn [flat_map]. rewrite in_app_iff. left. left. auto.
    + intros k p Hp. rewrite app_length in *. cbn [length] in *. apply (I2 k p Hp).
  - constructor; cbn [d_threads d_nodes].
    + intros k n' Hn. apply (nth_replaced a (Node rs (s1 ++ SSend l :: s2) replies aw dn)) in Hn as [(-> & ->)|(Hk & Hn)]; [|auto].
      destruct (I1 (length a) (Node rs (s1 ++ SSend l :: s2) replies aw dn)) as [K1 K2 K3 K4 K5]; [rewrite nth_error_app2, Nat.sub_diag by auto; auto|]. cbn [n_rows n_slaves n_replies n_awaiting n_done] in *.
      rewrite app_length, working_app, stopped_app, working_cons, stopped_cons in *. cbn [length] in *. constructor; cbn [n_rows n_slaves n_replies n_awaiting n_done]; auto; rewrite ?app_length, ?working_app, ?stopped_app, ?working_cons, ?stopped_cons; cbn [length]; try lia.
      intros l0 Hin. apply K5. rewrite in_app_iff in *. cbn [In] in *. destruct Hin as [Hin|[Hin|Hin]]; auto. discriminate.
    + intros k p Hp. rewrite app_length in *. cbn [length] in *. apply (I2 k p Hp).
  - constructor; cbn [d_threads d_nodes].
    + intros k n' Hn. apply (nth_replaced a (Node rs ss (l :: replies) (Datatypes.S aw) dn)) in Hn as [(-> & ->)|(Hk & Hn)].
      * destruct (I1 (length a) (Node rs ss (l :: replies) (Datatypes.S aw) dn)) as [K1 K2 K3 K4 K5]; [rewrite nth_error_app2, Nat.sub_diag by auto; auto|]. cbn [n_rows n_slaves n_replies n_awaiting n_done length] in *.
        constructor; cbn [n_rows n_slaves n_replies n_awaiting n_done]; auto; try lia. rewrite count_app, count_one, requests_self. change (count (length a) []) with 0. lia.
      * specialize (I1 k n' Hn). eapply node_ok_threads; [|exact I1]. rewrite !count_app, count_one, requests_other by auto. change (count k []) with 0. lia.
    + intros k p Hp. rewrite app_length in *. cbn [length] in *. apply in_app_iff in Hp as [Hp|[Hp|[]]]; [apply (I2 k p Hp)|]. injection Hp as <- _. lia.
Qed.

(** ** Progress *)
Lemma keeps_calm (ths : list (option nat * phase)) ps : Forall2 calm (map snd ths) ps -> keeps_jobs ths ps.
Proof. revert ps. induction ths as [|[o p] ths IH]; intros ps H; inversion H as [|x q xs qs Hq Hqs]; subst; constructor; [|apply IH; auto]. cbn [snd]. intros _ r ->. destruct Hq as [->|[K _]]; [auto|discriminate]. Qed.
Lemma calm_refl l : Forall2 calm l l.
Proof. induction l; constructor; auto. left. auto. Qed.
Lemma keeps_one t1 o p t2 ps1 q ps2 : Forall2 calm (map snd t1) ps1 -> Forall2 calm (map snd t2) ps2 -> (forall r, p <> Work r) -> keeps_jobs (t1 ++ (o, p) :: t2) (ps1 ++ q :: ps2).
Proof. intros H1 H2 Hp. apply Forall2_app; [apply keeps_calm; auto|]. constructor; [|apply keeps_calm; auto]. cbn [snd]. intros _ r E. destruct (Hp r E). Qed.
Lemma step_keeps nb lab s s' : step nb lab s s' -> forall ths : list (option nat * phase), threads s = map snd ths -> keeps_jobs ths (threads s') \/ exists t1 k r t2, ths = t1 ++ (Some k, Work r) :: t2.
Proof.
  intros H ths ET.
  assert (One : forall l1 p q l2, threads s = l1 ++ p :: l2 -> (forall r, p <> Work r) -> keeps_jobs ths (l1 ++ q :: l2)).
  { intros l1 p q l2 E Hp. rewrite ET in E. apply threads_split in E as (t1 & o & t2 & -> & <- & <-). apply keeps_one; auto using calm_refl. }
  steps H; prj; try (left; apply keeps_calm; rewrite <- ET; eauto using calm_notified, calm_refl; fail); try (left; eapply One; [eauto|discriminate]; fail).
  - left. rewrite ET in Ht. apply threads_split in Ht as (t1 & o & t2 & -> & <- & <-). assert (W : forall l, Forall2 calm l (map wake l)) by (induction l as [|p l IH]; cbn [map]; constructor; auto; destruct p; cbn; (left; reflexivity) || (right; auto)).
    apply keeps_one; auto. discriminate.
  - left. eapply One; eauto. intros r. destruct Hp; subst; discriminate.
  - left. eapply One; eauto. intros r0. destruct Hp; subst; discriminate.
  - rewrite ET in Ht. apply threads_split in Ht as (t1 & o & t2 & -> & <- & <-). destruct o as [k|]; [right; eauto|]. left. apply Forall2_app; [apply keeps_calm, calm_refl|]. constructor; [|apply keeps_calm, calm_refl]. cbn. congruence.
  - left. rewrite ET in Ht. apply threads_split in Ht as (t1 & o & t2 & -> & <- & <-). assert (CN := calm_notified _ _ _ Hnot). apply Forall2_app_inv_l in CN as (p1 & p2 & C1 & C2 & ->). inversion C2 as [|x0 q x1 p3 Cq C3]; subst.
    apply keeps_one; auto. discriminate.
Qed.
Lemma nodes_at {A} (ns : list A) k : k < length ns -> exists a n c, ns = a ++ n :: c /\ length a = k.
Proof. intros H. destruct (nth_error ns k) as [n|] eqn:E; [|apply nth_error_None in E; lia]. apply nth_error_split in E as (a & c & -> & L). eauto. Qed.
Definition node_quiet (n : node) : Prop := n_rows n = [] /\ n_replies n = [] /\ forall s, In s (n_slaves n) -> s = SIdle \/ s = SStopped.
Lemma stopped_all ss : (forall s, In s ss -> s = SStopped) -> stopped ss = length ss.
Proof. induction ss as [|s ss IH]; intros H; auto. rewrite stopped_cons, IH by (intros; apply H; right; auto). rewrite (H s (or_introl eq_refl)). reflexivity. Qed.
Lemma filter_length_le {A} (f : A -> bool) l : length (filter f l) <= length l.
Proof. induction l as [|x l IH]; cbn; auto. destruct (f x); cbn; lia. Qed.
Lemma stopped_le ss : stopped ss <= length ss.
Proof. unfold stopped. apply filter_length_le. Qed.
Lemma stopped_full ss : stopped ss = length ss -> forall s, In s ss -> s = SStopped.
Proof.
  induction ss as [|s ss IH]; intros H x Hx; [destruct Hx|]. rewrite stopped_cons in H. cbn [length] in H. assert (L := stopped_le ss). destruct s; try lia. destruct Hx as [<-|Hx]; [reflexivity|]. apply IH; [lia|exact Hx].
Qed.
Lemma node_progress nb R h m ths kn a n c : node_ok R R ths (length a) n -> node_quiet n \/ exists d', dstep nb Normal (DState h m ths kn (a ++ n :: c)) d'.
Proof.
  intros [K1 K2 K3 K4 K5]. destruct n as [rows ss replies aw dn]. cbn [n_rows n_slaves n_replies n_awaiting n_done] in *. destruct replies as [|l replies].
  2:{ right. destruct aw as [|aw]; [cbn [length] in K3; lia|]. eexists. apply d_result. }
  assert (D : (exists s1 r s2, ss = s1 ++ SWork r :: s2) \/ (exists s1 l s2, ss = s1 ++ SSend l :: s2) \/ (forall s, In s ss -> s = SIdle \/ s = SStopped)).
  { clear. induction ss as [|s ss IH]; [right; right; intros s []|]. destruct s as [|r|l|].
    - destruct IH as [(s1 & r & s2 & ->)|[(s1 & l & s2 & ->)|H]]; [left; exists (SIdle :: s1), r, s2; auto|right; left; exists (SIdle :: s1), l, s2; auto|right; right; intros s [<-|Hs]; auto].
    - left. exists [], r, ss. auto.
    - right. left. exists [], l, ss. auto.
    - destruct IH as [(s1 & r & s2 & ->)|[(s1 & l & s2 & ->)|H]]; [left; exists (SStopped :: s1), r, s2; auto|right; left; exists (SStopped :: s1), l, s2; auto|right; right; intros s [<-|Hs]; auto]. }
  destruct D as [(s1 & r & s2 & ->)|[(s1 & l & s2 & ->)|D]].
  - right. eexists. apply d_compute.
  - right. eexists. apply d_reply. apply K5. apply in_app_iff. right. left. auto.
  - destruct rows as [|r rows]; [left; repeat split; auto|]. assert (D2 : (exists s1 s2, ss = s1 ++ SIdle :: s2) \/ forall s, In s ss -> s = SStopped).
    { clear - D. induction ss as [|s ss IH]; [right; intros s []|]. destruct (D s (or_introl eq_refl)) as [->| ->]; [left; exists [], ss; auto|].
      destruct IH as [(s1 & s2 & ->)|H]; [intros; apply D; right; auto|left; exists (SStopped :: s1), s2; auto|right; intros s [<-|Hs]; auto]. }
    destruct D2 as [(s1 & s2 & ->)|D2]; [right; eexists; apply d_receive|]. exfalso. rewrite (stopped_all ss D2) in K4. cbn [length] in K4. assert (L : reals (r :: rows) <= S (length rows)) by (unfold reals; rewrite (filter_length_le real (r :: rows)); cbn; lia). lia.
Qed.
Lemma d_progress nb start kn R d s : (forall r, closure nb (start ++ kn) r -> r <> []) -> same d s -> contents nb start kn s -> proto s -> dinv R R d -> all_ended d \/ exists d', dstep nb Normal d d'.
Proof.
  intros Hne [S1 S2 S3 S4] HC HP [I1 I2]. destruct d as [h m ths k ns]. cbn [d_sh d_main d_known d_threads d_nodes] in *.
  assert (LS : forall s', step nb Normal (State h m (map snd ths) k) s' -> exists d', dstep nb Normal (DState h m ths k ns) d').
  { intros s' HS. destruct (step_keeps nb Normal _ _ HS ths eq_refl) as [HK|(t1 & j & r & t2 & ->)].
    - destruct s' as [h' m' ps k']. eexists. apply (d_list nb Normal h m ths k ns h' m' ps k'); auto.
    - destruct (nodes_at ns j) as (a & n & c & -> & <-); [apply (I2 j (Work r)); apply in_app_iff; right; left; auto|]. eexists. apply d_send. apply Hne. apply (c_held _ _ _ _ HC). right; right; left. exists r. split; auto.
      apply (Permutation_in _ S4). unfold phases. cbn [d_threads]. rewrite map_app, !in_app_iff. left. right. left. auto. }
  destruct m as [[|x l]|].
  { right. apply (LS _ (step_main_done nb (State h (Some []) (map snd ths) k) eq_refl)). }
  { right. destruct (notified_ex (snd (l_put_row h x)) (map snd ths)) as (ths' & Hn). apply (LS _ (step_main_put nb (State h (Some (x :: l)) (map snd ths) k) x l ths' eq_refl Hn)). }
  destruct k as [|x l].
  2:{ right. destruct (notified_ex (snd (l_put_row h x)) (map snd ths)) as (ths' & Hn). apply (LS _ (step_known nb (State h None (map snd ths) (x :: l)) x l ths' eq_refl eq_refl Hn)). }
  destruct (existsb active (map snd ths)) eqn:EA.
  { right. apply existsb_exists in EA as (p & Hp & Ha). destruct (active_step nb (State h None (map snd ths) []) p eq_refl Hp Ha) as (s' & HS). apply (LS _ HS). }
  assert (Hall : forall p, In p (map snd ths) -> p = Waiting \/ p = Stopped).
  { intros p Hp. destruct (active p) eqn:Ha; [|destruct p; try discriminate; auto]. exfalso. assert (existsb active (map snd ths) = true); [|congruence]. apply existsb_exists. eauto. }
  assert (DS : (exists t1 j t2, ths = t1 ++ (Some j, Stopped) :: t2) \/ forall j, ~ In (Some j, Stopped) ths).
  { clear. induction ths as [|[o p] ths IH]; [right; intros j []|]. destruct IH as [(t1 & j & t2 & ->)|H]; [left; exists ((o, p) :: t1), j, t2; auto|].
    destruct o as [j|]; [|right; intros i [K|K]; [discriminate|apply (H i K)]]. destruct p; try (right; intros i [K|K]; [discriminate|apply (H i K)]; fail). left. exists [], j, ths. auto. }
  destruct DS as [(t1 & j & t2 & ->)|DS].
  { right. destruct (nodes_at ns j) as (a & n & c & -> & <-); [apply (I2 j Stopped); apply in_app_iff; right; left; auto|]. eexists. apply d_stop. }
  assert (DN : (forall n, In n ns -> node_quiet n) \/ exists d', dstep nb Normal (DState h None ths [] ns) d').
  { assert (G : forall a c, ns = a ++ c -> (forall n, In n c -> node_quiet n) \/ exists d', dstep nb Normal (DState h None ths [] ns) d').
    { intros a c. revert a. induction c as [|n c IH]; intros a E; [left; intros n []|]. destruct (IH (a ++ [n])) as [H|H]; [rewrite <- app_assoc; auto| |auto].
      destruct (node_progress nb R h None ths [] a n c) as [Q|Q]; [apply I1; rewrite E, nth_error_app2, Nat.sub_diag by auto; auto| |right; rewrite E; auto]. left. intros n' [<-|Hn]; auto. }
    apply (G [] ns eq_refl). }
  destruct DN as [DN|DN]; [left|auto].
  assert (Hph : forall p, In p (phases (DState h None ths [] ns)) -> p = Waiting \/ p = Stopped).
  { intros p Hp. unfold phases in Hp. cbn [d_threads d_nodes] in Hp. apply in_app_iff in Hp as [Hp|Hp]; auto. apply in_flat_map in Hp as (n & Hn & Hp). destruct (DN n Hn) as (Q1 & Q2 & Q3). unfold node_phases in Hp. rewrite Q1, Q2 in Hp. cbn [flat_map map app] in Hp.
    apply in_app_iff in Hp as [Hp|Hp]; [|right; apply repeat_spec in Hp; auto]. apply in_flat_map in Hp as (x & Hx & Hp). destruct (Q3 x Hx) as [->| ->]; destruct Hp. }
  assert (Hts : forall p, In p (threads s) -> p = Waiting \/ p = Stopped) by (intros p Hp; apply Hph; apply (Permutation_in _ (Permutation_sym S4) Hp)).
  assert (HT : terminated s).
  { destruct (no_deadlock nb s HP) as [HT|(s' & HS)]; auto. exfalso.
    assert (X : forall l1 p l2, threads s = l1 ++ p :: l2 -> p = Waiting \/ p = Stopped) by (intros l1 p l2 E; apply Hts; rewrite E; apply in_app_iff; right; left; auto).
    remember Normal as lab eqn:EL. steps HS; try congruence; try (apply X in Ht; destruct Ht; discriminate); apply X in Ht; destruct Hp as [->| ->]; destruct Ht; discriminate. }
  destruct HT as (_ & _ & HT). assert (HW : forall t, In t ths -> t = (None, Stopped)).
  { intros [o p] Ht. assert (p = Stopped). { apply HT. apply (Permutation_in _ S4). unfold phases. cbn [d_threads]. apply in_app_iff. left. apply in_map_iff. exists (o, p). auto. }
    subst p. destruct o as [j|]; auto. destruct (DS j Ht). }
  assert (C0 : forall j, count j ths = 0).
  { intros j. unfold count. assert (E : filter (requests j) ths = []); [|rewrite E; auto]. clear - HW. induction ths as [|t ths IH]; auto. cbn [filter]. rewrite (HW t (or_introl eq_refl)). cbn [requests fst]. apply IH. intros x Hx. apply HW. right. auto. }
  assert (N : forall n, In n ns -> n_awaiting n = 0 /\ forall x, In x (n_slaves n) -> x = SStopped).
  { intros n Hn. destruct (DN n Hn) as (Q1 & Q2 & Q3). apply In_nth_error in Hn as (j & Hj). destruct (I1 j n Hj) as [K1 K2 K3 K4 K5]. rewrite C0 in K1. rewrite Q1, Q2 in *. cbn [length reals filter] in *. change (reals []) with 0 in *.
    assert (W0 : working (n_slaves n) = 0). { clear - Q3. induction (n_slaves n) as [|x l IH]; auto. rewrite working_cons, IH by (intros; apply Q3; right; auto). destruct (Q3 x (or_introl eq_refl)) as [->| ->]; auto. }
    split; [lia|]. apply stopped_full. lia. }
  split; [split; [reflexivity|split; [reflexivity|split; [exact HW|]]]|]; cbn [d_nodes]; intros n; [intros Hn; apply (N n Hn)|]. intros x Hn Hx. apply (N n Hn). auto.
Qed.

(** ** Runs *)
Lemma count_repeat_none k p n : count k (repeat (None, p) n) = 0.
Proof. induction n as [|n IH]; [reflexivity|exact IH]. Qed.
Lemma count_repeat_some k j p n : count k (repeat (Some j, p) n) = if j =? k then n else 0.
Proof. induction n as [|n IH]; [cbn; destruct (j =? k); auto|]. cbn [repeat]. rewrite count_one, IH. unfold requests. cbn [fst]. destruct (j =? k); auto. Qed.
Lemma count_requests k R c b : count k (flat_map (fun j => repeat (Some j, Entry) R) (seq b c)) = if (b <=? k) && (k <? b + c) then R else 0.
Proof.
  revert b. induction c as [|c IH]; intros b; cbn [seq flat_map].
  - replace ((b <=? k) && (k <? b + 0)) with false; auto. symmetry. apply andb_false_iff. rewrite Nat.leb_gt, Nat.ltb_ge. lia.
  - rewrite count_app, count_repeat_some, IH. destruct (Nat.eqb_spec b k) as [E|E].
    + subst b. replace (S k <=? k) with false by (symmetry; apply Nat.leb_gt; lia). replace (k <=? k) with true by (symmetry; apply Nat.leb_le; lia).
      replace (k <? k + S c) with true by (symmetry; apply Nat.ltb_lt; lia). cbn [andb]. lia.
    + replace (S b <=? k) with (b <=? k) by (apply eq_true_iff_eq; rewrite !Nat.leb_le; lia). replace (b + S c) with (S b + c) by lia. auto.
Qed.
Lemma dinv_initial start kn local R c S : dinv R S (d_initial start kn local R c S).
Proof.
  constructor; cbn [d_initial d_threads d_nodes].
  - intros k n Hn. assert (n = Node [] (repeat SIdle S) [] 0 0) as -> by (apply nth_error_In in Hn; apply repeat_spec in Hn; auto).
    assert (L : k < c) by (rewrite <- (repeat_length (Node [] (repeat SIdle S) [] 0 0) c); apply nth_error_Some; congruence). constructor; cbn [n_rows n_slaves n_replies n_awaiting n_done].
    + rewrite count_app, count_repeat_none, count_requests. replace (0 <=? k) with true by (symmetry; apply Nat.leb_le; lia). replace (k <? 0 + c) with true by (symmetry; apply Nat.ltb_lt; lia). cbn [andb]. lia.
    + apply repeat_length.
    + clear. induction S as [|S IH]; auto.
    + clear. induction S as [|S IH]; auto.
    + intros l Hl. apply repeat_spec in Hl. discriminate.
  - intros k p Hp. rewrite repeat_length. apply in_app_iff in Hp as [Hp|Hp]; [apply repeat_spec in Hp; discriminate|]. apply in_flat_map in Hp as (j & Hj & Hp). apply repeat_spec in Hp. injection Hp as -> ->. apply in_seq in Hj. lia.
Qed.
Lemma same_initial start kn local R c S : same (d_initial start kn local R c S) (initial start kn local (c * R)).
Proof.
  constructor; auto. unfold phases. cbn [d_initial d_threads d_nodes initial threads]. rewrite map_app.
  assert (E : forall n (o : option nat) (p : phase), map snd (repeat (o, p) n) = repeat p n) by (induction n as [|n IH]; intros; cbn [repeat map snd]; f_equal; auto). rewrite E.
  assert (E2 : forall b, map snd (flat_map (fun k => repeat (Some k, Entry) R) (seq b c)) = repeat Entry (c * R)).
  { induction c as [|c IH]; intros b; auto. cbn [seq flat_map Nat.mul]. rewrite map_app, E, IH, repeat_app. auto. }
  rewrite E2. assert (E3 : flat_map node_phases (repeat (Node [] (repeat SIdle S) [] 0 0) c) = []).
  { clear. induction c as [|c IH]; auto. cbn [repeat flat_map]. rewrite IH, app_nil_r. unfold node_phases. cbn [n_rows n_slaves n_replies n_done]. rewrite !app_nil_r. cbn [flat_map app map repeat]. clear IH; induction S as [|S IHS]; [auto|exact IHS]. }
  rewrite E3, app_nil_r. auto.
Qed.
Lemma drun_cons nb l d d1 ls d2 : dstep nb l d d1 -> drun nb d1 ls d2 -> drun nb d (l :: ls) d2.
Proof.
  intros H R. induction R as [d0|d0 l' d2 ls d3 _ IH H']; [apply (drun_step nb d l d [] d0 (drun_nil nb d) H)|].
  change (l :: ls ++ [l']) with ((l :: ls) ++ [l']). eapply drun_step; eauto.
Qed.
Lemma drun_app nb d ls d1 ls' d2 : drun nb d ls d1 -> drun nb d1 ls' d2 -> drun nb d (ls ++ ls') d2.
Proof.
  intros H R. induction R as [d0|d0 l' d2 ls' d3 _ IH H']; [rewrite app_nil_r; auto|].
  rewrite app_assoc. eapply drun_step; eauto.
Qed.

Section Distributed.
  Variables (nb : vec -> list vec) (start kn : list vec) (local R c S : nat).
  Notation cl := (closure nb (start ++ kn)).
  Hypothesis Hne : forall r, cl r -> r <> [].
  Hypothesis Hl : 0 < local.

  (** A distributed run is a run of the job list with the same threads. *)
  Lemma reach ls d : drun nb (d_initial start kn local R c S) ls d -> exists ls' s, run nb (initial start kn local (c * R)) ls' s /\ same d s.
  Proof.
    intros H. remember (d_initial start kn local R c S) as d0 eqn:E0. induction H as [d0|d0 l d1 ls d2 _ IH H]; subst d0.
    - exists [], (initial start kn local (c * R)). split; [constructor|apply same_initial].
    - destruct (IH eq_refl) as (ls' & s & Hr & Hs). destruct (simulation nb l d1 d2 s H Hs) as [(s' & K1 & K2 & _)|(_ & K & _)].
      + exists (ls' ++ [l]), s'. split; auto. eapply run_step; eauto.
      + exists ls', s. auto.
  Qed.
  Hypothesis Hnb : forall r, cl r -> nb r <> [].
  Lemma reach_inv ls d : drun nb (d_initial start kn local R c S) ls d -> dinv R S d.
  Proof.
    intros H. remember (d_initial start kn local R c S) as d0 eqn:E0. revert E0. induction H as [d0|d0 l d1 ls d2 H0 IH H]; intros ->; [apply dinv_initial|].
    specialize (IH eq_refl). destruct (reach _ _ H0) as (ls' & s & Hr & Hs). apply (dinv_step nb R S l d1 d2 H); auto. intros r Hin. apply Hnb.
    apply (c_held _ _ _ _ (r_contents nb start kn local (c * R) Hne ls' s Hr)). right; right; left. exists r. split; auto. apply (Permutation_in _ (same_threads _ _ Hs) Hin).
  Qed.
  Lemma master_terminated d s : dinv R S d -> same d s -> master_ended d -> terminated s.
  Proof.
    intros [I1 I2] [S1 S2 S3 S4] (M1 & M2 & M3 & M4). split; [congruence|]. split; [congruence|]. intros p Hp. apply (Permutation_in _ (Permutation_sym S4)) in Hp. unfold phases in Hp. apply in_app_iff in Hp as [Hp|Hp].
    - apply in_map_iff in Hp as (t & <- & Ht). rewrite (M3 t Ht). auto.
    - apply in_flat_map in Hp as (n & Hn & Hp). assert (A := M4 n Hn). apply In_nth_error in Hn as (k & Hk). destruct (I1 k n Hk) as [K1 K2 K3 K4 K5]. destruct n as [rows ss replies aw dn]. cbn [n_rows n_slaves n_replies n_awaiting n_done] in *.
      unfold node_phases in Hp. cbn [n_rows n_slaves n_replies n_done] in Hp. rewrite !in_app_iff in Hp. destruct Hp as [Hp|[Hp|[Hp|Hp]]].
      + exfalso. assert (Z : reals rows = 0) by lia. clear - Z Hp. induction rows as [|r rows IH]; [destruct Hp|]. rewrite reals_cons in Z. destruct r; [|lia]. apply IH; auto.
      + exfalso. assert (Z : working ss = 0) by lia. clear - Z Hp. induction ss as [|x ss IH]; [destruct Hp|]. rewrite working_cons in Z. destruct x; try lia; cbn in Hp; apply IH; auto.
      + destruct replies; [destruct Hp|cbn [length] in K3; lia].
      + apply repeat_spec in Hp. auto.
  Qed.

  Variables (C : list vec).
  Hypothesis HC : forall r, cl r -> In r C.
  Notation N := (local + c * R).
  Definition potential (d : dstate) (s : state) : nat := 5 * measure nb C N s + dweight d.
  Lemma potential_step l d d' s : dstep nb l d d' -> same d s -> contents nb start kn s -> length (threads s) <= N ->
    exists s', (s' = s \/ step nb l s s') /\ same d' s' /\ match l with Normal => potential d' s' < potential d s | Spurious => potential d' s' <= potential d s + 9 end.
  Proof.
    intros H Hs Hc HN. unfold potential. destruct (simulation nb l d d' s H Hs) as [(s' & K1 & K2 & K3)|(-> & K2 & K3)].
    - exists s'. split; auto. split; auto. destruct (measure_step nb start kn C N HC l s s' Hc HN K1) as (_ & M). destruct l; lia.
    - exists s. split; auto. split; auto. lia.
  Qed.
  Lemma reach_bound ls d : drun nb (d_initial start kn local R c S) ls d ->
    exists ls' s, run nb (initial start kn local (c * R)) ls' s /\ same d s /\
      length (filter is_normal ls) + potential d s <= potential (d_initial start kn local R c S) (initial start kn local (c * R)) + 9 * length (filter (fun l => negb (is_normal l)) ls).
  Proof.
    intros H. remember (d_initial start kn local R c S) as d0 eqn:E0. revert E0. induction H as [d0|d0 l d1 ls d2 H0 IH H]; intros ->.
    - exists [], (initial start kn local (c * R)). split; [constructor|]. split; [apply same_initial|]. cbn [filter length]. lia.
    - destruct (IH eq_refl) as (ls' & s & Hr & Hs & B). assert (L := run_length nb _ _ _ Hr). cbn [initial threads] in L. rewrite app_length, !repeat_length in L.
      destruct (potential_step l d1 d2 s H Hs (r_contents nb start kn local (c * R) Hne ls' s Hr)) as (s' & K1 & K2 & K3); [lia|].
      assert (Hr' : exists ls2, run nb (initial start kn local (c * R)) ls2 s') by (destruct K1 as [->|K1]; [eauto|exists (ls' ++ [l]); eapply run_step; eauto]). destruct Hr' as (ls2 & Hr'). exists ls2, s'. split; auto. split; auto.
      rewrite !filter_app, !app_length. destruct l; cbn [is_normal negb filter length]; lia.
  Qed.
End Distributed.
Lemma d_finishes nb start kn local R c C : (forall r, closure nb (start ++ kn) r -> r <> []) -> 0 < local -> (forall r, closure nb (start ++ kn) r -> nb r <> []) -> (forall r, closure nb (start ++ kn) r -> In r C) ->
  forall k ls d s, potential nb local R c C d s <= k -> drun nb (d_initial start kn local R c R) ls d -> (exists ls', run nb (initial start kn local (c * R)) ls' s) -> same d s ->
  exists ls2 d2, drun nb d ls2 d2 /\ Forall (eq Normal) ls2 /\ all_ended d2.
Proof.
  intros Hne Hl Hnb HC. induction k as [|k IH]; intros ls d s Hk Hd (ls' & Hr) Hs.
  - destruct (d_progress nb start kn R d s Hne Hs (r_contents nb start kn local (c * R) Hne ls' s Hr) (r_proto nb start kn local (c * R) Hne Hl ls' s Hr) (reach_inv nb start kn local R c R Hne Hnb ls d Hd)) as [E|(d' & Hd')].
    + exists [], d. split; [constructor|]. split; auto.
    + exfalso. assert (L := run_length nb _ _ _ Hr). cbn [initial threads] in L. rewrite app_length, !repeat_length in L.
      destruct (potential_step nb start kn local R c Hl C HC Normal d d' s Hd' Hs (r_contents nb start kn local (c * R) Hne ls' s Hr)) as (s' & K1 & K2 & K3); lia.
  - destruct (d_progress nb start kn R d s Hne Hs (r_contents nb start kn local (c * R) Hne ls' s Hr) (r_proto nb start kn local (c * R) Hne Hl ls' s Hr) (reach_inv nb start kn local R c R Hne Hnb ls d Hd)) as [E|(d' & Hd')].
    + exists [], d. split; [constructor|]. split; auto.
    + assert (L := run_length nb _ _ _ Hr). cbn [initial threads] in L. rewrite app_length, !repeat_length in L.
      destruct (potential_step nb start kn local R c Hl C HC Normal d d' s Hd' Hs (r_contents nb start kn local (c * R) Hne ls' s Hr)) as (s' & K1 & K2 & K3); [lia|].
      destruct (IH (ls ++ [Normal]) d' s') as (ls2 & d2 & G1 & G2 & G3); [lia|eapply drun_step; eauto| |auto|].
      { destruct K1 as [->|K1]; [eauto|exists (ls' ++ [Normal]); eapply run_step; eauto]. }
      exists (Normal :: ls2), d2. split; [eapply drun_cons; eauto|]. split; auto.
Qed.
