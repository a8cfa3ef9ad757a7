(** * ValidityProofs: the checks of option "-c" decide what they claim. *)
From Coq Require Import List ZArith Arith Lia Bool Permutation.
From Verif Require Import Base Spec LinAlg ListUtil FmeCore ArithModel MatrixModel SafeIntModel Refine IntTypes FmeTheorems DimTheorems Adjacency
  ClassesModel ApplyTheorems FmePrepare Span Rank ValidityModel.
Import ListNotations.
Open Scope Z_scope.

Fixpoint pactive (f : vec -> Z) (M : list vec) : option (list vec) :=
  match M with
  | [] => Some []
  | r :: M' => if 0 <? f r then None else match pactive f M' with None => None | Some l => Some (if f r =? 0 then r :: l else l) end
  end.
Lemma pactive_some f M l : pactive f M = Some l -> (forall v, In v M -> f v <= 0) /\ l = filter (fun v => f v =? 0) M.
Proof.
  revert l. induction M as [|r M IH]; intros l; cbn [pactive filter].
  - intros [= <-]. split; auto. intros v [].
  - destruct (Z.ltb_spec 0 (f r)); [discriminate|]. destruct (pactive f M) as [l'|]; [|discriminate]. intros [= <-].
    destruct (IH l' eq_refl) as (H1 & ->). split; auto. intros v [<-|Hv]; auto.
Qed.
Lemma pactive_none f M : pactive f M = None -> exists v, In v M /\ 0 < f v.
Proof.
  induction M as [|r M IH]; cbn [pactive]; [discriminate|].
  destruct (Z.ltb_spec 0 (f r)); [intros _; exists r; split; auto; left; auto|]. destruct (pactive f M); [discriminate|]. intros _.
  destruct (IH eq_refl) as (v & Hv & Hp). exists v. split; auto. right; auto.
Qed.

(** The face of [a]: valid, non-empty, of codimension one. *)
Definition pvalid (n : nat) (M : list vec) (a : vec) (d : nat) : bool :=
  match pactive (dot a) M with
  | None | Some [] => false
  | Some l => Nat.eqb (dim_loop l [] + 1) d
  end.

Section Ops.
  Variables (allowT allowU : bool) (A : Arith) (S : Sound allowT allowU A).
  Notation rl := (rel allowT allowU).
  Notation vr := (vr S).
  Notation rowr := (rowr S).
  Notation matr := (matr S).

  Lemma active_rel n distance (f : vec -> Z) M M' : matr M M' -> dims n M' ->
    (forall r r', rowr r r' -> length r' = n -> rl vr (distance r) (- f r')) ->
    rl (fun o o' => match o, o' with None, None => True | Some l, Some l' => matr l l' | _, _ => False end) (m_active A distance M) (pactive f M').
  Proof.
    intros HM HD Hf. induction HM as [|r r' M M' Hr HM IH]; cbn [m_active pactive]; [constructor|].
    apply Forall_cons_iff in HD as [Hl HD]. eapply rel_bind; [apply (Hf r r' Hr Hl)|]. intros d Hd.
    rewrite (vr_lti _ _ _ S _ _ Hd), (vr_eqi _ _ _ S _ _ 0 Hd) by auto.
    destruct (Z.ltb_spec (- f r') 0); destruct (Z.ltb_spec 0 (f r')); try lia; [constructor|].
    eapply rel_bind; [apply IH; auto|]. intros o Ho. destruct o as [l|], (pactive f M') as [l'|]; try contradiction; [|constructor].
    cbn [rel]. destruct (Z.eqb_spec (- f r') 0), (Z.eqb_spec (f r') 0); try lia; auto. constructor; auto.
  Qed.

  Lemma valid_rel n distance M M' a d : matr M M' -> dims n M' ->
    (forall r r', rowr r r' -> length r' = n -> rl vr (distance r) (- dot a r')) ->
    rl eq (do act <- m_active A distance M;
           match act with None => Ok false | Some [] => Ok false | Some l => do e <- m_dimension A l; Ok (Nat.eqb (e + 1) d) end)
          (pvalid n M' a d).
  Proof.
    intros HM HD Hf. eapply rel_bind; [apply (active_rel n _ (dot a) M M'); auto|]. intros o Ho. unfold pvalid.
    destruct (pactive (dot a) M') as [l'|] eqn:E; destruct o as [l|]; try contradiction; [|reflexivity].
    destruct Ho as [|r r' l l' Hr Hl]; [reflexivity|]. apply pactive_some in E as (_ & E).
    assert (dims n (r' :: l')).
    { rewrite E. apply Forall_forall. intros v Hv. apply filter_In in Hv. apply (dims_in n M'); tauto. }
    eapply rel_bind; [apply (dimension_rel _ _ A S n (r :: l) (r' :: l')); auto; constructor; auto|]. intros e ->. reflexivity.
  Qed.
  Lemma inequality_valid_rel n M M' a a' d : matr M M' -> dims n M' -> rowr a a' -> length a' = n ->
    rl eq (m_inequality_is_valid A M a d) (pvalid n M' a' d).
  Proof.
    intros HM HD Ha Hl. apply valid_rel; auto. intros r r' Hr Hrl. apply distance_rel; auto. congruence.
  Qed.
  Definition m_vertex_is_valid (M : list (list (num A))) (x : list (num A)) (d : nat) : res bool :=
    do act <- m_active A (fun r => m_distance A r x) M;
    match act with None => Ok false | Some [] => Ok false | Some l => do e <- m_dimension A l; Ok (Nat.eqb (e + 1) d) end.
  Lemma vertex_valid_rel n M M' a a' d : matr M M' -> dims n M' -> rowr a a' -> length a' = n ->
    rl eq (m_vertex_is_valid M a d) (pvalid n M' a' d).
  Proof.
    intros HM HD Ha Hl. apply valid_rel; auto. intros r r' Hr Hrl. rewrite dot_comm. apply distance_rel; auto. congruence.
  Qed.
End Ops.

Lemma check_inequality_valid A M a d : m_check_inequality A M a d = do b <- m_inequality_is_valid A M a d; if b then Ok tt else Throw.
Proof.
  unfold m_check_inequality, m_inequality_is_valid. destruct (m_active A _ M) as [[[|r l]|]| |]; cbn [bind]; auto.
  destruct (m_dimension A (r :: l)); cbn [bind]; auto.
Qed.
Lemma check_vertex_valid A M a d : m_check_vertex A M a d = do b <- m_vertex_is_valid A M a d; if b then Ok tt else Throw.
Proof.
  unfold m_check_vertex, m_vertex_is_valid. destruct (m_active A _ M) as [[[|r l]|]| |]; cbn [bind]; auto.
  destruct (m_dimension A (r :: l)); cbn [bind]; auto.
Qed.

(** [a] is satisfied by all of [V], with equality by some, and these span a subspace of one dimension less than [V]. *)
Definition proper_facet (n : nat) (V : list vec) (a : vec) : Prop :=
  (forall v, In v V -> dot a v <= 0) /\ (exists v, In v V /\ dot a v = 0) /\
  exists T r, (forall v, In v T <-> In v V /\ dot a v = 0) /\ is_rank n T r /\ is_rank n V (Datatypes.S r).

Lemma rank_equiv n V W r : (forall v, In v V <-> In v W) -> is_rank n V r -> is_rank n W r.
Proof. intros H (B & HB & Hi & HI & HS). exists B. repeat split; auto; [intros b Hb; apply H, Hi, Hb|intros v Hv; apply HS, H, Hv]. Qed.

Lemma pvalid_spec n V a d : dims n V -> is_rank n V d -> (pvalid n V a d = true <-> proper_facet n V a).
Proof.
  intros HV Hd. unfold pvalid. destruct (pactive (dot a) V) as [l|] eqn:E.
  - apply pactive_some in E as (Hv & El). assert (Hin : forall v, In v l <-> In v V /\ dot a v = 0).
    { intros v. rewrite El, filter_In, Z.eqb_eq. tauto. }
    assert (HL : dims n l) by (apply (dims_incl n _ V); auto; intros v Hv'; apply Hin; auto).
    assert (Hr := dim_loop_correct n l HL). clear El. destruct l as [|r l].
    + split; [discriminate|]. intros (_ & (v & Hv1 & Hv2) & _). destruct (proj2 (Hin v) (conj Hv1 Hv2)).
    + rewrite Nat.eqb_eq. split.
      * intros <-. split; auto. split; [exists r; apply Hin; left; auto|]. exists (r :: l), (dim_loop (r :: l) []). split; auto. split; auto.
        rewrite Nat.add_1_r in Hd. exact Hd.
      * intros (_ & _ & T & k & HT & Hk & HS). assert (Datatypes.S k = d) by (apply (rank_unique n V); auto). subst d.
        assert (is_rank n (r :: l) k) by (apply (rank_equiv n T); auto; intros v; rewrite HT, Hin; tauto).
        assert (dim_loop (r :: l) [] = k) by (apply (rank_unique n (r :: l)); auto). lia.
  - apply pactive_none in E as (v & Hv & Hp). split; [discriminate|]. intros (H & _). specialize (H v Hv). lia.
Qed.

Lemma proper_facet_iff n V a : dims n V -> length a = n -> (proper_facet n V a <-> facet n V a /\ exists v, In v V /\ dot a v = 0).
Proof.
  intros HV Ha. split.
  - intros (Hv & He & T & r & HT & Hr & HS). split; auto. apply (rank_facet n V a r); auto.
    apply (rank_equiv n T); auto. intros v. rewrite HT, in_tight. tauto.
  - intros (Hf & He). split; [apply Hf|]. split; auto. exists (tight V a), (dim_loop (tight V a) []).
    assert (HT := dims_tight n V a HV). assert (Hr := dim_loop_correct n _ HT). split; [intros; apply in_tight|]. split; auto.
    apply (facet_rank n V a); auto.
Qed.

(** ** The lists *)
Lemma forall_or_exists {X} (f : X -> bool) l : (forall x, In x l -> f x = true) \/ exists x, In x l /\ f x = false.
Proof.
  induction l as [|x l IH]; [left; intros x []|]. destruct (f x) eqn:E; [|right; exists x; split; auto; left; auto].
  destruct IH as [H|(y & Hy & Ey)]; [left|right; exists y; split; auto; right; auto]. intros y [<-|Hy]; auto.
Qed.

Section Checks.
  Variables (t : int_type) (n : nat) (V : list vec).
  Hypothesis Ht : t <> INT16.
  Hypothesis HR : rows_representable t V.
  Hypothesis HV : dims n V.

  Lemma valid_outcome d (a : vec) : length a = n -> Forall (representable t) a ->
    outcome t (m_inequality_is_valid (arith t) V a d) (pvalid n V a d).
  Proof.
    intros Hl Hr. assert (H := inequality_valid_rel _ _ _ (sound_type t Ht) n V V a a d (rows_rel t Ht V HR) HV (vec_rel t Ht a Hr) Hl).
    destruct (m_inequality_is_valid (arith t) V a d); cbn [rel outcome] in *; auto; destruct t; cbn in *; auto; congruence.
  Qed.
  Lemma vertex_outcome d (a : vec) : length a = n -> Forall (representable t) a ->
    outcome t (m_vertex_is_valid (arith t) V a d) (pvalid n V a d).
  Proof.
    intros Hl Hr. assert (H := vertex_valid_rel _ _ _ (sound_type t Ht) n V V a a d (rows_rel t Ht V HR) HV (vec_rel t Ht a Hr) Hl).
    destruct (m_vertex_is_valid (arith t) V a d); cbn [rel outcome] in *; auto; destruct t; cbn in *; auto; congruence.
  Qed.
  Lemma dimension_outcome : outcome t (m_dimension (arith t) V) (dim_loop V []).
  Proof.
    assert (H := dimension_rel _ _ (arith t) (sound_type t Ht) n V V (rows_rel t Ht V HR) HV).
    destruct (m_dimension (arith t) V); cbn [rel outcome] in *; auto; destruct t; cbn in *; auto; congruence.
  Qed.

  (** A loop over the rows that stops at the first row failing a test. *)
  Lemma loop_spec (test : vec -> res bool) (p : vec -> bool) (rows : list vec) :
    (forall a, In a rows -> outcome t (test a) (p a)) ->
    match foldM (fun _ a => do b <- test a; if b then Ok tt else Throw) tt rows with
    | Ok _ => forall a, In a rows -> p a = true
    | Throw => t = SAFE \/ exists a, In a rows /\ p a = false
    | UB => t = INT32 \/ t = INT64
    end.
  Proof.
    induction rows as [|a rows IH]; intros H; cbn [foldM]; [intros a []|].
    assert (Ha := H a (or_introl eq_refl)). destruct (test a) as [b| |]; cbn [outcome bind] in *; auto.
    subst b. destruct (p a) eqn:Ep; cbn [bind]; [|right; exists a; split; auto; left; auto].
    specialize (IH (fun x Hx => H x (or_intror Hx))). destruct (foldM _ tt rows); auto.
    - intros x [<-|Hx]; auto.
    - destruct IH as [|(x & Hx & E)]; auto. right. exists x. split; auto. right; auto.
  Qed.

  Lemma checks_spec (valid_test : nat -> vec -> res bool) (check : nat -> vec -> res unit) (rows : list vec) :
    (forall d a, check d a = do b <- valid_test d a; if b then Ok tt else Throw) ->
    (forall d a, In a rows -> outcome t (valid_test d a) (pvalid n V a d)) ->
    match (match rows with [] => Ok tt | _ => do d <- m_dimension (arith t) V; foldM (fun _ a => check d a) tt rows end) with
    | Ok _ => forall a, In a rows -> proper_facet n V a
    | Throw => t = SAFE \/ exists a, In a rows /\ ~ proper_facet n V a
    | UB => t = INT32 \/ t = INT64
    end.
  Proof.
    intros Hc Hv. destruct rows as [|a0 rows]; [intros a []|]. assert (Hd := dimension_outcome).
    destruct (m_dimension (arith t) V) as [d| |]; cbn [outcome bind] in *; auto. subst d.
    assert (HK := dim_loop_correct n V HV). set (d := dim_loop V []) in *.
    assert (L := loop_spec (valid_test d) (fun a => pvalid n V a d) (a0 :: rows) (Hv d)).
    assert (E : foldM (fun _ a => check d a) tt (a0 :: rows) = foldM (fun _ a => do b <- valid_test d a; if b then Ok tt else Throw) tt (a0 :: rows)).
    { generalize (a0 :: rows). induction l as [|x l IH]; cbn [foldM]; auto. rewrite Hc. match goal with |- bind ?x _ = _ => destruct x as [[]| |] end; cbn [bind]; auto. }
    rewrite E. destruct (foldM _ tt (a0 :: rows)) as [u| |]; auto.
    - intros a Ha. apply (pvalid_spec n V a d); auto.
    - destruct L as [|(a & Ha & Ef)]; auto. right. exists a. split; auto. rewrite <- (pvalid_spec n V a d) by auto. congruence.
  Qed.

  Lemma filter_loop_spec d rows : dims n rows -> rows_representable t rows ->
    outcome t (m_filter_loop (arith t) V d rows) (filter (fun a => pvalid n V a d) rows).
  Proof.
    induction rows as [|a rows IH]; intros HD Hr; cbn [m_filter_loop filter]; [reflexivity|].
    apply Forall_cons_iff in HD as [Hl HD]. apply Forall_cons_iff in Hr as [Ha Hr]. specialize (IH HD Hr).
    assert (Hb := valid_outcome d a Hl Ha).
    match type of Hb with (outcome _ ?m _) => destruct m as [b| |] end; cbn [outcome bind] in *; auto. rewrite Hb.
    match type of IH with (outcome _ ?m _) => destruct m as [r| |] end; cbn [outcome bind] in *; auto. rewrite IH. reflexivity.
  Qed.
End Checks.

(** ** Maps *)
Definition row_eqb (a b : vec) : bool := if list_eq_dec Z.eq_dec a b then true else false.
Fixpoint pfind (r : vec) (M : list vec) : nat := match M with [] => 0%nat | x :: M' => if row_eqb x r then 0%nat else Datatypes.S (pfind r M') end.
Definition pindices (img : vec -> vec) (M rows : list vec) : list nat := map (fun r => pfind (img r) M) rows.

Section MapOps.
  Variables (allowT allowU : bool) (A : Arith) (S : Sound allowT allowU A).
  Notation rl := (rel allowT allowU).
  Notation rowr := (rowr S).
  Notation matr := (matr S).

  Lemma row_eqb_rel a a' b b' : rowr a a' -> rowr b b' -> m_row_eqb A a b = row_eqb a' b'.
  Proof.
    intros Ha. revert b b'. induction Ha as [|x x' a a' Hx Ha IH]; intros b b' Hb; destruct Hb as [|y y' b b' Hy Hb]; cbn [m_row_eqb]; auto.
    rewrite (vr_gt _ _ _ S _ _ _ _ Hx Hy), (vr_gt _ _ _ S _ _ _ _ Hy Hx), (IH b b' Hb).
    unfold row_eqb. destruct (list_eq_dec Z.eq_dec a' b') as [->|Hne]; destruct (list_eq_dec Z.eq_dec (x' :: _) (y' :: _)) as [E|E].
    - injection E as ->. rewrite !Z.gtb_ltb, Z.ltb_irrefl. reflexivity.
    - destruct (x' >? y') eqn:E1; auto. destruct (y' >? x') eqn:E2; auto. exfalso. apply E. f_equal. rewrite Z.gtb_ltb, Z.ltb_ge in *. lia.
    - injection E as -> ->. congruence.
    - rewrite andb_false_r. reflexivity.
  Qed.
  Lemma find_rel r r' M M' : rowr r r' -> matr M M' -> m_find A r M = pfind r' M'.
  Proof.
    intros Hr. induction 1 as [|x x' M M' Hx HM IH]; cbn [m_find pfind]; auto. rewrite (row_eqb_rel x x' r r') by auto. rewrite IH. reflexivity.
  Qed.
  (** The images of all rows; it throws at the first one that is not a row. *)
  Lemma indices_rel tg n m M M' rows rows' : map_in n m -> dims n rows' -> matr M M' -> matr rows rows' ->
    (Forall (fun r => In (rnorm (praw tg m r)) M') rows' -> rl eq (m_indices_of A tg m M rows) (pindices (fun r => rnorm (praw tg m r)) M' rows')) /\
    (forall ind, m_indices_of A tg m M rows = Ok ind -> Forall (fun i => (i < length M')%nat) ind) /\
    (m_indices_of A tg m M rows = Throw -> allowT = true \/ ~ Forall (fun r => In (rnorm (praw tg m r)) M') rows') /\
    (m_indices_of A tg m M rows = UB -> allowU = true) /\
    (forall ind, m_indices_of A tg m M rows = Ok ind -> ind = pindices (fun r => rnorm (praw tg m r)) M' rows').
  Proof.
    intros Hm HD HM Hrows. assert (HLM : length M = length M') by (apply (Forall2_length HM)).
    assert (Hfind : forall r, (length M' <= pfind r M')%nat <-> ~ In r M').
    { intros r. clear. induction M' as [|x M IH]; cbn [pfind length]; [split; auto; lia|]. unfold row_eqb at 1.
      destruct (list_eq_dec Z.eq_dec x r) as [->|Hne]; [split; [lia|intros H; exfalso; apply H; left; auto]|].
      split; [intros H [->|Hi]; [congruence|apply IH in Hi; auto; lia]|]. intros H. apply le_n_S, IH. intros Hi. apply H. right; auto. }
    induction Hrows as [|r r' rows rows' Hr Hrows IH]; cbn [m_indices_of pindices map].
    { split; [intros _; reflexivity|]. split; [intros ind [= <-]; constructor|]. split; [discriminate|]. split; [discriminate|]. intros ind [= <-]; auto. }
    apply Forall_cons_iff in HD as [Hl HD]. destruct (IH HD) as (I1 & I2 & I3 & I4 & I5).
    assert (Ha := apply_rel _ _ _ S tg m r r' n Hm Hr Hl).
    destruct (m_apply A tg m r) as [y| |]; cbn [rel bind] in *.
    2,3: repeat split; auto; discriminate.
    rewrite (find_rel y _ M M' Ha HM). set (w := rnorm (praw tg m r')) in *. rewrite HLM.
    destruct (Nat.leb_spec (length M') (pfind w M')) as [Hge|Hlt].
    - apply Hfind in Hge. split; [intros HF; exfalso; apply Hge; exact (Forall_inv HF)|]. split; [discriminate|].
      split; [intros _; right; intros HF; apply Hge; exact (Forall_inv HF)|]. split; discriminate.
    - split; [intros HF; eapply rel_bind; [apply I1; exact (Forall_inv_tail HF)|]; intros ind ->; reflexivity|].
      destruct (m_indices_of A tg m M rows) as [ind| |]; cbn [bind].
      + split; [intros i [= <-]; constructor; auto|]. split; [discriminate|]. split; [discriminate|]. intros i [= <-].
        unfold w. f_equal. apply I5; auto.
      + split; [discriminate|]. split; [|split; discriminate]. intros E. destruct (I3 eq_refl); auto. right. intros HF. apply H. exact (Forall_inv_tail HF).
      + split; [discriminate|]. split; [discriminate|]. split; auto. discriminate.
  Qed.
End MapOps.

(** Sorting indices. *)
Lemma insert_nat_perm x l : Permutation (x :: l) (insert_nat x l).
Proof.
  induction l as [|y l IH]; cbn [insert_nat]; auto. destruct (x <=? y)%nat; auto. apply perm_trans with (y :: x :: l); [constructor|]. constructor. auto.
Qed.
Lemma sort_nat_perm l : Permutation l (sort_nat l).
Proof. induction l as [|x l IH]; cbn [sort_nat fold_right]; auto. apply perm_trans with (x :: sort_nat l); [constructor; auto|apply insert_nat_perm]. Qed.
Inductive ascending : list nat -> Prop :=
| asc_nil : ascending []
| asc_cons x l : (forall y, In y l -> (x <= y)%nat) -> ascending l -> ascending (x :: l).
Lemma insert_nat_asc x l : ascending l -> ascending (insert_nat x l).
Proof.
  induction 1 as [|y l H HA IH]; cbn [insert_nat]; [repeat constructor; intros ? []|]. destruct (Nat.leb_spec x y) as [Hle|Hgt].
  - constructor; [|constructor; auto]. intros z [<-|Hz]; auto. specialize (H z Hz). lia.
  - constructor; auto. intros z Hz. apply (Permutation_in _ (Permutation_sym (insert_nat_perm x l))) in Hz. destruct Hz as [<-|Hz]; [lia|auto].
Qed.
Lemma sort_nat_asc l : ascending (sort_nat l).
Proof. induction l as [|x l IH]; cbn [sort_nat fold_right]; [constructor|]. apply insert_nat_asc; auto. Qed.
Lemma ascending_unique l l' : ascending l -> ascending l' -> Permutation l l' -> l = l'.
Proof.
  intros H. revert l'. induction H as [|x l Hx HA IH]; intros l' H' P; [apply Permutation_nil in P; auto|].
  destruct H' as [|y l' Hy HB]; [apply Permutation_sym, Permutation_nil in P; discriminate|].
  assert (x = y).
  { assert (In x (y :: l')) as [|H1] by (apply (Permutation_in _ P); left; auto); auto.
    assert (In y (x :: l)) as [|H2] by (apply (Permutation_in _ (Permutation_sym P)); left; auto); auto.
    specialize (Hx y H2). specialize (Hy x H1). lia. }
  subst y. f_equal. apply IH; auto. apply Permutation_cons_inv in P. auto.
Qed.
Lemma seq_asc n k : ascending (seq k n).
Proof. revert k. induction n as [|n IH]; intros k; cbn [seq]; constructor; auto. intros y Hy. apply in_seq in Hy. lia. Qed.
Lemma all_equal (l l' : list nat) : length l = length l' -> (forallb (fun p => fst p =? snd p)%nat (combine l l') = true <-> l = l').
Proof.
  revert l'. induction l as [|x l IH]; intros [|y l'] H; try discriminate; cbn [combine forallb fst snd]; [tauto|].
  rewrite andb_true_iff, Nat.eqb_eq, IH by (cbn in H; lia). split; [intros (-> & ->); auto|intros [= -> ->]; auto].
Qed.
Lemma sorted_test ind : forallb (fun p => fst p =? snd p)%nat (combine (sort_nat ind) (seq 0 (length ind))) = true <-> Permutation ind (seq 0 (length ind)).
Proof.
  rewrite all_equal by (rewrite seq_length; symmetry; apply Permutation_length, sort_nat_perm). split.
  - intros <-. apply sort_nat_perm.
  - intros P. apply ascending_unique; [apply sort_nat_asc|apply seq_asc|]. eapply perm_trans; [apply Permutation_sym, sort_nat_perm|exact P].
Qed.

Lemma pfind_in r M : In r M -> (pfind r M < length M)%nat /\ nth (pfind r M) M [] = r.
Proof.
  induction M as [|x M IH]; intros Hi; [destruct Hi|]. cbn [pfind length]. unfold row_eqb.
  destruct (list_eq_dec Z.eq_dec x r) as [->|Hne]; [split; [lia|reflexivity]|]. destruct Hi as [->|Hi]; [congruence|].
  destruct (IH Hi) as (H1 & H2). split; [lia|]. cbn [nth]. auto.
Qed.
Lemma pfind_nodup M : NoDup M -> map (fun r => pfind r M) M = seq 0 (length M).
Proof.
  induction 1 as [|x M Hx HN IH]; cbn [map length seq]; auto. f_equal.
  - cbn [pfind]. unfold row_eqb. destruct (list_eq_dec Z.eq_dec x x); congruence.
  - rewrite <- seq_shift, <- IH, map_map. apply map_ext_in. intros r Hr. cbn [pfind]. unfold row_eqb at 1.
    destruct (list_eq_dec Z.eq_dec x r) as [->|]; [contradiction|reflexivity].
Qed.
Lemma nth_seq_map (M : list vec) : map (fun i => nth i M []) (seq 0 (length M)) = M.
Proof.
  induction M as [|x M IH]; cbn [length seq map]; auto. f_equal. rewrite <- seq_shift, map_map. exact IH.
Qed.

Lemma indices_bijection (img : vec -> vec) M : Forall (fun i => (i < length M)%nat) (pindices img M M) ->
  (Permutation (pindices img M M) (seq 0 (length M)) <-> NoDup M /\ Permutation (map img M) M).
Proof.
  intros HF. assert (Hin : forall r, In r M -> In (img r) M).
  { intros r Hr. assert (H : In (pfind (img r) M) (pindices img M M)) by (unfold pindices; apply in_map_iff; eauto).
    rewrite Forall_forall in HF. specialize (HF _ H). clear -HF. revert HF. generalize (img r). intros w.
    induction M as [|x M IH]; cbn [pfind length]; [lia|]. unfold row_eqb. destruct (list_eq_dec Z.eq_dec x w); [left; auto|]. intros; right. apply IH. lia. }
  split.
  - intros P. assert (P' : Permutation (map img M) M).
    { rewrite <- (nth_seq_map M) at 2. apply Permutation_map with (f := fun i => nth i M []) in P. unfold pindices in P. rewrite map_map in P.
      eapply perm_trans; [|exact P]. apply Permutation_refl'. apply map_ext_in. intros r Hr. symmetry. apply pfind_in. auto. }
    split; auto. apply (NoDup_nth M []). intros i j Hi Hj E.
    (* both are the first occurrence of their row *)
    assert (Hfirst : forall i, (i < length M)%nat -> pfind (nth i M []) M = i).
    { intros k Hk. assert (In k (pindices img M M)) as H by (apply (Permutation_in _ (Permutation_sym P)), in_seq; lia).
      unfold pindices in H. apply in_map_iff in H. destruct H as (r & Hr & Hi'). rewrite <- Hr at 1. rewrite (proj2 (pfind_in (img r) M (Hin r Hi'))). auto. }
    rewrite <- (Hfirst i Hi), <- (Hfirst j Hj), E. reflexivity.
  - intros (HN & P). rewrite <- (pfind_nodup M HN). unfold pindices. rewrite <- (map_map img (fun w => pfind w M)). apply Permutation_map. auto.
Qed.

Section MapCheck.
  Variables (t : int_type) (n : nat) (V : list vec) (tg : tag) (m : lmap).
  Hypothesis Ht : t <> INT16.
  Hypothesis HR : rows_representable t V.
  Hypothesis HV : dims n V.
  Hypothesis Hm : map_in n m.
  Definition row_image : vec -> vec := fun r => rnorm (praw tg m r).

  Lemma check_map_spec :
    match m_check_map (arith t) tg V m with
    | Ok _ => NoDup V /\ Permutation (map row_image V) V
    | Throw => t = SAFE \/ ~ (NoDup V /\ Permutation (map row_image V) V)
    | UB => t = INT32 \/ t = INT64
    end.
  Proof.
    destruct (indices_rel _ _ _ (sound_type t Ht) tg n m V V V V Hm HV (rows_rel t Ht V HR) (rows_rel t Ht V HR)) as (I1 & I2 & I3 & I4 & I5).
    unfold m_check_map. destruct (m_indices_of (arith t) tg m V V) as [ind| |]; cbn [bind].
    - specialize (I5 ind eq_refl). specialize (I2 ind eq_refl). fold row_image in I5. subst ind. assert (B := indices_bijection row_image V I2).
      replace (length V) with (length (pindices row_image V V)) in B by apply map_length. rewrite <- sorted_test in B.
      destruct (forallb _ _) eqn:E; [apply B; auto|]. right. rewrite <- B. congruence.
    - destruct (I3 eq_refl) as [H|H]; [left; destruct t; cbn in H; congruence|]. right. intros (HN & P). apply H. apply Forall_forall. intros r Hr.
      apply (Permutation_in _ P). apply in_map_iff. exists r. auto.
    - specialize (I4 eq_refl). destruct t; cbn in I4; auto; congruence.
  Qed.
End MapCheck.

(** ** Extreme rays and facets of the dual cone *)
Lemma magnitude (b : vec) (V : list vec) : exists K, 0 < K /\ forall v, In v V -> Z.abs (dot b v) < K.
Proof.
  induction V as [|u V (K & HK & H)]; [exists 1; split; [lia|intros v []]|]. exists (K + Z.abs (dot b u)). split; [lia|].
  intros v [<-|Hv]; [lia|]. specialize (H v Hv). lia.
Qed.
Lemma extreme_facet n V x : dims n V -> no_line n V -> extreme_ray n V x -> facet n V x.
Proof.
  intros HV Hp ((Hl & Hs) & Hnz & He). split; auto. split; [intros v Hv; rewrite dot_comm; auto|]. split.
  { intros Hvan. apply Hnz. apply Hp; auto. intros a Ha. rewrite dot_comm; auto. }
  intros b Hb Hbt. destruct (magnitude b V) as (K & HK & HKb).
  assert (Hv : forall v, In v V -> dot x v = 0 \/ dot x v <= -1) by (intros v Hv; specialize (Hs v Hv); rewrite dot_comm in Hs; lia).
  destruct (He (2 * K) (vadd (vscale K x) (vscale 1 b)) (vadd (vscale K x) (vscale (-1) b))) as (m & t & Hm & Ht & E); try lia.
  - split; [rewrite (vadd_length_eq n); rewrite ?vscale_length; auto|]. intros a Ha.
    rewrite dot_comm, dot_vadd_l, !dot_vscale_l by (rewrite !vscale_length; congruence).
    specialize (HKb a Ha). destruct (Hv a Ha) as [E0|E0]; [rewrite (Hbt a Ha E0), E0; lia|nia].
  - split; [rewrite (vadd_length_eq n); rewrite ?vscale_length; auto|]. intros a Ha.
    rewrite dot_comm, dot_vadd_l, !dot_vscale_l by (rewrite !vscale_length; congruence).
    specialize (HKb a Ha). destruct (Hv a Ha) as [E0|E0]; [rewrite (Hbt a Ha E0), E0; lia|nia].
  - apply (vec_ext n); [rewrite vscale_length; auto| |].
    { rewrite (vadd_length_eq n); rewrite ?(vadd_length_eq n); rewrite ?vscale_length; auto. }
    intros c Hc. rewrite !dot_vadd_l by (rewrite ?(vadd_length_eq n); rewrite ?vscale_length; congruence). rewrite !dot_vscale_l. lia.
  - exists m, (m * K - t). split; [lia|]. intros v Hin.
    assert (H1 := f_equal (fun u => dot u v) E). cbn beta in H1.
    rewrite !dot_vscale_l, dot_vadd_l, !dot_vscale_l in H1 by (rewrite !vscale_length; congruence).
    rewrite dot_vadd_l, !dot_vscale_l by (rewrite !vscale_length; congruence). lia.
Qed.

Lemma rank_two_touches n V a r : dims n V -> is_rank n V r -> (2 <= r)%nat -> facet n V a -> exists v, In v V /\ dot a v = 0.
Proof.
  intros HV Hr H2 Hf. assert (HT := dims_tight n V a HV). assert (Hk := dim_loop_correct n _ HT).
  assert (HS := facet_rank n V a _ HV Hf Hk). assert (E := rank_unique n V _ _ HV Hr HS).
  destruct Hk as (B & HB & Hi & _). destruct B as [|b B]; [cbn in HB; lia|]. exists b. apply in_tight. apply Hi. left; auto.
Qed.
Lemma no_line_rank n V r : dims n V -> no_line n V -> is_rank n V r -> (2 <= n)%nat -> (2 <= r)%nat.
Proof.
  intros HV Hp (B & HB & Hi & _ & HS) Hn. destruct B as [|b [|c B]]; cbn in HB; try lia; exfalso.
  - assert (E : 1 :: vzero (n - 1) = vzero n).
    { apply Hp; [cbn [length]; rewrite vzero_length; lia|]. intros a Ha. rewrite dot_comm. destruct (HS a Ha) as (k & cs & Hk & _ & E).
      assert (E0 := f_equal (dot (1 :: vzero (n - 1))) E). rewrite dot_vscale_r in E0. cbn [lincomb] in E0.
      replace (lincomb n cs []) with (vzero n) in E0 by (destruct cs; auto). rewrite dot_vzero_r in E0. nia. }
    destruct n; [lia|]. discriminate.
  - assert (Hb : length b = n) by (apply (dims_in n V); auto; apply Hi; left; auto). destruct b as [|b1 [|b2 b]]; cbn [length] in Hb; try lia.
    assert (HD : dims n [b1 :: b2 :: b]) by (constructor; auto).
    assert (Hx : forall x, length x = n -> dot (b1 :: b2 :: b) x = 0 -> x = vzero n).
    { intros x Hx E. apply Hp; auto. intros a Ha. apply (span_vanishes n [b1 :: b2 :: b]); auto. intros e [<-|[]]; auto. }
    assert (E1 := Hx (b2 :: - b1 :: vzero (length b)) ltac:(cbn [length]; rewrite vzero_length; auto)).
    cbn [dot] in E1. rewrite dot_vzero_r in E1. specialize (E1 ltac:(lia)).
    assert (E2 := Hx (1 :: vzero (n - 1)) ltac:(cbn [length]; rewrite vzero_length; lia)).
    cbn [dot] in E2. destruct n as [|n']; [lia|]. cbn [vzero repeat] in E1, E2. injection E1 as E1 E3. destruct n' as [|n']; [lia|]. cbn [repeat] in E3. injection E3 as E3 _.
    assert (b1 = 0) by lia. subst. replace (Datatypes.S (Datatypes.S n') - 1)%nat with (Datatypes.S n') in E2 by lia.
    cbn [vzero repeat dot] in E2. fold (vzero n') in E2. rewrite dot_vzero_r in E2. specialize (E2 ltac:(lia)). discriminate.
Qed.
