(** * FmePrepare: what the preparation phase guarantees. *)
From Coq Require Import List ZArith NArith Lia Bool Arith Permutation.
From Verif Require Import Spec LinAlg Cone Bits ListUtil FmeCore Gauss FmePure FmeReduce.
Import ListNotations.
Open Scope Z_scope.

(** ** Dual bases *)
Definition dual_bases (d : nat) (R W : list vec) : Prop :=
  length R = d /\ length W = d /\
  (forall i j, (i < d)%nat -> (j < d)%nat -> i <> j -> dot (nth i R []) (nth j W []) = 0) /\
  (forall i, (i < d)%nat -> dot (nth i R []) (nth i W []) < 0).

Lemma dual_bases_sym d R W : dual_bases d R W -> dual_bases d W R.
Proof.
  intros (H1 & H2 & H3 & H4). split; [auto|]. split; [auto|]. split.
  - intros i j Hi Hj Hne. rewrite dot_comm. apply H3; auto.
  - intros i Hi. rewrite dot_comm. auto.
Qed.

Lemma dual_bases_coeff d m R W cs i : dual_bases d R W -> dims m W -> length cs = d -> (i < d)%nat ->
  dot (lincomb m cs W) (nth i R []) = nth i cs 0 * dot (nth i R []) (nth i W []).
Proof.
  intros (H1 & H2 & H3 & H4) HW Hc Hi. rewrite dot_lincomb_l by auto.
  assert (E : map (fun v => dot v (nth i R [])) W = unit_vec d i (dot (nth i R []) (nth i W []))).
  { apply (vec_ext_nth d); [rewrite map_length; auto|apply unit_vec_length|]. intros j Hj.
    rewrite (nth_map' _ W j []) by lia. unfold unit_vec. rewrite nth_upd, vzero_length, nth_vzero.
    destruct (Nat.eqb_spec j i) as [->|Hne]; cbn [andb].
    - destruct (Nat.ltb_spec i d); [apply dot_comm|lia].
    - rewrite dot_comm. apply H3; auto. }
  rewrite E, dot_comm, dot_unit by auto. lia.
Qed.

Lemma dual_bases_independent d m R W : dual_bases d R W -> dims m W -> independent m W.
Proof.
  intros D HW cs Hc E. apply Forall_forall. intros c Hin. apply In_nth with (d := 0) in Hin.
  destruct Hin as (i & Hi & <-). destruct D as (H1 & H2 & H3 & H4).
  assert (Hid : (i < d)%nat) by lia.
  assert (Hd := dual_bases_coeff d m R W cs i (conj H1 (conj H2 (conj H3 H4))) HW ltac:(lia) Hid).
  rewrite E, dot_vzero_l in Hd. specialize (H4 i Hid). nia.
Qed.

Lemma independent_length n V : dims n V -> independent n V -> (length V <= n)%nat.
Proof.
  intros HV Hi. destruct (le_lt_dec (length V) n) as [H|H]; auto. exfalso.
  destruct (underdetermined (length V) (map (fun j => colv j V) (seq 0 n))) as (y & Hy & Hyn & Hyz).
  - apply Forall_forall. intros v Hv. apply in_map_iff in Hv. destruct Hv as (j & <- & _). apply colv_length.
  - rewrite map_length, seq_length. auto.
  - apply Hyn. assert (E : lincomb n y V = vzero n).
    { apply (vec_ext_nth n); auto using vzero_length, lincomb_length. intros j Hj.
      rewrite nth_lincomb, nth_vzero by auto. apply Hyz. apply in_map_iff. exists j; split; auto. apply in_seq; lia. }
    specialize (Hi y Hy E). rewrite Forall_forall in Hi. apply (vec_ext_nth (length V)); auto using vzero_length.
    intros j Hj. rewrite nth_vzero. apply Hi. apply nth_In. lia.
Qed.

Lemma NoDup_app_l {A} (l l' : list A) : NoDup (l ++ l') -> NoDup l.
Proof.
  induction l as [|x l IH]; cbn [app]; intros H; [constructor|]. inversion H as [|? ? Hn Hd]; subst.
  constructor; auto. intros Hx. apply Hn, in_app_iff; auto.
Qed.
Lemma NoDup_app_r {A} (l l' : list A) : NoDup (l ++ l') -> NoDup l'.
Proof. induction l as [|x l IH]; cbn [app]; intros H; auto. inversion H; auto. Qed.

(** ** The initial system satisfies the elimination invariant *)
Lemma pairwise_of_NoDup {A} (R : A -> A -> Prop) l : NoDup l ->
  (forall x y, In x l -> In y l -> x <> y -> R x y) -> pairwise R l.
Proof.
  induction 1 as [|x l Hn Hd IH]; intros H; cbn [pairwise]; auto. split.
  - apply Forall_forall. intros y Hy. apply H; cbn [In]; auto. intros ->; auto.
  - apply IH. intros a b Ha Hb. apply H; cbn [In]; auto.
Qed.

Lemma inv_perm n Vs sys sys' : Permutation sys sys' -> inv n Vs sys -> inv n Vs sys'.
Proof.
  intros P I.
  assert (Hin : forall e, In e sys' -> In e sys) by (intros e He; apply (Permutation_in _ (Permutation_sym P)); auto).
  assert (Hin' : forall e, In e sys -> In e sys') by (intros e He; apply (Permutation_in _ P); auto).
  constructor; try (intros e He; apply I; auto).
  - intros x Hx Hz. destruct (inv_covers _ _ _ I x Hx Hz) as (g & Hg & Hs). exists g; split; auto.
    apply (Permutation_in _ (Permutation_map fst P)); auto.
  - apply (pairwise_perm incomparable sys); auto using incomparable_sym. apply I.
  - intros x Hx Hr. apply (inv_primal _ _ _ I); auto.
Qed.

Lemma initial_bits_spec row W d j :
  N.testbit (initial_bits row W d) (N.of_nat j) = (j <? d)%nat && (dot row (nth j W []) <? 0).
Proof.
  unfold initial_bits. induction d as [|d IH].
  - cbn [seq fold_left]. rewrite N.bits_0. reflexivity.
  - rewrite seq_S, fold_left_app. cbn [fold_left plus].
    set (b := fold_left _ (seq 0 d) 0%N) in *.
    destruct (Z.ltb_spec (dot row (nth d W [])) 0) as [H|H].
    + rewrite N.setbit_eqb, IH. destruct (Nat.eq_dec j d) as [->|Hne].
      * rewrite N.eqb_refl. cbn [orb]. destruct (Nat.ltb_spec d (S d)); [|lia]. cbn [andb].
        symmetry. apply Z.ltb_lt; auto.
      * destruct (N.eqb_spec (N.of_nat d) (N.of_nat j)); [lia|]. cbn [orb].
        destruct (Nat.ltb_spec j d), (Nat.ltb_spec j (S d)); try lia; reflexivity.
    + rewrite IH. destruct (Nat.eq_dec j d) as [->|Hne].
      * destruct (Nat.ltb_spec d d); [lia|]. destruct (Nat.ltb_spec d (S d)); [|lia]. cbn [andb].
        destruct (Z.ltb_spec (dot row (nth d W [])) 0); auto; lia.
      * destruct (Nat.ltb_spec j d), (Nat.ltb_spec j (S d)); try lia; reflexivity.
Qed.

Lemma initial_bits_marks row W d : (d <= length W)%nat ->
  marks (fun v => dot row v < 0) (firstn d W) (initial_bits row W d).
Proof.
  intros Hd j. rewrite initial_bits_spec, andb_true_iff, Nat.ltb_lt, Z.ltb_lt. split.
  - intros (Hj & H). exists (nth j W []). split; auto.
    rewrite <- (firstn_skipn d W) at 2.
    rewrite (nth_error_nth' (firstn d W) []) by (rewrite firstn_length; lia).
    rewrite app_nth1 by (rewrite firstn_length; lia). reflexivity.
  - intros (v & E & Hv).
    assert (Hj : (j < length (firstn d W))%nat) by (apply nth_error_Some; congruence).
    rewrite firstn_length in Hj. split; [lia|].
    apply nth_error_nth with (d := []) in E.
    rewrite <- (firstn_skipn d W). rewrite app_nth1 by (rewrite firstn_length; lia). rewrite E. auto.
Qed.

Lemma initial_inv d R R0 W : dual_bases d R0 (firstn d W) -> Permutation R0 R -> dims d R0 -> dims d W ->
  (d <= length W)%nat -> (forall r, In r R0 -> primitive r) ->
  inv d (firstn d W) (initial_system R W) /\ pointed d (firstn d W).
Proof.
  intros D P HR HW Hlen Hprim.
  set (W0 := firstn d W) in *.
  assert (HW0 : dims d W0).
  { apply (dims_incl d _ W); auto. intros v Hv. rewrite <- (firstn_skipn d W). apply in_app_iff; auto. }
  assert (D' := D). destruct D as (L1 & L2 & Hoff & Hdiag).
  assert (Hi : independent d W0) by (apply (dual_bases_independent d d R0); auto).
  assert (Hp : pointed d W0).
  { intros a Ha Hv. apply (kernel_of_independent d W0); auto. }
  split; [|exact Hp].
  assert (Hlr : length R = d) by (rewrite <- (Permutation_length P); auto).
  unfold initial_system. rewrite Hlr.
  apply (inv_perm d W0 (map (fun row => (row, initial_bits row W d)) R0)).
  { apply Permutation_map; auto. }
  assert (Hent : forall e, In e (map (fun row => (row, initial_bits row W d)) R0) ->
            exists i, (i < d)%nat /\ e = (nth i R0 [], initial_bits (nth i R0 []) W d)).
  { intros e He. apply in_map_iff in He. destruct He as (r & <- & Hr).
    apply In_nth with (d := []) in Hr. destruct Hr as (i & Hi' & <-). exists i; split; auto; lia. }
  assert (HinR : forall i, (i < d)%nat -> In (nth i R0 []) R0) by (intros i Hi'; apply nth_In; lia).
  assert (HinW : forall i, (i < d)%nat -> In (nth i W0 []) W0) by (intros i Hi'; apply nth_In; lia).
  assert (Hval : forall i, (i < d)%nat -> valid W0 (nth i R0 [])).
  { intros i Hi' v Hv. apply In_nth with (d := []) in Hv. destruct Hv as (j & Hj & <-). rewrite L2 in Hj.
    destruct (Nat.eq_dec i j) as [->|Hne]; [specialize (Hdiag j Hj); lia|rewrite Hoff; auto; lia]. }
  constructor.
  - intros e He. destruct (Hent e He) as (i & Hi' & ->). cbn [fst]. apply (dims_in d R0); auto.
  - intros e He. destruct (Hent e He) as (i & Hi' & ->). cbn [fst]. auto.
  - intros e He. destruct (Hent e He) as (i & Hi' & ->). cbn [fst]. exists (nth i W0 []). split; auto.
    specialize (Hdiag i Hi'). lia.
  - intros e He. destruct (Hent e He) as (i & Hi' & ->). cbn [fst]. auto.
  - intros e He. destruct (Hent e He) as (i & Hi' & ->). cbn [fst snd]. apply initial_bits_marks; auto.
  - intros x (Hx & Hxv) (v & Hv & Hne). apply In_nth with (d := []) in Hv. destruct Hv as (j & Hj & <-). rewrite L2 in Hj.
    exists (nth j R0 []). split.
    + rewrite map_map, map_id. auto.
    + intros w Hw E. apply In_nth with (d := []) in Hw. destruct Hw as (i & Hi' & <-). rewrite L2 in Hi'.
      destruct (Nat.eq_dec j i) as [->|Hji]; [congruence|]. apply Hoff; auto.
  - apply pairwise_of_NoDup.
    + apply FinFun.Injective_map_NoDup.
      { intros a b E. congruence. }
      apply (NoDup_nth R0 []). intros i j Hi' Hj E. rewrite L1 in *.
      destruct (Nat.eq_dec i j) as [|Hne]; auto. exfalso.
      assert (H1 := Hdiag i Hi'). rewrite E, Hoff in H1; auto. lia.
    + intros e e' He He' Hne. destruct (Hent e He) as (i & Hi' & ->). destruct (Hent e' He') as (j & Hj & ->).
      assert (Hij : i <> j) by (intros ->; auto).
      assert (Hnb : forall i j, (i < d)%nat -> (j < d)%nat -> i <> j ->
                ~ bsub (initial_bits (nth i R0 []) W d) (initial_bits (nth j R0 []) W d)).
      { intros i0 j0 Hi0 Hj0 Hij0 Hs.
        rewrite (marks_sub (fun v => dot (nth i0 R0 []) v < 0) (fun v => dot (nth j0 R0 []) v < 0) W0) in Hs
          by (apply initial_bits_marks; auto).
        specialize (Hs (nth i0 W0 []) (HinW i0 Hi0) (Hdiag i0 Hi0)). rewrite Hoff in Hs; auto. lia. }
      split; cbn [snd]; apply Hnb; auto.
  - intros x Hx Hr.
    destruct (span_of_independent d W0 HW0 L2 Hi x Hx) as (k & cs & Hk & Hcl & E).
    exists k, cs. split; [auto|]. split; [auto|]. split; [|exact E].
    apply Forall_forall. intros c Hc. apply In_nth with (d := 0) in Hc. destruct Hc as (i & Hi' & <-).
    rewrite Hcl, L2 in Hi'.
    assert (Hco := dual_bases_coeff d d R0 W0 cs i D' HW0 ltac:(lia) Hi').
    rewrite <- E, dot_vscale_l in Hco.
    assert (Hrx : dot (nth i R0 []) x <= 0).
    { apply (Hr (nth i R0 [], initial_bits (nth i R0 []) W d)). apply in_map_iff. exists (nth i R0 []); auto. }
    rewrite dot_comm in Hrx. specialize (Hdiag i Hi'). nia.
Qed.

(** ** Entries surviving the erased columns *)
Lemma er_entries zc r x : desc zc -> (forall c, In c zc -> (c < length r)%nat) ->
  (forall c, In c zc -> nth c r 0 = 0) -> In x r -> x = 0 \/ In x (er zc r).
Proof.
  revert r. induction zc as [|c zc IH]; cbn [desc er fold_left]; intros r Hd Hb Hz Hx; auto.
  destruct Hd as (H1 & H2). assert (Hc := Hb c (or_introl eq_refl)).
  apply (Permutation_in _ (erase_perm r c 0 Hc)) in Hx. destruct Hx as [<-|Hx].
  - left. apply Hz; left; auto.
  - apply IH; auto.
    + intros y Hy. rewrite erase_length by auto. specialize (H1 y Hy). lia.
    + intros y Hy. rewrite nth_erase. specialize (H1 y Hy). destruct (Nat.ltb_spec y c); [|lia]. apply Hz; right; auto.
Qed.

(** ** Summary of the preparation *)
Record prep_ok (n : nat) (V : list vec) (p : prepared) : Prop := {
  po_desc : desc (p_zero p);
  po_zero : forall c, In c (p_zero p) -> (c < n)%nat;
  po_dim : (length (p_zero p) + length (p_matrix p) = n)%nat;
  po_eqs_dim : dims n (p_eqs p);
  po_eqs_van : forall e, In e (p_eqs p) -> vanishes V e;
  po_eqs_len : length (p_eqs p) = length (p_zero p);
  po_forms : forall b, length b = n -> exists k b', 0 < k /\ length b' = length (p_matrix p) /\
     forall v, length v = n -> (forall e, In e (p_eqs p) -> dot e v = 0) -> k * dot b v = dot b' (er (p_zero p) v);
  po_eqs_span : forall b, length b = n -> vanishes V b -> in_span n (p_eqs p) b;
  po_eqs_lead : forall i, (i < length (p_eqs p))%nat -> exists z, In z (p_zero p) /\
     0 < nth z (nth i (p_eqs p) []) 0 /\
     (forall c, (c < z)%nat -> nth c (nth i (p_eqs p) []) 0 = 0) /\
     (forall j, (j < length (p_eqs p))%nat -> j <> i -> nth z (nth j (p_eqs p) []) 0 = 0);
  po_eqs_prim : forall e, In e (p_eqs p) -> primitive e;
  po_vertices : Permutation (p_vertices p) (map (er (p_zero p)) V);
  po_len : (length (p_matrix p) <= length (p_vertices p))%nat;
  po_pointed : pointed (length (p_matrix p)) (firstn (length (p_matrix p)) (p_vertices p));
  po_inv : inv (length (p_matrix p)) (firstn (length (p_matrix p)) (p_vertices p))
             (initial_system (p_matrix p) (p_vertices p));
  po_last : forall v, In (n - 1)%nat (p_zero p) -> In v V -> nth (n - 1) v 0 = 0
}.

Section Prepare.
  Variables (n : nat) (V : list vec).
  Hypothesis HV : dims n V.

  Lemma sub_sorted_desc (l : list (nat * nat)) :
    (forall p1 p2 l1 l2 l3, l = l1 ++ p1 :: l2 ++ p2 :: l3 -> (fst p1 < fst p2)%nat) -> desc (rev (map fst l)).
  Proof.
    induction l as [|p l IH] using rev_ind; intros H; [exact I|].
    rewrite map_app. cbn [map]. rewrite rev_app_distr. cbn [rev app desc]. split.
    - intros y Hy. apply in_rev, in_map_iff in Hy. destruct Hy as (q & <- & Hq).
      apply in_split in Hq. destruct Hq as (l1 & l2 & ->).
      apply (H q p l1 l2 []). rewrite <- app_assoc. reflexivity.
    - apply IH. intros p1 p2 l1 l2 l3 E. apply (H p1 p2 l1 l2 (l3 ++ [p])). rewrite E.
      rewrite <- app_assoc. cbn [app]. rewrite <- app_assoc. reflexivity.
  Qed.

  Lemma desc_rev_filter (f : nat * nat -> bool) l : desc (rev (map fst l)) -> desc (rev (map fst (filter f l))).
  Proof.
    induction l as [|p l IH] using rev_ind; intros H; [exact I|].
    rewrite map_app in H. cbn [map] in H. rewrite rev_app_distr in H. cbn [rev app desc] in H. destruct H as (H1 & H2).
    rewrite filter_app. cbn [filter]. destruct (f p).
    - rewrite map_app. cbn [map]. rewrite rev_app_distr. cbn [rev app desc]. split; [|apply IH; auto].
      intros y Hy. apply H1. apply in_rev in Hy. rewrite <- in_rev. apply in_map_iff in Hy. destruct Hy as (q & <- & Hq).
      apply filter_In in Hq. apply in_map. tauto.
    - rewrite app_nil_r. apply IH; auto.
  Qed.

  Theorem prepare_ok : prep_ok n V (prepare n V).
  Proof.
    unfold prepare. assert (G := gauss_correct n V HV). destruct (gauss n V) as (M, piv). cbn [fst snd] in G.
    set (t := length V) in *.
    assert (C := r_c _ _ _ _ G).
    assert (R := c_rect _ _ _ C). fold t in R. destruct R as (Rl & Rd).
    set (bt := fun j => bot V j M).
    assert (Hbt : forall j, length (bt j) = n) by (intros j; apply bot_length; split; auto).
    assert (EB : transpose n (skipn t M) = map bt (seq 0 n)).
    { unfold transpose. apply map_ext. intros j. unfold bt, bot, colv. symmetry. apply skipn_map. }
    rewrite EB.
    set (pe := filter (fun p => (t <=? fst p)%nat) piv).
    set (pu := filter (fun p => (fst p <? t)%nat) piv).
    assert (Epiv : Permutation (pe ++ pu) piv).
    { unfold pe, pu. clear. induction piv as [|p piv IH]; cbn [filter app]; auto.
      destruct (Nat.leb_spec t (fst p)), (Nat.ltb_spec (fst p) t); try lia; cbn [app].
      - constructor; auto.
      - rewrite <- Permutation_middle. constructor; auto. }
    assert (Ecols : Permutation (map snd pe ++ map snd pu) (seq 0 n)).
    { rewrite <- map_app. rewrite (Permutation_map snd Epiv). apply (r_cols _ _ _ _ G). }
    assert (Hnd : NoDup (map snd pe ++ map snd pu)).
    { apply (Permutation_NoDup (Permutation_sym Ecols)). apply seq_NoDup. }
    assert (Hpe : forall p, In p pe <-> In p piv /\ (t <= fst p)%nat).
    { intros p. unfold pe. rewrite filter_In, Nat.leb_le. tauto. }
    assert (Hpu : forall p, In p pu <-> In p piv /\ (fst p < t)%nat).
    { intros p. unfold pu. rewrite filter_In, Nat.ltb_lt. tauto. }
    assert (Hcol : forall p, In p piv -> (snd p < n)%nat).
    { intros p Hp. assert (Hi : In (snd p) (seq 0 n)).
      { apply (Permutation_in _ (r_cols _ _ _ _ G)). apply in_map; auto. }
      apply in_seq in Hi. lia. }
    change (eq_columns t piv) with (map snd pe). change (used_rows t piv) with (map fst pu).
    set (idx := sort_desc (map snd pe)).
    assert (Hidx : Permutation idx (map snd pe)) by apply sort_desc_perm.
    assert (Hdesc : desc idx).
    { apply sort_desc_desc. apply NoDup_app_l in Hnd; auto. }
    destruct (extract_rows_spec (map bt (seq 0 n)) idx Hdesc) as (Eeqs & Eperm & Elen).
    { intros i Hi. rewrite map_length, seq_length. apply (Permutation_in _ Hidx) in Hi.
      apply in_map_iff in Hi. destruct Hi as (p & <- & Hp). apply Hcol, Hpe; auto. }
    destruct (extract_rows (map bt (seq 0 n)) idx) as (eqs, rest). cbn [fst snd] in *.
    assert (Eeqs' : eqs = map bt idx).
    { rewrite Eeqs. apply map_ext_in. intros i Hi.
      assert (Hin : (i < n)%nat).
      { apply (Permutation_in _ Hidx) in Hi. apply in_map_iff in Hi. destruct Hi as (p & <- & Hp). apply Hcol, Hpe; auto. }
      rewrite (nth_map' bt _ i 0%nat) by (rewrite seq_length; auto). rewrite seq_nth; auto. }
    assert (Erest : Permutation rest (map bt (map snd pu))).
    { apply (Permutation_app_inv_l eqs). rewrite Eperm, Eeqs'.
      rewrite (Permutation_map bt Hidx). rewrite <- map_app. apply Permutation_map. symmetry. exact Ecols. }
    assert (Hrdim : dims n rest).
    { apply Forall_forall. intros r Hr. apply (Permutation_in _ Erest) in Hr. apply in_map_iff in Hr.
      destruct Hr as (j & <- & _). apply Hbt. }
    (* facts on pivots *)
    assert (Htop : forall p j, In p piv -> (fst p < t)%nat -> (j < n)%nat ->
              dot (nth (fst p) V []) (bt j) = - mget M (fst p) j).
    { intros p j Hp Hlt Hj. rewrite (c_top _ _ _ C) by auto. unfold bt. lia. }
    assert (Hzrow : forall p j, In p pe -> (j < n)%nat -> j <> snd p -> nth (fst p - t) (bt j) 0 = 0).
    { intros p j Hp Hj Hne. apply Hpe in Hp. destruct Hp as (Hp & Hge).
      unfold bt, bot. rewrite nth_skipn. replace (length V + (fst p - t))%nat with (fst p) by (fold t; lia).
      assert (Hr := r_rows _ _ _ _ G p Hp). fold t in Hr.
      rewrite <- mget_colv by lia. apply (r_off _ _ _ _ G); auto. }
    assert (Hsame : forall p q, In p piv -> In q piv -> snd p = snd q -> p = q).
    { intros p q Hp Hq E. assert (Hn : NoDup (map snd piv)).
      { apply (Permutation_NoDup (Permutation_sym (r_cols _ _ _ _ G))), seq_NoDup. }
      clear - Hp Hq E Hn. induction piv as [|x l IH]; [destruct Hp|]. cbn [map] in Hn.
      inversion Hn as [|? ? Hnin Hn']; subst. destruct Hp as [->|Hp], Hq as [->|Hq]; auto.
      - exfalso. apply Hnin. rewrite E. apply in_map; auto.
      - exfalso. apply Hnin. rewrite <- E. apply in_map; auto. }
    assert (Hvan : forall p, In p pe -> vanishes V (bt (snd p))).
    { intros p Hp v Hv. apply Hpe in Hp. destruct Hp as (Hp & Hge).
      apply In_nth with (d := []) in Hv. destruct Hv as (k & Hk & <-).
      assert (Hz := r_ech _ _ _ _ G p k Hp ltac:(fold t in Hk; lia)).
      rewrite (c_top _ _ _ C) in Hz; auto. rewrite dot_comm. unfold bt. lia. }
    (* eliminated columns *)
    assert (Hzs := eliminate_zero_columns_spec n rest V Hrdim).
    destruct (eliminate_zero_columns n rest V) as ((M', V'), zc). destruct Hzs as (Dz & Hz & EM & EV).
    set (d := length pu).
    assert (Hrl : length rest = d) by (rewrite (Permutation_length Erest), !map_length; auto).
    assert (Hned : (length pe + d = n)%nat).
    { unfold d. assert (H := Permutation_length Ecols). rewrite app_length, !map_length, seq_length in H. lia. }
    assert (Hzin : forall p, In p pe -> In (fst p - t)%nat zc).
    { intros p Hp. apply Hz. assert (Hp' := Hp). apply Hpe in Hp'. destruct Hp' as (Hpp & Hge).
      assert (Hr := r_rows _ _ _ _ G p Hpp). fold t in Hr. split; [lia|].
      intros r Hrin. apply (Permutation_in _ Erest) in Hrin. apply in_map_iff in Hrin. destruct Hrin as (j & <- & Hj).
      apply in_map_iff in Hj. destruct Hj as (q & <- & Hq). apply Hpu in Hq. destruct Hq as (Hq & Hlt).
      apply Hzrow; auto. intros E. apply Hsame in E; auto. subst q. lia. }
    assert (Hsorted : desc (rev (map fst piv))) by (apply sub_sorted_desc; apply (r_sorted _ _ _ _ G)).
    assert (Hpend : NoDup (map (fun p : nat * nat => (fst p - t)%nat) pe)).
    { assert (Hn : NoDup (map fst pe)).
      { apply (Permutation_NoDup (Permutation_sym (Permutation_rev (map fst pe)))). apply desc_NoDup.
        apply desc_rev_filter; auto. }
      assert (Hge : forall p, In p pe -> (t <= fst p)%nat) by (intros p Hp; apply Hpe in Hp; tauto).
      clear - Hn Hge. induction pe as [|p l IH]; cbn [map] in *; [constructor|].
      inversion Hn as [|? ? Hnin Hn']; subst. constructor.
      - intros Hin. apply in_map_iff in Hin. destruct Hin as (q & E & Hq). apply Hnin. apply in_map_iff.
        exists q; split; auto. assert (H1 := Hge p (or_introl eq_refl)). assert (H2 := Hge q (or_intror Hq)). lia.
      - apply IH; auto. intros q Hq. apply Hge; right; auto. }
    assert (Hzlen1 : (length pe <= length zc)%nat).
    { rewrite <- (map_length (fun p : nat * nat => (fst p - t)%nat) pe). apply NoDup_incl_length; auto.
      intros c Hc. apply in_map_iff in Hc. destruct Hc as (p & <- & Hp). auto. }
    assert (Hzb : forall c, In c zc -> (c < n)%nat) by (intros c Hc; apply Hz in Hc; tauto).
    assert (Hzn : (length zc <= n)%nat) by (apply desc_bound; auto).
    assert (Herl : forall v, length v = n -> length (er zc v) = (n - length zc)%nat).
    { intros v Hv. rewrite er_length; auto; rewrite Hv; auto. }
    (* aligned dual bases *)
    set (pr := rev pu).
    set (R0 := map (fun p => er zc (bt (snd p))) pr).
    set (W0 := map (fun p => er zc (nth (fst p) V [])) pr).
    assert (Hprl : length pr = d) by (unfold pr; rewrite rev_length; auto).
    assert (Hpri : forall p, In p pr <-> In p pu) by (intros p; unfold pr; rewrite <- in_rev; tauto).
    assert (Hrestin : forall p, In p pu -> In (bt (snd p)) rest).
    { intros p Hp. apply (Permutation_in _ (Permutation_sym Erest)). apply in_map, in_map; auto. }
    assert (Hrz : forall p c, In p pu -> In c zc -> nth c (bt (snd p)) 0 = 0).
    { intros p c Hp Hc. apply Hz in Hc. apply Hc. auto. }
    assert (Hder : forall p v, In p pu -> length v = n -> dot (er zc (bt (snd p))) (er zc v) = dot (bt (snd p)) v).
    { intros p v Hp Hv. apply dot_er; auto; rewrite ?Hbt; auto. }
    assert (Hvdim : forall k, (k < t)%nat -> length (nth k V []) = n).
    { intros k Hk. apply (dims_in n V); auto. apply nth_In; auto. }
    assert (Hdb : dual_bases d R0 W0).
    { split; [unfold R0; rewrite map_length; auto|]. split; [unfold W0; rewrite map_length; auto|].
      assert (Hnth : forall i, (i < d)%nat -> exists p, In p pu /\ nth i R0 [] = er zc (bt (snd p)) /\
                nth i W0 [] = er zc (nth (fst p) V []) /\ nth_error pr i = Some p).
      { intros i Hi. destruct (nth_error pr i) as [p|] eqn:E.
        - exists p. split; [apply Hpri; eapply nth_error_In; eauto|].
          assert (Hil : (i < length pr)%nat) by lia.
          apply nth_error_nth with (d := p) in E.
          unfold R0, W0. rewrite !(nth_map' _ pr i p) by auto. rewrite E. auto.
        - apply nth_error_None in E. lia. }
      split.
      - intros i j Hi Hj Hne. destruct (Hnth i Hi) as (p & Hp & -> & _ & Ei). destruct (Hnth j Hj) as (q & Hq & _ & -> & Ej).
        assert (Hq' := Hq). apply Hpu in Hq'. destruct Hq' as (Hqp & Hqt).
        assert (Hp' := Hp). apply Hpu in Hp'. destruct Hp' as (Hpp & Hpt).
        rewrite Hder by auto. rewrite dot_comm, Htop by auto.
        rewrite (r_off _ _ _ _ G); auto. intros E. apply Hsame in E; auto. subst q.
        assert (Hnd' : NoDup pr).
        { unfold pr. apply (Permutation_NoDup (Permutation_rev pu)). apply NoDup_app_r in Hnd.
          apply (NoDup_map_inv snd). auto. }
        apply Hne. apply (proj1 (NoDup_nth_error pr) Hnd'); [lia|congruence].
      - intros i Hi. destruct (Hnth i Hi) as (p & Hp & -> & -> & _).
        assert (Hp' := Hp). apply Hpu in Hp'. destruct Hp' as (Hpp & Hpt).
        rewrite Hder by auto. rewrite dot_comm, Htop by auto.
        assert (Hd := r_diag _ _ _ _ G p Hpp). lia. }
    assert (HR0 : dims (n - length zc) R0).
    { apply Forall_forall. intros r Hr. apply in_map_iff in Hr. destruct Hr as (p & <- & _). auto. }
    assert (Hdle : (d <= n - length zc)%nat).
    { assert (Hind := dual_bases_independent d (n - length zc) W0 R0 (dual_bases_sym _ _ _ Hdb) HR0).
      apply independent_length in Hind; auto. unfold R0 in Hind. rewrite map_length, Hprl in Hind. auto. }
    assert (Ezl : length zc = length pe) by lia.
    assert (Edz : (n - length zc)%nat = d) by lia.
    rewrite Edz in *.
    (* vertices *)
    assert (HtuT : desc (rev (map fst pu))) by (apply desc_rev_filter; auto).
    assert (HVl : length V' = t) by (rewrite EV, map_length; auto).
    destruct (take_used_spec V' (map fst pu) HtuT) as (restv & Etu & Ptu).
    { intros i Hi. apply in_map_iff in Hi. destruct Hi as (p & <- & Hp). apply Hpu in Hp. lia. }
    assert (Eused : map (fun i => nth i V' []) (rev (map fst pu)) = W0).
    { unfold W0, pr. rewrite <- map_rev, map_map. apply map_ext_in. intros p Hp. apply in_rev in Hp.
      rewrite EV. apply nth_map'. apply Hpu in Hp. tauto. }
    rewrite Eused in Etu. set (W := take_used V' (map fst pu)) in *.
    assert (HW0l : length W0 = d) by (unfold W0; rewrite map_length; auto).
    assert (EfW : firstn d W = W0).
    { rewrite Etu, <- HW0l. apply firstn_app_exact || (rewrite firstn_app, Nat.sub_diag, firstn_all; cbn [firstn]; apply app_nil_r). }
    assert (HWd : dims d W).
    { apply Forall_forall. intros v Hv. apply (Permutation_in _ Ptu) in Hv. rewrite EV in Hv.
      apply in_map_iff in Hv. destruct Hv as (v' & <- & Hv). rewrite Herl; auto. apply (dims_in n V); auto. }
    assert (HdW : (d <= length W)%nat) by (rewrite Etu, app_length; lia).
    assert (EM' : length M' = d) by (rewrite EM, map_length; auto).
    assert (PR : Permutation R0 M').
    { rewrite EM, Erest. unfold R0, pr. rewrite map_rev, <- Permutation_rev, !map_map. reflexivity. }
    assert (Hprim : forall c, (c < n)%nat -> primitive (bt c)).
    { intros c Hc g Hg0 Hg. assert (Hg1 := c_gcd _ _ _ C c Hc).
      assert (Hdiv : (g | rgcd (colv c M))).
      { apply rgcd_greatest. intros x Hx. apply In_nth with (d := 0) in Hx. destruct Hx as (k & Hk & <-).
        rewrite colv_length in Hk. destruct (lt_dec k t) as [Hlt|Hge].
        - rewrite <- mget_colv by auto. rewrite (c_top _ _ _ C) by auto. apply Z.divide_opp_r.
          fold (bt c). clear - Hg. revert Hg. generalize (nth k V []) as v. induction (bt c) as [|y l IH]; intros v Hg.
          + rewrite dot_comm. apply Z.divide_0_r.
          + destruct v as [|z v]; [apply Z.divide_0_r|]. cbn [dot]. apply Z.divide_add_r.
            * apply Z.divide_mul_r. apply Hg; left; auto.
            * apply IH. intros x Hx. apply Hg; right; auto.
        - apply Hg. unfold bt, bot. replace k with (length V + (k - t))%nat by (fold t; lia).
          rewrite <- nth_skipn. apply nth_In. rewrite skipn_length, colv_length. fold t. lia. }
      rewrite Hg1 in Hdiv. apply Z.divide_1_r_nonneg in Hdiv; auto. }
    assert (HprimR : forall r, In r R0 -> primitive r).
    { intros r Hr g Hg0 Hg. apply in_map_iff in Hr. destruct Hr as (p & <- & Hp). apply Hpri in Hp.
      assert (Hp' := Hp). apply Hpu in Hp'. apply (Hprim (snd p)); [apply Hcol; tauto|auto|].
      intros x Hx. destruct (er_entries zc (bt (snd p)) x) as [->|Hx']; auto.
      - intros c Hc. rewrite Hbt; auto.
      - apply Z.divide_0_r. }
    destruct (initial_inv d M' R0 W) as (Hinv & Hpt); auto.
    { rewrite EfW; auto. }
    assert (Hsp : forall b, length b = n -> in_span n (map bt (map snd pu) ++ map bt idx) b).
    { intros b Hb. assert (P : Permutation (map bt (map snd pu) ++ map bt idx) (map bt (seq 0 n))).
      { rewrite <- map_app. apply Permutation_map. rewrite Hidx, Permutation_app_comm. auto. }
      apply span_of_independent; auto.
      - apply Forall_forall. intros v Hv. apply (Permutation_in _ P) in Hv. apply in_map_iff in Hv. destruct Hv as (j & <- & _). auto.
      - rewrite (Permutation_length P), map_length, seq_length. auto.
      - apply independent_of_kernel.
        + apply Forall_forall. intros v Hv. apply (Permutation_in _ P) in Hv. apply in_map_iff in Hv. destruct Hv as (j & <- & _). auto.
        + rewrite (Permutation_length P), map_length, seq_length. auto.
        + intros x Hx Hvx. apply (c_ker _ _ _ C); auto. intros j Hj.
          rewrite dot_comm. apply Hvx. apply (Permutation_in _ (Permutation_sym P)).
          apply in_map_iff. exists j; split; auto. apply in_seq; lia. }
    assert (Hdu : dims n (map bt (map snd pu))).
    { apply Forall_forall. intros v Hv. apply in_map_iff in Hv. destruct Hv as (j & <- & _). auto. }
    assert (Hde : dims n (map bt idx)).
    { apply Forall_forall. intros v Hv. apply in_map_iff in Hv. destruct Hv as (j & <- & _). auto. }
    assert (Hlapp : forall cs A B, dims n A -> dims n B -> length cs = length (A ++ B) ->
              lincomb n cs (A ++ B) = vadd (lincomb n (firstn (length A) cs) A) (lincomb n (skipn (length A) cs) B)).
    { clear. intros cs A B HA HB. revert cs. induction HA as [|a A Ha HA IH]; intros cs Hl.
      - cbn [app firstn length skipn lincomb]. rewrite vadd_vzero_l; auto. apply lincomb_length; auto.
      - destruct cs as [|c cs]; [discriminate|]. cbn [app length firstn skipn lincomb] in *.
        rewrite IH by lia. apply vadd_assoc. }
    constructor; cbn [p_eqs p_matrix p_vertices p_zero]; rewrite ?EM'.
    - exact Dz.
    - exact Hzb.
    - lia.
    - rewrite Eeqs'. exact Hde.
    - intros e He. rewrite Eeqs' in He. apply in_map_iff in He. destruct He as (c & <- & Hc).
      apply (Permutation_in _ Hidx) in Hc. apply in_map_iff in Hc. destruct Hc as (p & <- & Hp). auto.
    - rewrite Eeqs', map_length, (Permutation_length Hidx), map_length. lia.
    - intros b Hb. destruct (Hsp b Hb) as (k & cs & Hk & Hcl & E).
      rewrite Hlapp in E by auto.
      set (f := lincomb n (firstn _ cs) _) in E. set (h := lincomb n (skipn _ cs) _) in E.
      assert (Hfl : length f = n) by (apply lincomb_length; auto).
      assert (Hhl : length h = n) by (apply lincomb_length; auto).
      exists k, (er zc f). split; [auto|]. split; [rewrite Herl; auto|].
      intros v Hv Hev.
      assert (Ev : dot (vscale k b) v = dot f v + dot h v) by (rewrite E; apply dot_vadd_l; lia).
      rewrite dot_vscale_l in Ev. rewrite Ev.
      assert (Hh0 : dot h v = 0).
      { unfold h. rewrite dot_lincomb_l by auto.
        replace (map (fun v0 : vec => dot v0 v) (map bt idx)) with (vzero (length idx)); [apply dot_vzero_r|].
        rewrite map_map. unfold vzero. clear - Hev Eeqs'. 
        assert (H : forall c, In c idx -> dot (bt c) v = 0) by (intros c Hc; apply Hev; rewrite Eeqs'; apply in_map; auto).
        clear - H. induction idx as [|c l IH]; cbn [length repeat map]; auto. rewrite H by (left; auto).
        f_equal. apply IH. intros; apply H; right; auto. }
      rewrite Hh0, Z.add_0_r. symmetry. apply dot_er; auto; rewrite ?Hfl; auto.
      intros c Hc. unfold f. rewrite nth_lincomb by auto.
      replace (colv c (map bt (map snd pu))) with (vzero (length pu)); [apply dot_vzero_l|].
      unfold colv. rewrite !map_map. unfold vzero.
      assert (H : forall p, In p pu -> nth c (bt (snd p)) 0 = 0) by (intros p Hp; apply Hrz; auto).
      clear - H. induction pu as [|p l IH]; cbn [length repeat map]; auto. rewrite H by (left; auto).
      f_equal. apply IH. intros; apply H; right; auto.
    - intros b Hb Hvb. destruct (Hsp b Hb) as (k & cs & Hk & Hcl & E).
      rewrite Hlapp in E by auto. exists k, (skipn (length (map bt (map snd pu))) cs).
      split; [auto|]. split; [rewrite Eeqs', skipn_length, Hcl, app_length; lia|].
      rewrite Eeqs'. set (f := lincomb n (firstn _ cs) _) in E. set (h := lincomb n (skipn _ cs) _) in *.
      assert (Hfl : length f = n) by (apply lincomb_length; auto).
      assert (Hhl : length h = n) by (apply lincomb_length; auto).
      assert (Hf0 : f = vzero n); [|rewrite E, Hf0; apply vadd_vzero_l; auto].
      unfold f. apply lincomb_zeros; auto. apply Forall_forall. intros c Hc.
      apply In_nth with (d := 0) in Hc. destruct Hc as (i & Hi & <-).
      assert (Hcsl : length (firstn (length (map bt (map snd pu))) cs) = d).
      { rewrite firstn_length, Hcl, app_length, !map_length. unfold d. lia. }
      rewrite Hcsl in Hi.
      set (p := nth i pu (0, 0)%nat).
      assert (Hp : In p pu) by (apply nth_In; auto).
      assert (Hp' := Hp). apply Hpu in Hp'. destruct Hp' as (Hpp & Hplt).
      assert (Hdu' : dual_bases d (map (fun q => nth (fst q) V []) pu) (map bt (map snd pu))).
      { assert (Hnthp : forall j, (j < d)%nat -> In (nth j pu (0,0)%nat) pu) by (intros; apply nth_In; auto).
        split; [rewrite map_length; auto|]. split; [rewrite !map_length; auto|]. split.
        - intros a b' Ha Hb' Hne.
          rewrite (nth_map' _ pu a (0,0)%nat) by auto. rewrite map_map, (nth_map' _ pu b' (0,0)%nat) by auto.
          assert (H1 := Hnthp a Ha). assert (H2 := Hnthp b' Hb'). apply Hpu in H1. apply Hpu in H2.
          rewrite Htop by (try apply Hcol; tauto). rewrite (r_off _ _ _ _ G); try reflexivity; try tauto; [apply Hcol; tauto|].
          intros Eq. apply Hsame in Eq; try tauto. apply Hne.
          assert (Hnd' : NoDup pu) by (apply NoDup_app_r in Hnd; apply (NoDup_map_inv snd); auto).
          apply (proj1 (NoDup_nth pu (0,0)%nat) Hnd'); auto.
        - intros a Ha. rewrite (nth_map' _ pu a (0,0)%nat) by auto. rewrite map_map, (nth_map' _ pu a (0,0)%nat) by auto.
          assert (H1 := Hnthp a Ha). apply Hpu in H1. rewrite Htop by (try apply Hcol; tauto).
          assert (H3 := r_diag _ _ _ _ G _ (proj1 H1)). lia. }
      assert (Hco := dual_bases_coeff d n _ _ (firstn (length (map bt (map snd pu))) cs) i Hdu' Hdu Hcsl Hi).
      fold f in Hco. 
      assert (Hdiag : dot (nth i (map (fun q => nth (fst q) V []) pu) []) (nth i (map bt (map snd pu)) []) < 0)
        by (apply Hdu'; auto).
      assert (Hin : In (nth i (map (fun q => nth (fst q) V []) pu) []) V).
      { rewrite (nth_map' _ pu i (0,0)%nat) by auto. fold p. apply nth_In; auto. }
      assert (Hf0 : dot f (nth i (map (fun q => nth (fst q) V []) pu) []) = 0).
      { set (v := nth i (map (fun q => nth (fst q) V []) pu) []) in *.
        assert (Ev : dot (vscale k b) v = dot f v + dot h v) by (rewrite E; apply dot_vadd_l; lia).
        rewrite dot_vscale_l, (Hvb v Hin) in Ev.
        assert (Hh0 : dot h v = 0); [|lia].
        unfold h. rewrite dot_lincomb_l by auto.
        replace (map (fun v0 : vec => dot v0 v) (map bt idx)) with (vzero (length idx)); [apply dot_vzero_r|].
        rewrite map_map. unfold vzero.
        assert (H : forall c, In c idx -> dot (bt c) v = 0).
        { intros c Hc. apply (Permutation_in _ Hidx) in Hc. apply in_map_iff in Hc. destruct Hc as (q & <- & Hq).
          apply (Hvan q); auto. }
        clear - H. induction idx as [|c l IH]; cbn [length repeat map]; auto. rewrite H by (left; auto).
        f_equal. apply IH. intros; apply H; right; auto. }
      nia.
    - intros i Hi. rewrite Eeqs', map_length in Hi.
      assert (Hc : In (nth i idx 0%nat) idx) by (apply nth_In; auto).
      apply (Permutation_in _ Hidx) in Hc. apply in_map_iff in Hc. destruct Hc as (p & Ep & Hp).
      assert (Hp' := Hp). apply Hpe in Hp'. destruct Hp' as (Hpp & Hge).
      assert (Hr := r_rows _ _ _ _ G p Hpp). fold t in Hr.
      exists (fst p - t)%nat. split; [auto|].
      assert (Hni : nth i eqs [] = bt (snd p)) by (rewrite Eeqs', (nth_map' bt idx i 0%nat), <- Ep by auto; auto).
      rewrite Hni.
      assert (Hent : forall c j, (c < n)%nat -> nth c (bt j) 0 = mget M (t + c) j).
      { intros c j Hc. unfold bt, bot. rewrite nth_skipn. fold t. rewrite mget_colv by lia. reflexivity. }
      split; [|split].
      + rewrite Hent by lia. replace (t + (fst p - t))%nat with (fst p) by lia. apply (r_diag _ _ _ _ G); auto.
      + intros c Hc. rewrite Hent by lia. apply (r_ech _ _ _ _ G); auto. lia.
      + intros j Hj Hne. rewrite Eeqs', map_length in Hj. rewrite Eeqs', (nth_map' bt idx j 0%nat) by auto.
        apply Hzrow; auto.
        * assert (Hcj : In (nth j idx 0%nat) idx) by (apply nth_In; auto).
          apply (Permutation_in _ Hidx) in Hcj. apply in_map_iff in Hcj. destruct Hcj as (q & <- & Hq).
          apply Hcol. apply Hpe in Hq; tauto.
        * rewrite Ep. intros E. apply Hne. apply (proj1 (NoDup_nth idx 0%nat) (desc_NoDup _ Hdesc)); auto.
    - intros e He. rewrite Eeqs' in He. apply in_map_iff in He. destruct He as (c & <- & Hc).
      apply (Permutation_in _ Hidx) in Hc. apply in_map_iff in Hc. destruct Hc as (p & <- & Hp).
      apply Hprim. apply Hcol. apply Hpe in Hp; tauto.
    - rewrite Ptu, EV. reflexivity.
    - exact HdW.
    - exact Hpt.
    - exact Hinv.
    - intros v Hin Hv.
      assert (Hpz : In (n - 1)%nat (map (fun p : nat * nat => (fst p - t)%nat) pe)).
      { assert (Hi : incl zc (map (fun p : nat * nat => (fst p - t)%nat) pe)); [|auto].
        apply NoDup_length_incl; auto.
        - rewrite map_length. lia.
        - intros c Hc. apply in_map_iff in Hc. destruct Hc as (p & <- & Hp). auto. }
      apply in_map_iff in Hpz. destruct Hpz as (p & Ep & Hp).
      assert (Hp' := Hp). apply Hpe in Hp'. destruct Hp' as (Hpp & Hge).
      assert (Hn0 : (0 < n)%nat) by (apply Hzb in Hin; lia).
      assert (Hv0 := Hvan p Hp v Hv).
      assert (Eb : bt (snd p) = unit_vec n (n - 1) (nth (n - 1) (bt (snd p)) 0)).
      { apply (vec_ext_nth n); auto using unit_vec_length. intros c Hc. unfold unit_vec. rewrite nth_upd, vzero_length, nth_vzero.
        destruct (Nat.eqb_spec c (n - 1)) as [->|Hne]; cbn [andb].
        - destruct (Nat.ltb_spec (n - 1) n); [auto|lia].
        - unfold bt, bot. rewrite nth_skipn. fold t. rewrite <- mget_colv by lia. apply (r_ech _ _ _ _ G); auto. lia. }
      rewrite Eb, dot_unit in Hv0 by (try lia; apply (dims_in n V); auto).
      assert (Hd : nth (n - 1) (bt (snd p)) 0 <> 0).
      { unfold bt, bot. rewrite nth_skipn. fold t. replace (t + (n - 1))%nat with (fst p) by lia.
        assert (Hr := r_rows _ _ _ _ G p Hpp). fold t in Hr. rewrite <- mget_colv by lia.
        assert (Hdg := r_diag _ _ _ _ G p Hpp). lia. }
      nia.
  Qed.
End Prepare.
