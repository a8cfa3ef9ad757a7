(** * Rank: the rank is unique, and rank and facets. *)
From Coq Require Import List ZArith Arith Lia Bool.
From Verif Require Import Base Spec LinAlg ListUtil Cone FmeCore FmePure FmePrepare FmeCorrect Span Samples Adjacency.
Import ListNotations.
Open Scope Z_scope.

(** ** Separation *)
Lemma lincomb_neg n (V : list vec) cs ds : dims n V -> length cs = length V -> length ds = length V ->
  lincomb n (cs ++ ds) (V ++ map (vscale (-1)) V) = lincomb n (map (fun p => fst p - snd p) (combine cs ds)) V.
Proof.
  intros HV Hc Hd. apply (vec_ext_nth n).
  - apply lincomb_length. apply Forall_app. split; auto. apply Forall_forall. intros v Hv. apply in_map_iff in Hv. destruct Hv as (u & <- & Hu).
    rewrite vscale_length. eapply dims_in; eauto.
  - apply lincomb_length; auto.
  - assert (HW : dims n (map (vscale (-1)) V)).
    { apply Forall_forall. intros v Hv. apply in_map_iff in Hv. destruct Hv as (u & <- & Hu). rewrite vscale_length. eapply dims_in; eauto. }
    intros j Hj. rewrite (lincomb_app n cs ds V (map (vscale (-1)) V)) by auto.
    rewrite nth_vadd by (rewrite !lincomb_length; auto). rewrite !nth_lincomb by auto.
    clear HW. revert V HV cs ds Hc Hd. induction V as [|v V IH]; intros HV [|c cs] [|d ds] Hc Hd; cbn [length] in *; try lia; [reflexivity|].
    inversion HV; subst. unfold colv in *. cbn [map dot combine fst snd]. rewrite nth_vscale. specialize (IH H2 cs ds). lia.
Qed.

Lemma separate n B w : dims n B -> length w = n -> (forall b, length b = n -> vanishes B b -> dot b w = 0) -> in_span n B w.
Proof.
  intros HB Hw H. set (C := B ++ map (vscale (-1)) B).
  assert (HN : dims n (map (vscale (-1)) B)).
  { apply Forall_forall. intros v Hv. apply in_map_iff in Hv. destruct Hv as (u & <- & Hu). rewrite vscale_length. eapply dims_in; eauto. }
  assert (HC : dims n C) by (apply Forall_app; auto).
  assert (Hval : forall b, valid C b -> vanishes B b).
  { intros b Hb v Hv. assert (H1 := Hb v ltac:(apply in_app_iff; auto)).
    assert (H2 := Hb (vscale (-1) v) ltac:(apply in_app_iff; right; apply in_map; auto)). rewrite dot_vscale_r in H2. lia. }
  assert (Hc : in_cone n C w).
  { apply (all_rows_describe sorted_order sorted_order_ok n C HC w Hw). split.
    - intros e He. apply H; [apply (dims_in n (p_eqs (prepare n C))); auto; apply (po_eqs_dim _ _ _ (prepare_ok n C HC))|]. intros v Hv.
      apply (po_eqs_van _ _ _ (prepare_ok n C HC) e He v). apply in_app_iff; auto.
    - intros r Hr. destruct (all_rows_facet sorted_order sorted_order_ok n C HC r Hr) as ((Hl & Hv & _) & _). rewrite H; auto. lia. }
  destruct Hc as (k & cs & Hk & Hl & _ & E). unfold C in *. rewrite app_length, map_length in Hl.
  exists k, (map (fun p => fst p - snd p) (combine (firstn (length B) cs) (skipn (length B) cs))). split; auto.
  assert (L1 : length (firstn (length B) cs) = length B) by (rewrite firstn_length; lia).
  assert (L2 : length (skipn (length B) cs) = length B) by (rewrite skipn_length; lia).
  split; [rewrite map_length, combine_length; lia|].
  rewrite E, <- (firstn_skipn (length B) cs) at 1. apply lincomb_neg; auto.
Qed.

(** ** Steinitz *)
Lemma coefficients n B C : (forall c, In c C -> in_span n B c) ->
  exists K D, length K = length C /\ length D = length C /\ dims (length B) D /\ (forall k, In k K -> 0 < k) /\
    forall i, (i < length C)%nat -> vscale (nth i K 0) (nth i C []) = lincomb n (nth i D []) B.
Proof.
  induction C as [|c C IH]; intros H.
  - exists [], []. repeat split; auto; try constructor; cbn; intros; try lia; try contradiction.
  - destruct IH as (K & D & HK & HD & Hd & Hp & HE); [intros; apply H; right; auto|].
    destruct (H c (or_introl eq_refl)) as (k & cs & Hk & Hl & E).
    exists (k :: K), (cs :: D). cbn [length]. repeat split; auto.
    + constructor; auto.
    + intros k' [<-|]; auto.
    + intros [|i] Hi; cbn [nth]; auto. apply HE. lia.
Qed.

Lemma lincomb_lincomb n B (K : list Z) (C D : list vec) ds :
  dims n B -> dims n C -> dims (length B) D -> length K = length C -> length D = length C -> length ds = length C ->
  (forall i, (i < length C)%nat -> vscale (nth i K 0) (nth i C []) = lincomb n (nth i D []) B) ->
  lincomb n (map (fun p => fst p * snd p) (combine ds K)) C = lincomb n (lincomb (length B) ds D) B.
Proof.
  intros HB. revert K D ds. induction C as [|c C IH]; intros [|k K] [|d D] [|x ds] HC HD L1 L2 L3 HE; cbn [length] in *; try lia.
  - cbn [combine map lincomb]. apply (vec_ext_nth n); [apply vzero_length|apply lincomb_length; auto|]. intros j Hj.
    rewrite nth_vzero, nth_lincomb by auto. rewrite dot_vzero_r. reflexivity.
  - apply Forall_cons_iff in HC as [Hc HC']. apply Forall_cons_iff in HD as [Hd HD']. cbn [combine map lincomb fst snd].
    rewrite (IH K D ds) by (auto; intros i Hi; apply (HE (Datatypes.S i)); lia).
    assert (E := HE 0%nat ltac:(lia)). cbn [nth] in E.
    apply (vec_ext_nth n).
    + apply vadd_length_eq; [rewrite vscale_length; auto|apply lincomb_length; auto].
    + apply lincomb_length; auto.
    + intros j Hj. rewrite nth_vadd by (rewrite vscale_length, lincomb_length; auto). rewrite nth_vscale, !nth_lincomb by auto.
      rewrite dot_vadd_r by (rewrite vscale_length, lincomb_length; auto). rewrite dot_vscale_r.
      assert (E' := f_equal (fun u => nth j u 0) E). cbn beta in E'. rewrite nth_vscale, nth_lincomb in E' by auto.
      rewrite <- E'. ring.
Qed.

Lemma steinitz n B C : dims n B -> dims n C -> independent n C -> (forall c, In c C -> in_span n B c) -> (length C <= length B)%nat.
Proof.
  intros HB HC Hi H. destruct (coefficients n B C H) as (K & D & HK & HD & Hd & Hp & HE).
  rewrite <- HD. apply independent_length; auto. intros ds Hds Hz.
  assert (E := lincomb_lincomb n B K C D ds HB HC Hd HK HD ltac:(lia) HE). rewrite Hz in E.
  assert (E0 : lincomb n (vzero (length B)) B = vzero n).
  { apply (vec_ext_nth n); [apply lincomb_length; auto|apply vzero_length|]. intros j Hj. rewrite nth_vzero, nth_lincomb, dot_vzero_r by auto. reflexivity. }
  rewrite E0 in E. assert (Hlen : length (map (fun p => fst p * snd p) (combine ds K)) = length C) by (rewrite map_length, combine_length; lia).
  assert (Hall := Hi _ Hlen E).
  apply Forall_forall. intros x Hx. destruct (In_nth ds x 0 Hx) as (i & Hil & <-).
  rewrite Forall_forall in Hall.
  assert (Hin : In (nth i ds 0 * nth i K 0) (map (fun p => fst p * snd p) (combine ds K))).
  { apply in_map_iff. exists (nth i ds 0, nth i K 0). split; auto. rewrite <- combine_nth by lia. apply nth_In. rewrite combine_length. lia. }
  apply Hall in Hin. assert (0 < nth i K 0) by (apply Hp, nth_In; lia). nia.
Qed.

Lemma dims_sub n V B : dims n V -> incl B V -> dims n B.
Proof. intros HV Hi. apply Forall_forall. intros b Hb. apply (dims_in n V); auto. Qed.

Lemma rank_unique n V r s : dims n V -> is_rank n V r -> is_rank n V s -> r = s.
Proof.
  intros HV (B & <- & HB & IB & SB) (C & <- & HC & IC & SC).
  assert (DB := dims_sub n V B HV HB). assert (DC := dims_sub n V C HV HC).
  assert (length B <= length C)%nat by (apply (steinitz n); auto). assert (length C <= length B)%nat by (apply (steinitz n); auto). lia.
Qed.

(** An independent set of as many elements as the rank spans. *)
Lemma independent_spans n V C r : dims n V -> is_rank n V r -> incl C V -> independent n C -> length C = r -> forall w, In w V -> in_span n C w.
Proof.
  intros HV (B & HBr & HB & IB & SB) HC IC HCr w Hw. assert (DB := dims_sub n V B HV HB). assert (DC := dims_sub n V C HV HC).
  assert (Hwl := dims_in n V w HV Hw). apply separate; auto. intros b Hb Hvan.
  destruct (Z.eq_dec (dot b w) 0) as [|Hne]; auto. exfalso.
  assert (Hn : ~ in_span n C w) by (intros Hs; apply Hne; rewrite dot_comm; apply (span_vanishes n C w b); auto; intros e He; rewrite dot_comm; auto).
  assert (HI : independent n (C ++ [w])) by (apply independent_snoc; auto).
  assert (length (C ++ [w]) <= length B)%nat; [|rewrite app_length in *; cbn [length] in *; lia].
  apply (steinitz n); auto; [apply Forall_app; auto|]. intros c Hc. apply SB. apply in_app_iff in Hc. destruct Hc as [|[<-|[]]]; auto.
Qed.

(** ** A valid inequality defines a facet iff the rank of the tight generators is one less. *)
Lemma facet_rank n V a r : dims n V -> facet n V a -> is_rank n (tight V a) r -> is_rank n V (Datatypes.S r).
Proof.
  intros HV (Hl & Hv & Hnv & Hf) (B & HBr & HB & IB & SB).
  assert (exists v, In v V /\ dot a v < 0) as (v & Hv1 & Hv2) by (apply (facet_neg n V a); repeat split; auto).
  assert (HBV : incl B V) by (intros b Hb; apply (tight_incl V a), HB; auto). assert (DB := dims_sub n V B HV HBV).
  assert (Hvl := dims_in n V v HV Hv1).
  assert (HBa : forall b, In b B -> dot a b = 0) by (intros b Hb; apply (in_tight V a b), HB; auto).
  assert (Hn : ~ in_span n B v).
  { intros Hs. assert (dot v a = 0); [|rewrite dot_comm in H; lia]. apply (span_vanishes n B); auto. intros e He. rewrite dot_comm; auto. }
  exists (B ++ [v]). split; [rewrite app_length; cbn; lia|]. split.
  { intros b Hb. apply in_app_iff in Hb. destruct Hb as [|[<-|[]]]; auto. }
  split; [apply independent_snoc; auto|]. intros w Hw. assert (DBv : dims n (B ++ [v])) by (apply Forall_app; split; [auto|constructor; auto]). apply separate; [auto|apply (dims_in n V); auto|].
  intros b Hb Hvan. destruct (Hf b Hb) as (k & t & Hk & Hz).
  { intros u Hu Hut. rewrite dot_comm. apply (span_vanishes n B u b); auto.
    - apply SB. apply in_tight. auto.
    - intros e He. rewrite dot_comm. apply Hvan, in_app_iff; auto. }
  assert (E : forall u, In u V -> k * dot b u + t * dot a u = 0).
  { intros u Hu. specialize (Hz u Hu). rewrite dot_vadd_l in Hz by (rewrite !vscale_length; lia). rewrite !dot_vscale_l in Hz. exact Hz. }
  assert (E1 := E v Hv1). rewrite (Hvan v ltac:(apply in_app_iff; cbn; auto)) in E1. assert (t = 0) by nia. subst t.
  specialize (E w Hw). nia.
Qed.

Lemma rank_facet n V a r : dims n V -> length a = n -> valid V a -> is_rank n (tight V a) r -> is_rank n V (Datatypes.S r) -> facet n V a.
Proof.
  intros HV Hl Hv Ht HR. assert (DT := dims_tight n V a HV).
  assert (Hnv : ~ vanishes V a).
  { intros Hz. assert (tight V a = V) as E.
    { clear - Hz. unfold tight. induction V as [|v V IH]; auto. cbn [filter]. rewrite (Hz v (or_introl eq_refl)). cbn. f_equal. apply IH.
      intros u Hu. apply Hz. right; auto. }
    rewrite E in Ht. assert (H := rank_unique n V _ _ HV Ht HR). lia. }
  assert (exists v, In v V /\ dot a v <> 0) as (v & Hv1 & Hv2).
  { destruct (existsb (fun v => negb (dot a v =? 0)) V) eqn:E.
    - apply existsb_exists in E. destruct E as (v & H1 & H2). exists v. split; auto. intros H0. rewrite H0 in H2. discriminate.
    - exfalso. apply Hnv. intros v Hv'. destruct (Z.eqb_spec (dot a v) 0); auto. exfalso.
      assert (existsb (fun v => negb (dot a v =? 0)) V = true); [|congruence]. apply existsb_exists. exists v. split; auto.
      destruct (Z.eqb_spec (dot a v) 0); auto. }
  destruct Ht as (B & HBr & HB & IB & SB).
  assert (HBV : incl B V) by (intros b Hb; apply (tight_incl V a), HB; auto). assert (DB := dims_sub n V B HV HBV).
  assert (Hvl := dims_in n V v HV Hv1).
  assert (HBa : forall b, In b B -> dot a b = 0) by (intros b Hb; apply (in_tight V a b), HB; auto).
  assert (Hn : ~ in_span n B v).
  { intros Hs. apply Hv2. rewrite dot_comm. apply (span_vanishes n B); auto. intros e He. rewrite dot_comm; auto. }
  assert (HS : forall w, In w V -> in_span n (B ++ [v]) w).
  { apply (independent_spans n V _ (Datatypes.S r)); auto.
    - intros b Hb. apply in_app_iff in Hb. destruct Hb as [|[<-|[]]]; auto.
    - apply independent_snoc; auto.
    - rewrite app_length; cbn; lia. }
  repeat split; auto. intros b Hb Hbt. exists (dot a v), (- dot b v). split; auto. intros w Hw.
  rewrite dot_comm. apply (span_vanishes n (B ++ [v])); auto; [apply Forall_app; auto|].
  intros e He. rewrite dot_comm, dot_vadd_l by (rewrite !vscale_length; lia). rewrite !dot_vscale_l.
  apply in_app_iff in He. destruct He as [He|[<-|[]]]; [|ring].
  rewrite (Hbt e), (HBa e); auto. ring.
Qed.
