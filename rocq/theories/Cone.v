(** * Cone: polyhedral cone theory over integer vectors (supports, generators, one elimination step). *)
From Coq Require Import List ZArith Lia Bool Permutation Wf_nat.
From Verif Require Import Spec LinAlg.
Import ListNotations.
Open Scope Z_scope.

(** ** Inductive presentation of generated cones *)
Inductive gen (n : nat) (G : list vec) : vec -> Prop :=
| gen_zero : gen n G (vzero n)
| gen_add g t x : In g G -> 0 <= t -> gen n G x -> gen n G (vadd (vscale t g) x)
| gen_div k x : 0 < k -> length x = n -> gen n G (vscale k x) -> gen n G x.

Lemma gen_length n G x : dims n G -> gen n G x -> length x = n.
Proof.
  intros HG H; induction H as [|g t x Hg Ht H IH|k x Hk Hl H IH]; auto using vzero_length.
  apply vadd_length_eq; auto. rewrite vscale_length. eapply dims_in; eauto.
Qed.

Lemma gen_scale n G x t : dims n G -> 0 <= t -> gen n G x -> gen n G (vscale t x).
Proof.
  intros HG Ht H; induction H as [|g s x Hg Hs H IH|k x Hk Hl H IH].
  - rewrite vscale_vzero; constructor.
  - rewrite vscale_vadd, vscale_vscale. apply gen_add; auto. nia.
  - apply gen_div with (k := k); auto. { rewrite vscale_length; auto. }
    rewrite vscale_vscale, Z.mul_comm, <- vscale_vscale; auto.
Qed.

Lemma gen_plus n G x y : dims n G -> gen n G x -> gen n G y -> gen n G (vadd x y).
Proof.
  intros HG H; revert y; induction H as [|g s x Hg Hs H IH|k x Hk Hl H IH]; intros y Hy.
  - rewrite vadd_vzero_l; auto. eapply gen_length; eauto.
  - rewrite <- vadd_assoc. apply gen_add; auto.
  - apply gen_div with (k := k); auto.
    { apply vadd_length_eq; auto. eapply gen_length; eauto. }
    rewrite vscale_vadd. apply IH. apply gen_scale; auto; lia.
Qed.

Lemma gen_in n G g : dims n G -> In g G -> gen n G g.
Proof.
  intros HG Hg. rewrite <- (vscale_1 g), <- (vadd_vzero_r n (vscale 1 g)).
  - apply gen_add; auto; [lia|constructor].
  - rewrite vscale_length; eapply dims_in; eauto.
Qed.

Lemma gen_trans n G K x : dims n K -> (forall g, In g G -> gen n K g) -> gen n G x -> gen n K x.
Proof.
  intros HK HG H; induction H as [|g s x Hg Hs H IH|k x Hk Hl H IH].
  - constructor.
  - apply gen_plus; auto. apply gen_scale; auto.
  - apply gen_div with (k := k); auto.
Qed.

Lemma lincomb_zeros n V cs : Forall (fun c => c = 0) cs -> dims n V -> lincomb n cs V = vzero n.
Proof.
  intros Hc; revert V; induction Hc as [|c cs Hc0 Hcs IH]; intros V HV; [reflexivity|].
  destruct HV as [|v V Hv HV]; [reflexivity|]. cbn [lincomb]. subst c.
  rewrite IH by auto. rewrite vscale_0, Hv. apply vadd_vzero_l, vzero_length.
Qed.

Lemma lincomb_repeat0 n V m : dims n V -> lincomb n (repeat 0 m) V = vzero n.
Proof. intros; apply lincomb_zeros; auto. apply Forall_forall; intros x Hx; apply repeat_spec in Hx; auto. Qed.

Lemma lincomb_vscale n k cs V : lincomb n (vscale k cs) V = vscale k (lincomb n cs V).
Proof.
  revert V; induction cs as [|c cs IH]; intros [|v V]; cbn [lincomb];
    try (rewrite vscale_vzero; reflexivity).
  change (vscale k (c :: cs)) with (k * c :: vscale k cs). cbn [lincomb].
  rewrite vscale_vadd, vscale_vscale, IH; auto.
Qed.

Lemma lincomb_vadd n cs ds V : length cs = length V -> length ds = length V -> dims n V ->
  lincomb n (vadd cs ds) V = vadd (lincomb n cs V) (lincomb n ds V).
Proof.
  intros Hc Hd HV; revert cs ds Hc Hd; induction HV as [|v V Hv HV IH]; intros [|c cs] [|d ds];
    cbn [length]; intros Hc Hd; try discriminate.
  - cbn [vadd lincomb]. rewrite vadd_vzero_l; auto using vzero_length.
  - cbn [vadd lincomb]. rewrite IH by lia.
    assert (E : vscale (c + d) v = vadd (vscale c v) (vscale d v)).
    { clear. induction v as [|x v IHv]; cbn [vscale map vadd]; auto. f_equal; [lia|exact IHv]. }
    rewrite E. rewrite !vadd_assoc. f_equal.
    rewrite <- !vadd_assoc. f_equal. apply vadd_comm.
Qed.

(** Coefficients selecting one generator. *)
Lemma lincomb_unit n G g t : dims n G -> In g G -> 0 <= t ->
  exists cs, length cs = length G /\ Forall (fun c => 0 <= c) cs /\ lincomb n cs G = vscale t g.
Proof.
  intros HG Hg Ht; induction HG as [|v G Hv HG IH]; [destruct Hg|].
  destruct Hg as [->|Hg].
  - exists (t :: repeat 0 (length G)). cbn [length lincomb]. rewrite repeat_length. split; [auto|]. split.
    + constructor; auto. apply Forall_forall; intros x Hx; apply repeat_spec in Hx; lia.
    + rewrite lincomb_repeat0 by auto. apply vadd_vzero_r. rewrite vscale_length; auto.
  - destruct (IH Hg) as (cs & Hl & Hn & E). exists (0 :: cs). cbn [length lincomb]. split; [auto|]. split.
    + constructor; auto; lia.
    + rewrite E, vscale_0, Hv. apply vadd_vzero_l. rewrite vscale_length. eapply dims_in; eauto.
Qed.

Lemma Forall_nonneg_vadd cs ds : Forall (fun c => 0 <= c) cs -> Forall (fun c => 0 <= c) ds ->
  Forall (fun c => 0 <= c) (vadd cs ds).
Proof.
  intros Hc; revert ds; induction Hc as [|c cs Hc0 Hcs IH]; intros ds Hd; [constructor|].
  destruct Hd as [|d ds Hd0 Hds]; cbn [vadd]; constructor; auto; lia.
Qed.

Lemma Forall_nonneg_vscale k cs : 0 <= k -> Forall (fun c => 0 <= c) cs -> Forall (fun c => 0 <= c) (vscale k cs).
Proof. intros Hk Hc; induction Hc as [|c cs Hc0 Hcs IH]; cbn [vscale map]; constructor; auto; nia. Qed.

Lemma gen_in_cone n G x : dims n G -> gen n G x <-> length x = n /\ in_cone n G x.
Proof.
  intros HG; split.
  - intros H; split; [eapply gen_length; eauto|].
    induction H as [|g t x Hg Ht H IH|k x Hk Hl H IH].
    + exists 1, (repeat 0 (length G)). rewrite repeat_length. split; [lia|]. split; [auto|]. split.
      * apply Forall_forall; intros y Hy; apply repeat_spec in Hy; lia.
      * rewrite vscale_1, lincomb_repeat0; auto.
    + destruct IH as (k & cs & Hk & Hl & Hn & E).
      destruct (lincomb_unit n G g (k * t)) as (ds & Hl' & Hn' & E'); auto.
      { apply Z.mul_nonneg_nonneg; lia. }
      exists k, (vadd ds cs). split; [auto|]. split; [|split].
      * rewrite vadd_length; lia.
      * apply Forall_nonneg_vadd; auto.
      * rewrite lincomb_vadd; auto. rewrite vscale_vadd, vscale_vscale, E, E'. reflexivity.
    + destruct IH as (l & cs & Hl0 & Hlen & Hn & E).
      exists (l * k), cs. split; [nia|]. split; [auto|]. split; [auto|]. rewrite <- vscale_vscale; auto.
  - intros (Hl & k & cs & Hk & Hlen & Hn & E).
    apply gen_div with (k := k); auto. rewrite E. clear E Hk Hl k x Hlen.
    assert (Hgen : forall cs G', (forall g, In g G' -> In g G) -> Forall (fun c => 0 <= c) cs ->
              gen n G (lincomb n cs G')).
    { clear cs Hn. induction cs as [|c cs IH]; intros [|g G'] Hi Hn; cbn [lincomb]; try constructor.
      - apply Hi; left; auto.
      - inversion Hn; auto.
      - apply IH; [intros; apply Hi; right; auto|inversion Hn; auto]. }
    apply Hgen; auto.
Qed.

(** ** Supports *)
(** The dual cone of [V]: valid inequalities. *)
Definition dual (n : nat) (V : list vec) (a : vec) : Prop := length a = n /\ valid V a.
(** Support inclusion: generators strictly inside for [a] are strictly inside for [b]. *)
Definition subs (V : list vec) (a b : vec) : Prop := forall v, In v V -> dot b v = 0 -> dot a v = 0.
Definition nz (V : list vec) (a : vec) : Prop := exists v, In v V /\ dot a v <> 0.
Definition pointed (n : nat) (V : list vec) : Prop :=
  forall a, length a = n -> vanishes V a -> a = vzero n.
Definition nsupp (V : list vec) (a : vec) : nat := length (filter (fun v => negb (dot a v =? 0)) V).

Lemma nz_dec V a : nz V a \/ vanishes V a.
Proof.
  unfold nz, vanishes. induction V as [|v V IH].
  - right; intros v [].
  - destruct (Z.eq_dec (dot a v) 0) as [E|E].
    + destruct IH as [(w & Hw & Ew)|H]; [left; exists w; cbn [In]; auto|right].
      intros w [<-|Hw]; auto.
    + left; exists v; cbn [In]; auto.
Qed.

Lemma subs_refl V a : subs V a a.
Proof. intros v _ E; exact E. Qed.
Lemma subs_trans V a b c : subs V a b -> subs V b c -> subs V a c.
Proof. unfold subs; intuition. Qed.

Lemma filter_length_lt {A} (f g : A -> bool) (l : list A) x :
  (forall y, In y l -> f y = true -> g y = true) -> In x l -> f x = false -> g x = true ->
  (length (filter f l) < length (filter g l))%nat.
Proof.
  assert (Hle : forall l, (forall y, In y l -> f y = true -> g y = true) ->
                  (length (filter f l) <= length (filter g l))%nat).
  { clear. induction l as [|y l IH]; intros H; cbn [filter length]; auto.
    assert (IH' := IH (fun z Hz => H z (or_intror Hz))).
    destruct (f y) eqn:F; [rewrite (H y (or_introl eq_refl) F); cbn [length]; lia|].
    destruct (g y); cbn [length]; lia. }
  induction l as [|y l IH]; intros H Hin Hf Hg; [destruct Hin|].
  cbn [filter]. destruct Hin as [->|Hin].
  - rewrite Hf, Hg. cbn [length]. assert (H' := Hle l (fun z Hz => H z (or_intror Hz))). lia.
  - assert (IH' := IH (fun z Hz => H z (or_intror Hz)) Hin Hf Hg).
    destruct (f y) eqn:F; [rewrite (H y (or_introl eq_refl) F); cbn [length]; lia|].
    destruct (g y); cbn [length]; lia.
Qed.

Lemma nsupp_lt V a b v : subs V a b -> In v V -> dot a v = 0 -> dot b v <> 0 -> (nsupp V a < nsupp V b)%nat.
Proof.
  intros Hs Hin Ha Hb. unfold nsupp. eapply filter_length_lt; eauto; cbn beta.
  - intros y Hy F. destruct (Z.eqb_spec (dot b y) 0) as [E|E]; auto.
    rewrite (Hs y Hy E) in F. discriminate F.
  - rewrite Ha; reflexivity.
  - destruct (Z.eqb_spec (dot b v) 0); auto; lia.
Qed.

(** Minimum ratio: among the members with positive denominator one minimises [p/q]. *)
Lemma min_ratio {A} (p q : A -> Z) (l : list A) :
  (exists x, In x l /\ 0 < q x) ->
  exists x, In x l /\ 0 < q x /\ forall y, In y l -> 0 < q y -> p x * q y <= p y * q x.
Proof.
  induction l as [|a l IH]; intros (x & Hx & Hq); [destruct Hx|].
  destruct (Forall_Exists_dec (fun y => ~ 0 < q y) (fun y => match Z_lt_dec 0 (q y) with
      | left h => right (fun n => n h) | right n => left n end) l) as [Hall|Hex].
  - rewrite Forall_forall in Hall.
    destruct Hx as [->|Hx]; [|exfalso; eapply Hall; eauto].
    exists x; split; [left; auto|]. split; auto. intros y [<-|Hy] Hqy; [lia|exfalso; eapply Hall; eauto].
  - assert (Hex' : exists x, In x l /\ 0 < q x).
    { apply Exists_exists in Hex. destruct Hex as (y & Hy & Hn). exists y; split; auto; lia. }
    destruct (IH Hex') as (m & Hm & Hqm & Hmin).
    destruct (Z_lt_dec 0 (q a)) as [Hqa|Hqa].
    + destruct (Z_le_dec (p a * q m) (p m * q a)) as [Hle|Hgt].
      * exists a; split; [left; auto|]. split; auto. intros y [<-|Hy] Hqy; [lia|].
        specialize (Hmin y Hy Hqy).
        assert (p a * q m * q y <= p m * q a * q y) by nia.
        assert (p m * q y * q a <= p y * q m * q a) by nia.
        assert (p a * q y * q m <= p y * q a * q m) by lia. nia.
      * exists m; split; [right; auto|]. split; auto. intros y [<-|Hy] Hqy; [lia|auto].
    + exists m; split; [right; auto|]. split; auto. intros y [<-|Hy] Hqy; [lia|auto].
Qed.

(** Subtracting a generator with smaller support until the support shrinks. *)
Lemma support_reduce n V a g : dual n V a -> dual n V g -> nz V g -> subs V g a ->
  exists k t, 0 < k /\ 0 < t /\ dual n V (vadd (vscale k a) (vscale (- t) g)) /\
    subs V (vadd (vscale k a) (vscale (- t) g)) a /\
    (nsupp V (vadd (vscale k a) (vscale (- t) g)) < nsupp V a)%nat.
Proof.
  intros (Hla & Ha) (Hlg & Hg) (v0 & Hv0 & Hgv0) Hs.
  destruct (min_ratio (fun v => - dot a v) (fun v => - dot g v) V) as (v & Hv & Hq & Hmin).
  { exists v0; split; auto. specialize (Hg v0 Hv0). lia. }
  assert (Hd : forall w, dot (vadd (vscale (- dot g v) a) (vscale (- - dot a v) g)) w =
                 - dot g v * dot a w + dot a v * dot g w).
  { intros w. rewrite dot_vadd_l, !dot_vscale_l; [ring|]. rewrite !vscale_length; lia. }
  assert (Hav : dot a v < 0).
  { specialize (Ha v Hv). destruct (Z.eq_dec (dot a v) 0) as [E|E]; [|lia].
    specialize (Hs v Hv E). lia. }
  exists (- dot g v), (- dot a v). split; [lia|]. split; [lia|].
  split; [split; [apply vadd_length_eq; rewrite vscale_length; auto|]|split].
  - intros w Hw. rewrite Hd. specialize (Ha w Hw). specialize (Hg w Hw).
    destruct (Z.eq_dec (dot g w) 0) as [E|E]; [rewrite E; nia|].
    specialize (Hmin w Hw ltac:(lia)). nia.
  - intros w Hw Ew. rewrite Hd, Ew. rewrite (Hs w Hw Ew). lia.
  - apply nsupp_lt with (v := v); auto; [|rewrite Hd; lia|lia].
    intros w Hw Ew. rewrite Hd, Ew, (Hs w Hw Ew). lia.
Qed.

(** A set of generators containing, for every element of the dual cone, one with smaller support, generates. *)
Definition covers (n : nat) (V G : list vec) : Prop :=
  forall x, dual n V x -> nz V x -> exists g, In g G /\ subs V g x.

Lemma covers_gen n V G : pointed n V -> dims n G ->
  (forall g, In g G -> valid V g /\ nz V g) -> covers n V G ->
  forall x, dual n V x -> gen n G x.
Proof.
  intros Hp HG HGv Hc x.
  induction x as [x IH] using (induction_ltof1 _ (nsupp V)). unfold ltof in IH. intros Hx.
  destruct (nz_dec V x) as [Hz|Hz].
  - destruct (Hc x Hx Hz) as (g & Hg & Hs).
    destruct (HGv g Hg) as (Hgv & Hgz).
    assert (Hlg := dims_in _ _ _ HG Hg).
    destruct (support_reduce n V x g) as (k & t & Hk & Ht & Hd & _ & Hlt); auto.
    { split; auto. }
    apply gen_div with (k := k); auto; [apply Hx|].
    assert (E : vscale k x = vadd (vscale t g) (vadd (vscale k x) (vscale (- t) g))).
    { destruct Hx as (Hlx & _).
      apply vec_ext with (n := n).
      - rewrite vscale_length; auto.
      - repeat apply vadd_length_eq; rewrite ?vscale_length; auto.
      - intros c _. rewrite !dot_vadd_l, !dot_vscale_l; [ring| |];
          rewrite ?vadd_length, ?vscale_length; lia. }
    rewrite E. apply gen_add; auto. lia.
  - assert (Ex : x = vzero n) by (apply Hp; auto; apply Hx). rewrite Ex; constructor.
Qed.

Lemma gen_dual n V G x : dims n G -> (forall g, In g G -> valid V g) -> gen n G x -> dual n V x.
Proof.
  intros HG HV H; split; [eapply gen_length; eauto|]. revert H.
  intros H; induction H as [|g t x Hg Ht H IH|k x Hk Hl H IH]; intros v Hv.
  - rewrite dot_vzero_l; lia.
  - rewrite dot_vadd_l, dot_vscale_l.
    + specialize (IH v Hv). specialize (HV g Hg v Hv). nia.
    + rewrite vscale_length, (gen_length n G x); auto. eapply dims_in; eauto.
  - specialize (IH v Hv). rewrite dot_vscale_l in IH. nia.
Qed.

(** Generators occurring in a representation have smaller support; sorted by the sign at one more vector. *)
Lemma gen_supports n V G x w : dims n G -> (forall g, In g G -> valid V g /\ nz V g) -> gen n G x ->
  (dot x w < 0 -> exists g, In g G /\ subs V g x /\ dot g w < 0) /\
  (0 < dot x w -> exists g, In g G /\ subs V g x /\ 0 < dot g w) /\
  (nz V x -> dot x w = 0 ->
     (exists g, In g G /\ subs V g x /\ dot g w = 0) \/
     (exists g h, In g G /\ In h G /\ subs V g x /\ subs V h x /\ dot g w < 0 /\ 0 < dot h w)).
Proof.
  intros HG HV H.
  assert (HV' : forall g, In g G -> valid V g) by (intros g Hg; apply HV; auto).
  induction H as [|g t x Hg Ht H IH|k x Hk Hl H IH].
  - rewrite dot_vzero_l. repeat split; try lia. intros (v & _ & Hv). rewrite dot_vzero_l in Hv. lia.
  - assert (Hlen : length (vscale t g) = length x).
    { rewrite vscale_length, (gen_length n G x); auto. eapply dims_in; eauto. }
    rewrite (dot_vadd_l _ _ w Hlen), dot_vscale_l.
    destruct (gen_dual n V G x) as (_ & Hxv); auto.
    destruct (HV g Hg) as (Hgv & Hgz).
    assert (Hsx : subs V x (vadd (vscale t g) x)).
    { intros v Hv. rewrite dot_vadd_l, dot_vscale_l by exact Hlen.
      specialize (Hgv v Hv). specialize (Hxv v Hv). nia. }
    destruct (Z.eq_dec t 0) as [->|Ht0].
    + assert (Hsb : forall y, subs V y x -> subs V y (vadd (vscale 0 g) x)).
      { intros y Hy. eapply subs_trans; eauto. }
      destruct IH as (IH1 & IH2 & IH3). replace (0 * dot g w + dot x w) with (dot x w) by ring.
      split; [|split].
      * intros Hlt; destruct (IH1 Hlt) as (h & ? & ? & ?); exists h; auto.
      * intros Hlt; destruct (IH2 Hlt) as (h & ? & ? & ?); exists h; auto.
      * intros Hnz E. assert (Hnz' : nz V x).
        { destruct Hnz as (v & Hv & Hn). exists v; split; auto.
          rewrite dot_vadd_l, dot_vscale_l in Hn by exact Hlen. lia. }
        destruct (IH3 Hnz' E) as [(h & ? & ? & ?)|(h & h' & ? & ? & ? & ? & ? & ?)].
        -- left; exists h; auto.
        -- right; exists h, h'; repeat split; auto.
    + assert (Hsg : subs V g (vadd (vscale t g) x)).
      { intros v Hv. rewrite dot_vadd_l, dot_vscale_l by exact Hlen.
        specialize (Hgv v Hv). specialize (Hxv v Hv). nia. }
      assert (Hsb : forall y, subs V y x -> subs V y (vadd (vscale t g) x)).
      { intros y Hy. eapply subs_trans; eauto. }
      destruct IH as (IH1 & IH2 & IH3).
      split; [|split].
      * intros Hlt. destruct (Z_lt_dec (dot g w) 0) as [Hl|Hl]; [exists g; auto|].
        destruct IH1 as (h & ? & ? & ?); [nia|exists h; auto].
      * intros Hlt. destruct (Z_lt_dec 0 (dot g w)) as [Hl|Hl]; [exists g; auto|].
        destruct IH2 as (h & ? & ? & ?); [nia|exists h; auto].
      * intros _ E. destruct (Z.eq_dec (dot g w) 0) as [E0|E0]; [left; exists g; auto|right].
        destruct (Z_lt_dec (dot g w) 0) as [Hl|Hl].
        -- destruct IH2 as (h & ? & ? & ?); [nia|]. exists g, h; repeat split; auto.
        -- destruct IH1 as (h & ? & ? & ?); [nia|]. exists h, g; repeat split; auto; lia.
  - rewrite dot_vscale_l in IH.
    assert (Hsb : forall y, subs V y (vscale k x) -> subs V y x).
    { intros y Hy v Hv E. apply Hy; auto. rewrite dot_vscale_l, E; lia. }
    destruct IH as (IH1 & IH2 & IH3).
    split; [|split].
    + intros Hlt; destruct IH1 as (h & ? & ? & ?); [nia|]; exists h; auto.
    + intros Hlt; destruct IH2 as (h & ? & ? & ?); [nia|]; exists h; auto.
    + intros (v & Hv & Hn) E.
      destruct IH3 as [(h & ? & ? & ?)|(h & h' & ? & ? & ? & ? & ? & ?)].
      * exists v; split; auto. rewrite dot_vscale_l; nia.
      * rewrite E; lia.
      * left; exists h; auto.
      * right; exists h, h'; repeat split; auto.
Qed.

(** ** One elimination step *)
Lemma nz_app V w x : nz (V ++ [w]) x <-> nz V x \/ dot x w <> 0.
Proof.
  unfold nz; split.
  - intros (v & Hv & Hn). apply in_app_iff in Hv. destruct Hv as [Hv|[<-|[]]]; eauto.
  - intros [(v & Hv & Hn)|Hn]; [exists v|exists w]; rewrite in_app_iff; cbn [In]; auto.
Qed.

Lemma subs_app V w a b : subs (V ++ [w]) a b <-> subs V a b /\ (dot b w = 0 -> dot a w = 0).
Proof.
  unfold subs; split.
  - intros H; split; [intros v Hv|]; apply H; rewrite in_app_iff; cbn [In]; auto.
  - intros (H1 & H2) v Hv. apply in_app_iff in Hv. destruct Hv as [Hv|[<-|[]]]; auto.
Qed.

Lemma valid_app V w a : valid (V ++ [w]) a <-> valid V a /\ dot a w <= 0.
Proof.
  unfold valid; split.
  - intros H; split; [intros v Hv|]; apply H; rewrite in_app_iff; cbn [In]; auto.
  - intros (H1 & H2) v Hv. apply in_app_iff in Hv. destruct Hv as [Hv|[<-|[]]]; auto.
Qed.

(** The combination of a negative and a positive row, tight at [w]. *)
Definition combo (w g h : vec) : vec := vadd (vscale (dot h w) g) (vscale (- dot g w) h).

Lemma dot_combo n w g h v : length g = n -> length h = n ->
  dot (combo w g h) v = dot h w * dot g v - dot g w * dot h v.
Proof. intros Hg Hh. unfold combo. rewrite dot_vadd_l, !dot_vscale_l; [ring|]. rewrite !vscale_length; lia. Qed.

(** Every non-zero element of the new dual cone has a zero row, a negative row or a combination below it. *)
Lemma step_candidates n V G w : pointed n V -> dims n G -> (forall g, In g G -> valid V g /\ nz V g) ->
  covers n V G ->
  forall x, dual n (V ++ [w]) x -> nz (V ++ [w]) x ->
    (exists g, In g G /\ dot g w <= 0 /\ subs (V ++ [w]) g x) \/
    (exists g h, In g G /\ In h G /\ dot g w < 0 /\ 0 < dot h w /\ subs (V ++ [w]) (combo w g h) x).
Proof.
  intros Hp HG HGv Hc x (Hlx & Hx) Hnz.
  apply valid_app in Hx. destruct Hx as (Hx & Hxw).
  assert (Hgen : gen n G x) by (eapply covers_gen; eauto; split; auto).
  destruct (gen_supports n V G x w HG HGv Hgen) as (H1 & _ & H3).
  destruct (Z.eq_dec (dot x w) 0) as [E|E].
  - assert (Hnz' : nz V x).
    { apply nz_app in Hnz. destruct Hnz as [Hnz|Hnz]; auto; contradiction. }
    destruct (H3 Hnz' E) as [(g & Hg & Hs & Eg)|(g & h & Hg & Hh & Hsg & Hsh & Hgw & Hhw)].
    + left; exists g; repeat split; auto; [lia|]. apply subs_app; auto.
    + right; exists g, h; repeat split; auto. apply subs_app.
      assert (Hlg := dims_in _ _ _ HG Hg). assert (Hlh := dims_in _ _ _ HG Hh).
      split.
      * intros v Hv Ev. rewrite (dot_combo n) by auto. rewrite (Hsg v Hv Ev), (Hsh v Hv Ev). lia.
      * intros _. rewrite (dot_combo n) by auto. ring.
  - destruct H1 as (g & Hg & Hs & Hgw); [lia|].
    left; exists g; repeat split; auto; [lia|]. apply subs_app; split; auto. lia.
Qed.

(** An element whose tight generators leave a solution space of dimension at least two is not minimal. *)
Lemma count_not_minimal n V c (tight : list vec) : pointed n V -> dual n V c -> nz V c ->
  (forall v, In v V -> dot c v = 0 -> In v tight) -> dims n V -> dims n tight ->
  (forall v, In v tight -> dot c v = 0) ->
  (length tight + 1 < n)%nat ->
  exists w, dual n V w /\ nz V w /\ subs V w c /\ (nsupp V w < nsupp V c)%nat.
Proof.
  intros Hp (Hlc & Hcv) (v0 & Hv0 & Hn0) Htight HV Ht Htz Hlen.
  destruct (underdetermined n (v0 :: tight)) as (y & Hly & Hyz & Hy).
  { apply Forall_cons; [apply (dims_in n V); auto|exact Ht]. }
  { cbn [length]; lia. }
  assert (Hgoal : forall y, length y = n -> (forall e, In e (v0 :: tight) -> dot e y = 0) ->
            (exists v, In v V /\ 0 < dot y v) ->
            exists w, dual n V w /\ nz V w /\ subs V w c /\ (nsupp V w < nsupp V c)%nat).
  { clear y Hly Hyz Hy. intros y Hly Hy (v1 & Hv1 & Hp1).
    assert (Hyt : forall v, In v V -> dot c v = 0 -> dot y v = 0).
    { intros v Hv E. rewrite dot_comm. apply Hy. right; apply Htight; auto. }
    destruct (min_ratio (fun v => - dot c v) (fun v => dot y v) V) as (v & Hv & Hq & Hmin).
    { exists v1; auto. }
    assert (Hd : forall u, dot (vadd (vscale (dot y v) c) (vscale (- dot c v) y)) u =
                   dot y v * dot c u - dot c v * dot y u).
    { intros u. rewrite dot_vadd_l, !dot_vscale_l; [ring|]. rewrite !vscale_length; lia. }
    assert (Hcvv : dot c v < 0).
    { specialize (Hcv v Hv). destruct (Z.eq_dec (dot c v) 0) as [E|E]; [|lia].
      rewrite (Hyt v Hv E) in Hq; lia. }
    exists (vadd (vscale (dot y v) c) (vscale (- dot c v) y)).
    assert (Hsub : subs V (vadd (vscale (dot y v) c) (vscale (- dot c v) y)) c).
    { intros u Hu Eu. rewrite Hd, Eu, (Hyt u Hu Eu). lia. }
    split; [split; [apply vadd_length_eq; rewrite vscale_length; auto|]|split; [|split; [exact Hsub|]]].
    - intros u Hu. rewrite Hd. specialize (Hcv u Hu).
      destruct (Z_lt_dec 0 (dot y u)) as [Hpu|Hpu].
      + specialize (Hmin u Hu Hpu). lia.
      + nia.
    - exists v0; split; auto. rewrite Hd.
      rewrite (dot_comm y v0), (Hy v0 (or_introl eq_refl)). nia.
    - apply nsupp_lt with (v := v); auto; [rewrite Hd; lia|lia]. }
  destruct (nz_dec V y) as [(v & Hv & Hn)|Hz].
  - destruct (Z_lt_dec 0 (dot y v)) as [Hpos|Hneg]; [apply (Hgoal y); eauto|].
    apply (Hgoal (vscale (-1) y)).
    + rewrite vscale_length; auto.
    + intros e He. rewrite dot_vscale_r, Hy by auto. lia.
    + exists v; split; auto. rewrite dot_vscale_l. lia.
  - exfalso; apply Hyz. apply Hp; auto.
Qed.

(** Fourier-Motzkin step on the primal side. *)
Lemma fm_primal n V G w : dims n G -> dims n V -> length w = n ->
  (forall x, length x = n -> (forall g, In g G -> dot g x <= 0) -> in_cone n V x) ->
  forall x, length x = n ->
    (forall g, In g G -> dot g w <= 0 -> dot g x <= 0) ->
    (forall g h, In g G -> In h G -> dot g w < 0 -> 0 < dot h w -> dot (combo w g h) x <= 0) ->
    in_cone n (V ++ [w]) x.
Proof.
  intros HG HV Hlw Hold x Hlx H1 H2.
  assert (Hkt : exists k t, 0 < k /\ 0 <= t /\
     forall g, In g G -> dot g (vadd (vscale k x) (vscale (- t) w)) <= 0).
  { assert (Hd : forall k t g, dot g (vadd (vscale k x) (vscale (- t) w)) = k * dot g x - t * dot g w).
    { intros k t g. rewrite dot_vadd_r, !dot_vscale_r; [ring|]. rewrite !vscale_length; lia. }
    destruct (Forall_Exists_dec (fun g => ~ (0 < dot g w /\ 0 < dot g x))
       (fun g => match Z_lt_dec 0 (dot g w), Z_lt_dec 0 (dot g x) with
          | left a, left b => right (fun n => n (conj a b))
          | right a, _ => left (fun h => a (proj1 h))
          | _, right b => left (fun h => b (proj2 h)) end) G) as [Hall|Hex].
    - exists 1, 0. split; [lia|]. split; [lia|]. intros g Hg. rewrite Hd.
      rewrite Forall_forall in Hall. specialize (Hall g Hg).
      specialize (H1 g Hg). nia.
    - apply Exists_exists in Hex. destruct Hex as (p0 & Hp0 & Hn0).
      destruct (Z_lt_dec 0 (dot p0 w)) as [Ha|Ha]; [|tauto].
      destruct (Z_lt_dec 0 (dot p0 x)) as [Hb|Hb]; [|tauto]. clear Hn0.
      destruct (min_ratio (fun g => - dot g x) (fun g => dot g w) G) as (p & Hp & Hq & Hmin).
      { exists p0; auto. }
      assert (Hpx : 0 < dot p x).
      { specialize (Hmin p0 Hp0 Ha). nia. }
      exists (dot p w), (dot p x). split; [lia|]. split; [lia|].
      intros g Hg. rewrite Hd.
      destruct (Z_lt_dec 0 (dot g w)) as [Hpos|Hnp].
      + specialize (Hmin g Hg Hpos). lia.
      + destruct (Z.eq_dec (dot g w) 0) as [E|E].
        * rewrite E. specialize (H1 g Hg ltac:(lia)). nia.
        * specialize (H2 g p Hg Hp ltac:(lia) Hq).
          rewrite (dot_combo n) in H2 by (eapply (dims_in n G); eauto). lia. }
  destruct Hkt as (k & t & Hk & Ht & Hle).
  assert (HVw : dims n (V ++ [w])) by (apply dims_app; split; auto; repeat constructor; auto).
  assert (Hlen : length (vadd (vscale k x) (vscale (- t) w)) = n)
    by (apply vadd_length_eq; rewrite vscale_length; auto).
  assert (Hin : gen n (V ++ [w]) (vadd (vscale k x) (vscale (- t) w))).
  { apply gen_trans with (G := V); auto.
    - intros g Hg. apply gen_in; auto. rewrite in_app_iff; auto.
    - apply gen_in_cone; auto. }
  apply (gen_in_cone n (V ++ [w])); auto.
  apply gen_div with (k := k); auto.
  assert (E : vscale k x = vadd (vscale t w) (vadd (vscale k x) (vscale (- t) w))).
  { apply vec_ext with (n := n).
    - rewrite vscale_length; auto.
    - apply vadd_length_eq; rewrite ?vscale_length; auto.
    - intros c _. rewrite !dot_vadd_l, !dot_vscale_l; [ring| |];
        rewrite ?vadd_length, ?vscale_length; lia. }
  rewrite E. apply gen_add; auto. rewrite in_app_iff; cbn [In]; auto.
Qed.
