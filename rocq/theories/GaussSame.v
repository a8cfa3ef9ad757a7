(** * GaussSame: the equations that are extracted depend only on the space of the equations that hold, not on the rows that are given. *)
From Coq Require Import List ZArith Lia Bool Arith Permutation.
From Verif Require Import Spec LinAlg Cone ListUtil FmeCore Gauss FmePure FmeReduce FmePrepare Span DimTheorems FmeTheorems NormTheorems NormalForm.
Import ListNotations.
Open Scope Z_scope.

Lemma dot_single u cs z : (forall j, j <> z -> nth j u 0 * nth j cs 0 = 0) -> dot u cs = nth z u 0 * nth z cs 0.
Proof.
  revert cs z. induction u as [|x u IH]; intros [|y cs] z H; cbn [dot].
  - destruct z; reflexivity.
  - destruct z; reflexivity.
  - destruct z; cbn [nth]; lia.
  - destruct z as [|z]; cbn [nth].
    + rewrite (IH cs (length u)).
      * rewrite (nth_overflow u) by lia. lia.
      * intros j _. apply (H (S j)). lia.
    + rewrite (IH cs z). { assert (H0 := H 0%nat ltac:(lia)). cbn [nth] in H0. lia. }
      intros j Hj. apply (H (S j)). lia.
Qed.

Section One.
  Variables (n : nat) (V : list vec).
  Let t := length V.
  Hypothesis HV : dims n V.

  Definition state (k : nat) : gstate := fold_left (gauss_row n) (seq 0 k) (V ++ neg_identity n, []).
  Definition used (k : nat) : list nat := map snd (snd (state k)).

  Lemma state_inv k : (k <= t + n)%nat -> ginv n V k (fst (state k)) (snd (state k)).
  Proof. intros H. exact (gauss_loop_inv n V HV k H). Qed.
  Lemma state_S k : state (S k) = gauss_row n (state k) k.
  Proof. unfold state. rewrite seq_S, fold_left_app. reflexivity. Qed.

  (** The bottom part of a column that is not used yet. *)
  Record fresh (M : list vec) (u : list nat) (j : nat) : Prop := {
    fr_self : nth j (bot V j M) 0 <> 0;
    fr_after : forall k, (j < k)%nat -> nth k (bot V j M) 0 = 0;
    fr_other : forall k, (k < n)%nat -> k <> j -> ~ In k u -> nth k (bot V j M) 0 = 0 }.

  Lemma bot_entry M k j : rect (t + n) n M -> (k < n)%nat -> mget M (t + k) j = nth k (bot V j M) 0.
  Proof. intros (H & _) Hk. unfold bot. rewrite nth_skipn. fold t. apply mget_colv. lia. Qed.
  Lemma bot_eq M' M i c f a b : rect (t + n) n M ->
    vscale f (colv i M') = vadd (vscale a (colv i M)) (vscale b (colv c M)) -> forall k, f * nth k (bot V i M') 0 = a * nth k (bot V i M) 0 + b * nth k (bot V c M) 0.
  Proof.
    intros (H & _) E k. unfold bot. rewrite !nth_skipn. assert (E1 := f_equal (fun u => nth (length V + k) u 0) E). cbn beta in E1.
    rewrite nth_vadd, !nth_vscale in E1 by (rewrite !vscale_length, !colv_length; auto). exact E1.
  Qed.
  Lemma row_eq M' M i c f a b r : rect (t + n) n M -> rect (t + n) n M' -> (r < t + n)%nat ->
    vscale f (colv i M') = vadd (vscale a (colv i M)) (vscale b (colv c M)) -> f * mget M' r i = a * mget M r i + b * mget M r c.
  Proof.
    intros (H & _) (H' & _) Hr E. assert (E1 := f_equal (fun u => nth r u 0) E). cbn beta in E1.
    rewrite nth_vadd, !nth_vscale in E1 by (rewrite !vscale_length, !colv_length; auto). rewrite !mget_colv by lia. exact E1.
  Qed.

  Lemma find_before (p : nat -> bool) l c : find p l = Some c -> forall l1 l2 x, l = l1 ++ x :: l2 -> In c l2 -> NoDup l -> p x = false.
  Proof.
    revert l. induction l as [|y l IH]; intros H l1 l2 x E Hc Hn; [destruct l1; discriminate|]. cbn [find] in H. inversion Hn as [|? ? Hy Hn']; subst.
    destruct l1 as [|z l1]; cbn [app] in E; injection E as -> E; subst.
    - destruct (p x) eqn:P; auto. injection H as ->. exfalso. apply Hy. auto.
    - destruct (p z) eqn:P.
      + injection H as ->. exfalso. apply Hy. apply in_app_iff. right. right. auto.
      + apply (IH H l1 l2); auto.
  Qed.
  Lemma pivot_first M row u c j : pivot_col n M row u = Some c -> (j < c)%nat -> ~ In j u -> mget M row j = 0.
  Proof.
    intros H Hj Hu. assert (Hs := pivot_col_spec n V M row u). rewrite H in Hs. destruct Hs as (Hc & _ & _). unfold pivot_col in H.
    assert (E : seq 0 n = seq 0 j ++ j :: seq (S j) (n - S j)) by (replace n with (j + S (n - S j))%nat at 1 by lia; rewrite seq_app; reflexivity).
    assert (P := find_before _ _ _ H _ _ _ E ltac:(apply in_seq; lia) (seq_NoDup n 0)). cbn beta in P. apply andb_false_iff in P as [P|P]; apply negb_false_iff in P.
    - apply Z.eqb_eq in P. exact P.
    - exfalso. apply existsb_exists in P as (x & Hx & P). apply Nat.eqb_eq in P. subst. auto.
  Qed.

  Lemma start_fresh j : (j < n)%nat -> fresh (V ++ neg_identity n) [] j.
  Proof.
    intros Hj. assert (B := start_bot n V j Hj). assert (N : forall k, nth k (bot V j (V ++ neg_identity n)) 0 = if (k =? j)%nat then -1 else 0).
    { intros k. rewrite B. unfold unit_vec. rewrite nth_upd, nth_vzero, vzero_length. destruct (Nat.ltb_spec j n); [|lia]. rewrite ?andb_true_r, (Nat.eqb_sym j k) || idtac. destruct (k =? j)%nat eqn:E; cbn [andb]; auto. apply Nat.eqb_eq in E. subst. destruct (Nat.ltb_spec j n); [reflexivity|lia]. }
    constructor; intros; rewrite N.
    - rewrite Nat.eqb_refl. lia.
    - destruct (Nat.eqb_spec k j); [lia|reflexivity].
    - destruct (Nat.eqb_spec k j); [lia|reflexivity].
  Qed.
  Lemma state_fresh k : (k <= t + n)%nat -> forall j, (j < n)%nat -> ~ In j (used k) -> fresh (fst (state k)) (used k) j.
  Proof.
    induction k as [|k IH]; intros Hk j Hj Hu; [apply start_fresh; auto|]. specialize (IH ltac:(lia)).
    assert (G := state_inv k ltac:(lia)). unfold used in *. rewrite state_S in *. destruct (state k) as (M, piv). cbn [fst snd] in *. unfold gauss_row in *.
    assert (Hs := pivot_col_spec n V M k (map snd piv)). destruct (pivot_col n M k (map snd piv)) as [c|] eqn:EP; cbn [fst snd] in *; [|apply IH; auto].
    destruct Hs as (Hc & Hp & Huc). assert (C := g_c _ _ _ _ _ G). destruct (elim_cols_spec n V M k c C ltac:(lia) Hc Hp) as (C' & _ & Hi).
    rewrite map_app in *. cbn [map snd] in *. assert (Hjc : j <> c) by (intros ->; apply Hu, in_app_iff; right; left; auto). assert (Hju : ~ In j (map snd piv)) by (intros H; apply Hu, in_app_iff; auto).
    destruct (Hi j Hj Hjc) as (f & a & b & Hf & Ha & E & Hz). assert (R := c_rect _ _ _ C). assert (R' := c_rect _ _ _ C').
    assert (HB := bot_eq _ _ _ _ _ _ _ R E). assert (HR := row_eq _ _ _ _ _ _ _ k R R' ltac:(unfold t in *; lia) E). rewrite Hz in HR.
    destruct (IH j Hj Hju) as [S1 S2 S3]. destruct (IH c Hc Huc) as [T1 T2 T3].
    assert (Hb : (j < c)%nat -> b = 0) by (intros L; rewrite (pivot_first M k (map snd piv) c j EP L Hju) in HR; nia).
    constructor.
    - intros H0. specialize (HB j). rewrite H0 in HB. destruct (Nat.lt_trichotomy j c) as [L|[L|L]]; [|lia|].
      + rewrite (Hb L) in HB. nia.
      + rewrite (T2 j L) in HB. nia.
    - intros i Hji. specialize (HB i). rewrite (S2 i Hji) in HB. destruct (Nat.lt_trichotomy j c) as [L|[L|L]]; [|lia|].
      + rewrite (Hb L) in HB. nia.
      + rewrite (T2 i ltac:(lia)) in HB. nia.
    - intros i Hin Hij Hiu. assert (Hic : i <> c) by (intros ->; apply Hiu, in_app_iff; right; left; auto). assert (Hiu' : ~ In i (map snd piv)) by (intros H; apply Hiu, in_app_iff; auto).
      specialize (HB i). rewrite (S3 i Hin Hij Hiu'), (T3 i Hin Hic Hiu') in HB. nia.
  Qed.

  (** After the rows that are given. *)
  Lemma fresh_vanishes j : (j < n)%nat -> ~ In j (used t) -> vanishes V (bot V j (fst (state t))).
  Proof.
    intros Hj Hu v Hv. assert (G := state_inv t ltac:(lia)). destruct (In_nth V v [] Hv) as (k & Hk & <-).
    assert (Z0 : mget (fst (state t)) k j = 0). { apply (g_ech _ _ _ _ _ G); auto. intros p Hp E. exfalso. apply Hu. unfold used. apply in_map_iff. eauto. }
    rewrite (c_top _ _ _ (g_c _ _ _ _ _ G)) in Z0 by auto. rewrite dot_comm. lia.
  Qed.
  Lemma nth_bots M j : (j < n)%nat -> nth j (map (fun j => bot V j M) (seq 0 n)) [] = bot V j M.
  Proof. intros H. rewrite (nth_map' (fun j => bot V j M) _ j 0%nat) by (rewrite seq_length; auto). rewrite seq_nth; auto. Qed.
  Lemma dual_coefficients x : length x = n -> vanishes V x -> let M := fst (state t) in
    exists k cs, 0 < k /\ length cs = n /\ (forall z, k * nth z x 0 = dot (colv z (map (fun j => bot V j M) (seq 0 n))) cs) /\ (forall j, In j (used t) -> nth j cs 0 = 0).
  Proof.
    intros Hx Hv M. assert (G := state_inv t ltac:(lia)). fold M in G. assert (C := g_c _ _ _ _ _ G). set (B := map (fun j => bot V j M) (seq 0 n)).
    assert (HB : dims n B) by (apply Forall_forall; intros v Hb; apply in_map_iff in Hb as (j & <- & _); apply bot_length; apply (c_rect _ _ _ C)).
    assert (LB : length B = n) by (unfold B; rewrite map_length, seq_length; auto).
    destruct (span_of_independent n B HB LB (bots_independent n V M C) x Hx) as (k & cs & Hk & Hl & E). exists k, cs. split; [auto|]. split; [lia|]. split.
    - intros z. rewrite <- nth_vscale, E. apply nth_lincomb; auto.
    - intros j Hj. unfold used in Hj. apply in_map_iff in Hj as (p & <- & Hp). assert (Hr := g_rows _ _ _ _ _ G p Hp). assert (Hc := g_cols _ _ _ _ _ G p Hp). assert (Hd := g_diag _ _ _ _ _ G p Hp). fold M in Hd.
      set (v := nth (fst p) V []) in *. assert (Hv' : dot x v = 0) by (apply Hv; apply nth_In; auto).
      assert (D : k * dot x v = dot (map (fun b => dot b v) B) cs) by (rewrite <- dot_vscale_l, E, (dot_comm (map _ B)); apply dot_lincomb_l; auto).
      assert (N : forall i, (i < n)%nat -> nth i (map (fun b => dot b v) B) 0 = - mget M (fst p) i).
      { intros i Hi. rewrite (nth_map' (fun b => dot b v) B i []) by lia. unfold B. rewrite nth_bots by auto. rewrite (c_top _ _ _ C) by auto. fold v. rewrite dot_comm. lia. }
      assert (D2 : dot (map (fun b => dot b v) B) cs = - mget M (fst p) (snd p) * nth (snd p) cs 0).
      { rewrite <- (N (snd p) Hc). apply dot_single. intros i Hi. destruct (le_lt_dec n i) as [L|L].
        + rewrite nth_overflow by (rewrite map_length; lia). lia.
        + rewrite (N i L). rewrite (g_off _ _ _ _ _ G p i) by auto. lia. }
      nia.
  Qed.
  Lemma nth_bot_col M z j : (j < n)%nat -> nth j (colv z (map (fun j => bot V j M) (seq 0 n))) 0 = nth z (bot V j M) 0.
  Proof. intros H. unfold colv. rewrite (nth_map' (fun r => nth z r 0) _ j []) by (rewrite map_length, seq_length; auto). rewrite nth_bots; auto. Qed.
  Lemma coefficient_of x k cs z : let M := fst (state t) in length cs = n -> (forall z, k * nth z x 0 = dot (colv z (map (fun j => bot V j M) (seq 0 n))) cs) -> (forall j, In j (used t) -> nth j cs 0 = 0) ->
    (z < n)%nat -> ~ In z (used t) -> k * nth z x 0 = nth z (bot V z M) 0 * nth z cs 0.
  Proof.
    intros M Hl E Hu Hz Hn. rewrite E, (dot_single _ _ z); [rewrite nth_bot_col by auto; reflexivity|]. intros j Hj. destruct (le_lt_dec n j) as [L|L]; [rewrite (nth_overflow cs) by lia; lia|].
    destruct (in_dec Nat.eq_dec j (used t)) as [H|H]; [rewrite Hu by auto; lia|]. rewrite nth_bot_col by auto. rewrite (fr_other _ _ _ (state_fresh t ltac:(lia) j L H)); auto.
  Qed.
  (** Only the zero vector is in the space and zero at all columns that are not used. *)
  Lemma zero_at_fresh x : length x = n -> vanishes V x -> (forall j, (j < n)%nat -> ~ In j (used t) -> nth j x 0 = 0) -> x = vzero n.
  Proof.
    intros Hx Hv Hz. destruct (dual_coefficients x Hx Hv) as (k & cs & Hk & Hl & E & Hu). set (M := fst (state t)) in *.
    assert (Z0 : forall j, nth j cs 0 = 0).
    { intros j. destruct (le_lt_dec n j) as [L|L]; [apply nth_overflow; lia|]. destruct (in_dec Nat.eq_dec j (used t)) as [H|H]; [auto|].
      assert (K := coefficient_of x k cs j Hl E Hu L H). rewrite (Hz j L H) in K. assert (S := fr_self _ _ _ (state_fresh t ltac:(lia) j L H)). fold M in K, S. nia. }
    apply (vec_ext_nth n); auto using vzero_length. intros z _. rewrite nth_vzero. specialize (E z). rewrite (dot_single _ _ 0%nat) in E; [rewrite Z0 in E; nia|]. intros j _. rewrite Z0. lia.
  Qed.
  (** The last position of a vector of the space is that of a column that is not used. *)
  Lemma last_is_fresh x j : length x = n -> vanishes V x -> (j < n)%nat -> nth j x 0 <> 0 -> (forall k, (j < k)%nat -> nth k x 0 = 0) -> ~ In j (used t).
  Proof.
    intros Hx Hv Hj Hnz Hz Hin. destruct (dual_coefficients x Hx Hv) as (k & cs & Hk & Hl & E & Hu). assert (K := E j). rewrite (dot_single _ _ j) in K; [rewrite (Hu j Hin) in K; nia|].
    intros i Hi. destruct (le_lt_dec n i) as [L|L]; [rewrite (nth_overflow cs) by lia; lia|]. destruct (in_dec Nat.eq_dec i (used t)) as [H|H]; [rewrite Hu by auto; lia|].
    assert (F := state_fresh t ltac:(lia) i L H). rewrite nth_bot_col by auto. destruct (Nat.lt_trichotomy i j) as [T|[T|T]]; [|lia|].
    - rewrite (fr_after _ _ _ F) by auto. lia.
    - assert (K' := coefficient_of x k cs i Hl E Hu L H). rewrite (Hz i T) in K'. assert (S := fr_self _ _ _ F). assert (nth i cs 0 = 0) by nia. nia.
  Qed.
End One.

(** ** Two runs *)
Lemma find_same {A} (p q : A -> bool) l : (forall x, In x l -> p x = q x) -> find p l = find q l.
Proof.
  induction l as [|x l IH]; intros H; [reflexivity|]. cbn [find]. rewrite (H x) by (left; auto). rewrite IH by (intros; apply H; right; auto). reflexivity.
Qed.
(** The pivots among the rows of the identity matrix, by their rows in that matrix. *)
Definition later (t : nat) (piv : list (nat * nat)) : list (nat * nat) := map (fun p => ((fst p - t)%nat, snd p)) (filter (fun p => (t <=? fst p)%nat) piv).
Lemma later_columns t piv : eq_columns t piv = map snd (later t piv).
Proof. unfold eq_columns, later. rewrite map_map. reflexivity. Qed.
Lemma later_app t piv piv' : later t (piv ++ piv') = later t piv ++ later t piv'.
Proof. unfold later. rewrite filter_app, map_app. reflexivity. Qed.
Lemma later_in t piv k c : In (k, c) (later t piv) -> In ((t + k)%nat, c) piv.
Proof.
  unfold later. intros H. apply in_map_iff in H as ((r, c') & E & H). apply filter_In in H as (H & L). apply Nat.leb_le in L. cbn [fst snd] in *. injection E as <- <-. replace (t + (r - t))%nat with r by lia. exact H.
Qed.

Section Two.
  Variables (n : nat) (V1 V2 : list vec).
  Hypotheses (H1 : dims n V1) (H2 : dims n V2).
  Hypothesis same : forall x, length x = n -> (vanishes V1 x <-> vanishes V2 x).
  Let t1 := length V1.
  Let t2 := length V2.

  Lemma fresh_incl W W' : dims n W -> dims n W' -> (forall x, length x = n -> vanishes W x -> vanishes W' x) -> forall j, (j < n)%nat -> ~ In j (used n W (length W)) -> ~ In j (used n W' (length W')).
  Proof.
    intros HW HW' Hi j Hj Hu. assert (F := state_fresh n W HW (length W) ltac:(lia) j Hj Hu). assert (G := state_inv n W HW (length W) ltac:(lia)).
    assert (L : length (bot W j (fst (state n W (length W)))) = n) by (apply bot_length; apply (c_rect _ _ _ (g_c _ _ _ _ _ G))).
    apply (last_is_fresh n W' HW' (bot W j (fst (state n W (length W)))) j); auto.
    - apply Hi; auto. apply fresh_vanishes; auto.
    - apply F.
    - apply F.
  Qed.
  Lemma start_used j : (j < n)%nat -> (In j (used n V1 t1) <-> In j (used n V2 t2)).
  Proof.
    intros Hj. assert (A := fresh_incl V1 V2 H1 H2 (fun x Hx => proj1 (same x Hx)) j Hj). assert (B := fresh_incl V2 V1 H2 H1 (fun x Hx => proj2 (same x Hx)) j Hj).
    destruct (in_dec Nat.eq_dec j (used n V1 t1)), (in_dec Nat.eq_dec j (used n V2 t2)); tauto.
  Qed.

  Definition proportional (x y : vec) : Prop := exists a b, a <> 0 /\ b <> 0 /\ forall k, a * nth k x 0 = b * nth k y 0.
  Lemma start_proportional j : (j < n)%nat -> ~ In j (used n V1 t1) -> proportional (bot V1 j (fst (state n V1 t1))) (bot V2 j (fst (state n V2 t2))).
  Proof.
    intros Hj Hu1. assert (Hu2 : ~ In j (used n V2 t2)) by (rewrite <- start_used; auto).
    assert (F1 := state_fresh n V1 H1 t1 ltac:(unfold t1; lia) j Hj Hu1). assert (F2 := state_fresh n V2 H2 t2 ltac:(unfold t2; lia) j Hj Hu2).
    assert (G1 := state_inv n V1 H1 t1 ltac:(unfold t1; lia)). assert (G2 := state_inv n V2 H2 t2 ltac:(unfold t2; lia)).
    set (x := bot V1 j (fst (state n V1 t1))) in *. set (y := bot V2 j (fst (state n V2 t2))) in *.
    assert (L1 : length x = n) by (apply bot_length; apply (c_rect _ _ _ (g_c _ _ _ _ _ G1))). assert (L2 : length y = n) by (apply bot_length; apply (c_rect _ _ _ (g_c _ _ _ _ _ G2))).
    assert (D1 : vanishes V1 x) by (apply fresh_vanishes; auto). assert (D2 : vanishes V1 y) by (apply same; auto; apply fresh_vanishes; auto).
    set (z := vadd (vscale (nth j y 0) x) (vscale (- nth j x 0) y)). assert (E : z = vzero n).
    { assert (Lz : length z = n) by (unfold z; apply vadd_length_eq; rewrite vscale_length; auto). apply (zero_at_fresh n V1 H1 z Lz).
      - intros v Hv. unfold z. rewrite dot_vadd_l, !dot_vscale_l by (rewrite !vscale_length; lia). rewrite (D1 v Hv), (D2 v Hv). lia.
      - intros k Hk Hu. unfold z. rewrite nth_vadd, !nth_vscale by (rewrite !vscale_length; lia). destruct (Nat.eq_dec k j) as [->|Hkj]; [lia|].
        assert (Hu' : ~ In k (used n V2 t2)) by (rewrite <- start_used; auto). assert (Y1 : nth k x 0 = 0) by (apply (fr_other _ _ _ _ _ F1); auto). assert (Y2 : nth k y 0 = 0) by (apply (fr_other _ _ _ _ _ F2); auto). rewrite Y1, Y2. lia. }
    exists (nth j y 0), (nth j x 0). split; [apply (fr_self _ _ _ _ _ F2)|]. split; [apply (fr_self _ _ _ _ _ F1)|]. intros k.
    assert (E1 := f_equal (fun u => nth k u 0) E). cbn beta in E1. unfold z in E1. rewrite nth_vadd, !nth_vscale, nth_vzero in E1 by (rewrite !vscale_length; lia). lia.
  Qed.

  Record alike (k : nat) : Prop := {
    al_later : later t1 (snd (state n V1 (t1 + k))) = later t2 (snd (state n V2 (t2 + k)));
    al_used : forall j, (j < n)%nat -> (In j (used n V1 (t1 + k)) <-> In j (used n V2 (t2 + k)));
    al_prop : forall j, (j < n)%nat -> ~ In j (used n V1 (t1 + k)) -> proportional (bot V1 j (fst (state n V1 (t1 + k)))) (bot V2 j (fst (state n V2 (t2 + k)))) }.

  Lemma later_none W : dims n W -> later (length W) (snd (state n W (length W + 0))) = [].
  Proof.
    intros HW. rewrite Nat.add_0_r. assert (G := state_inv n W HW (length W) ltac:(lia)). assert (R := g_rows _ _ _ _ _ G). unfold later. destruct (filter _ _) as [|p l] eqn:E; [reflexivity|]. exfalso.
    assert (Hp : In p (filter (fun p => (length W <=? fst p)%nat) (snd (state n W (length W))))) by (rewrite E; left; auto). apply filter_In in Hp as (Hp & L). apply Nat.leb_le in L. specialize (R p Hp). lia.
  Qed.
  Lemma proportional_step (x1 c1 y1 x2 c2 y2 : vec) k f1 a1 b1 f2 a2 b2 : f1 <> 0 -> a1 <> 0 -> f2 <> 0 -> a2 <> 0 ->
    (forall i, f1 * nth i y1 0 = a1 * nth i x1 0 + b1 * nth i c1 0) -> (forall i, f2 * nth i y2 0 = a2 * nth i x2 0 + b2 * nth i c2 0) ->
    nth k y1 0 = 0 -> nth k y2 0 = 0 -> nth k c1 0 <> 0 -> nth k c2 0 <> 0 -> proportional x1 x2 -> proportional c1 c2 -> proportional y1 y2.
  Proof.
    intros Hf1 Ha1 Hf2 Ha2 E1 E2 Z1 Z2 N1 N2 (p & q & Hp & Hq & EX) (r & s & Hr & Hs & EC).
    set (K1 := nth k c1 0) in *. set (K2 := nth k c2 0) in *. set (X1 := nth k x1 0). set (X2 := nth k x2 0).
    assert (B1 : b1 * K1 = - (a1 * X1)) by (specialize (E1 k); rewrite Z1 in E1; fold K1 X1 in E1; lia).
    assert (B2 : b2 * K2 = - (a2 * X2)) by (specialize (E2 k); rewrite Z2 in E2; fold K2 X2 in E2; lia).
    assert (PX := EX k). fold X1 X2 in PX. assert (PC := EC k). fold K1 K2 in PC.
    exists (p * r * K1 * f1 * a2), (a1 * s * q * K2 * f2). split; [repeat (apply Z.neq_mul_0; split); auto|]. split; [repeat (apply Z.neq_mul_0; split); auto|]. intros i.
    specialize (E1 i). specialize (E2 i). specialize (EX i). specialize (EC i). set (u1 := nth i y1 0) in *. set (u2 := nth i y2 0) in *. set (v1 := nth i x1 0) in *. set (v2 := nth i x2 0) in *. set (w1 := nth i c1 0) in *. set (w2 := nth i c2 0) in *.
    assert (D1 : K1 * (f1 * u1) = a1 * (K1 * v1 - X1 * w1)) by (rewrite E1; transitivity (a1 * K1 * v1 + (b1 * K1) * w1); [ring|rewrite B1; ring]).
    assert (D2 : K2 * (f2 * u2) = a2 * (K2 * v2 - X2 * w2)) by (rewrite E2; transitivity (a2 * K2 * v2 + (b2 * K2) * w2); [ring|rewrite B2; ring]).
    transitivity (p * r * a2 * (K1 * (f1 * u1))); [ring|]. rewrite D1. transitivity (s * q * a1 * (K2 * (f2 * u2))); [|ring]. rewrite D2.
    transitivity (a1 * a2 * ((r * K1) * (p * v1) - (p * X1) * (r * w1))); [ring|]. rewrite PC, EX, PX, EC. ring.
  Qed.

  Lemma alike_all k : (k <= n)%nat -> alike k.
  Proof.
    induction k as [|k IH]; intros Hk.
    - constructor.
      + transitivity (@nil (nat * nat)); [apply later_none; auto|symmetry; apply later_none; auto].
      + rewrite !Nat.add_0_r. apply start_used.
      + rewrite !Nat.add_0_r. apply start_proportional.
    - specialize (IH ltac:(lia)). destruct IH as [A1 A2 A3].
      assert (G1 := state_inv n V1 H1 (t1 + k) ltac:(unfold t1; lia)). assert (G2 := state_inv n V2 H2 (t2 + k) ltac:(unfold t2; lia)).
      replace (t1 + S k)%nat with (S (t1 + k)) by lia. replace (t2 + S k)%nat with (S (t2 + k)) by lia.
      assert (C1 := g_c _ _ _ _ _ G1). assert (C2 := g_c _ _ _ _ _ G2). assert (R1 := c_rect _ _ _ C1). assert (R2 := c_rect _ _ _ C2).
      assert (X : forall j, (j < n)%nat -> ~ In j (used n V1 (t1 + k)) -> (mget (fst (state n V1 (t1 + k))) (t1 + k) j =? 0) = (mget (fst (state n V2 (t2 + k))) (t2 + k) j =? 0)).
      { intros j Hj Hu. destruct (A3 j Hj Hu) as (a & b & Ha & Hb & E). specialize (E k). unfold t1, t2 in *. rewrite !(bot_entry n) by (auto; lia).
        destruct (Z.eqb_spec (nth k (bot V1 j (fst (state n V1 (length V1 + k)))) 0) 0) as [Z1|Z1], (Z.eqb_spec (nth k (bot V2 j (fst (state n V2 (length V2 + k)))) 0) 0) as [Z2|Z2]; auto; nia. }
      assert (P : pivot_col n (fst (state n V1 (t1 + k))) (t1 + k) (used n V1 (t1 + k)) = pivot_col n (fst (state n V2 (t2 + k))) (t2 + k) (used n V2 (t2 + k))).
      { unfold pivot_col. apply find_same. intros j Hj. apply in_seq in Hj. specialize (A2 j ltac:(lia)).
        destruct (existsb (Nat.eqb j) (used n V1 (t1 + k))) eqn:U1, (existsb (Nat.eqb j) (used n V2 (t2 + k))) eqn:U2; rewrite ?andb_false_r; auto.
        - exfalso. apply existsb_exists in U1 as (j' & U1 & E). apply Nat.eqb_eq in E. subst j'. apply A2 in U1. assert (true = false); [|discriminate]. rewrite <- U2. symmetry. apply existsb_exists. exists j. split; auto. apply Nat.eqb_refl.
        - exfalso. apply existsb_exists in U2 as (j' & U2 & E). apply Nat.eqb_eq in E. subst j'. apply A2 in U2. assert (true = false); [|discriminate]. rewrite <- U1. symmetry. apply existsb_exists. exists j. split; auto. apply Nat.eqb_refl.
        - rewrite X; auto; [lia|]. intros U. assert (true = false); [|discriminate]. rewrite <- U1. symmetry. apply existsb_exists. exists j. split; auto. apply Nat.eqb_refl. }
      assert (S1 := state_S n V1 (t1 + k)). assert (S2 := state_S n V2 (t2 + k)). unfold used in *.
      destruct (state n V1 (t1 + k)) as (M1, piv1). destruct (state n V2 (t2 + k)) as (M2, piv2). cbn [fst snd] in *. unfold gauss_row in S1, S2.
      assert (Hs1 := pivot_col_spec n V1 M1 (t1 + k) (map snd piv1)). assert (Hs2 := pivot_col_spec n V2 M2 (t2 + k) (map snd piv2)).
      rewrite <- P in S2, Hs2. destruct (pivot_col n M1 (t1 + k) (map snd piv1)) as [c|]; [|constructor; unfold used; rewrite !Nat.add_succ_r, S1, S2; cbn [fst snd]; auto].
      destruct Hs1 as (Hc & Hp1 & Hu1). destruct Hs2 as (_ & Hp2 & Hu2).
      destruct (elim_cols_spec n V1 M1 (t1 + k) c C1 ltac:(unfold t1; lia) Hc Hp1) as (C1' & _ & I1). destruct (elim_cols_spec n V2 M2 (t2 + k) c C2 ltac:(unfold t2; lia) Hc Hp2) as (C2' & _ & I2).
      assert (R1' := c_rect _ _ _ C1'). assert (R2' := c_rect _ _ _ C2').
      constructor; unfold used; rewrite !Nat.add_succ_r, S1, S2; cbn [fst snd].
      + rewrite !later_app, A1. f_equal. unfold later. cbn [filter fst]. destruct (Nat.leb_spec t1 (t1 + k)); [|lia]. destruct (Nat.leb_spec t2 (t2 + k)); [|lia]. cbn [map fst snd]. replace (t1 + k - t1)%nat with (t2 + k - t2)%nat by lia. reflexivity.
      + intros j Hj. rewrite !map_app, !in_app_iff, (A2 j Hj). cbn [map snd In]. tauto.
      + intros j Hj Hu. rewrite map_app in Hu. cbn [map snd] in Hu. assert (Hjc : j <> c) by (intros ->; apply Hu, in_app_iff; right; left; auto). assert (Hju : ~ In j (map snd piv1)) by (intros K; apply Hu, in_app_iff; auto).
        destruct (I1 j Hj Hjc) as (f1 & a1 & b1 & Hf1 & Ha1 & E1 & Z1). destruct (I2 j Hj Hjc) as (f2 & a2 & b2 & Hf2 & Ha2 & E2 & Z2).
        unfold t1, t2 in *. rewrite (bot_entry n) in Z1, Z2, Hp1, Hp2 by (auto; lia).
        apply (proportional_step (bot V1 j M1) (bot V1 c M1) _ (bot V2 j M2) (bot V2 c M2) _ k f1 a1 b1 f2 a2 b2); auto.
        * apply (bot_eq n V1 _ M1); auto.
        * apply (bot_eq n V2 _ M2); auto.
  Qed.

  Lemma gauss_state W : gauss n W = (fold_left sign_col (seq 0 n) (fst (state n W (length W + n))), snd (state n W (length W + n))).
  Proof. unfold gauss, state. destruct (fold_left _ _ _) as (M, piv). reflexivity. Qed.
  Lemma eqs_columns W : dims n W -> eqs n W = map (fun c => bot W c (fst (gauss n W))) (sort_desc (eq_columns (length W) (snd (gauss n W)))).
  Proof.
    intros HW. unfold eqs, prepare. assert (G := gauss_correct n W HW). destruct (gauss n W) as (M, piv). cbn [fst snd] in *.
    assert (C := r_c _ _ _ _ G). assert (R := c_rect _ _ _ C). 
    assert (EB : transpose n (skipn (length W) M) = map (fun j => bot W j M) (seq 0 n)).
    { unfold transpose. apply map_ext. intros j. unfold bot, colv. symmetry. apply skipn_map. }
    rewrite EB. set (idx := sort_desc (eq_columns (length W) piv)).
    assert (Hin : forall i, In i idx -> (i < n)%nat).
    { intros i Hi. apply (Permutation_in _ (sort_desc_perm _)) in Hi. unfold eq_columns in Hi. apply in_map_iff in Hi as (p & <- & Hp). apply filter_In in Hp as (Hp & _).
      assert (K : In (snd p) (seq 0 n)) by (apply (Permutation_in _ (r_cols _ _ _ _ G)); apply in_map; auto). apply in_seq in K. lia. }
    destruct (extract_rows_spec (map (fun j => bot W j M) (seq 0 n)) idx) as (Ee & _ & _).
    - apply sort_desc_desc. unfold eq_columns. assert (N : NoDup (map snd piv)) by (apply (Permutation_NoDup (Permutation_sym (r_cols _ _ _ _ G))), seq_NoDup). clear - N.
      induction piv as [|p piv IH]; cbn [filter map] in *; [constructor|]. inversion N as [|? ? N1 N2]; subst. destruct (length W <=? fst p)%nat; cbn [map]; [|auto]. constructor; auto.
      intros K. apply N1. apply in_map_iff in K as (q & E & K). apply filter_In in K as (K & _). apply in_map_iff. eauto.
    - intros i Hi. rewrite map_length, seq_length. auto.
    - destruct (extract_rows (map (fun j => bot W j M) (seq 0 n)) idx) as (E, rest). cbn [fst] in Ee. destruct (eliminate_zero_columns n rest W) as ((M', V'), zc). cbn [p_eqs]. rewrite Ee.
      apply map_ext_in. intros i Hi. apply nth_bots; auto.
  Qed.

  (** The equations that are extracted are the same, in the same order. *)
  Theorem eqs_same : eqs n V1 = eqs n V2.
  Proof.
    assert (A := alike_all n (le_n n)). assert (L := al_later _ A).
    assert (I1 := eqs_columns V1 H1). assert (I2 := eqs_columns V2 H2). rewrite later_columns in I1, I2. rewrite !gauss_state in I1, I2. cbn [fst snd] in I1, I2. fold t1 in I1. fold t2 in I2. rewrite <- L in I2. rewrite I1, I2.
    apply map_ext_in. intros c Hc. apply (Permutation_in _ (sort_desc_perm _)) in Hc. apply in_map_iff in Hc as ((k & c') & E & Hc). cbn [snd] in E. subst c'.
    assert (G1 := gauss_correct n V1 H1). assert (G2 := gauss_correct n V2 H2). rewrite gauss_state in G1, G2. cbn [fst snd] in G1, G2. fold t1 in G1. fold t2 in G2.
    set (M1 := fold_left sign_col (seq 0 n) (fst (state n V1 (t1 + n)))) in *. set (M2 := fold_left sign_col (seq 0 n) (fst (state n V2 (t2 + n)))) in *.
    assert (R1 := c_rect _ _ _ (r_c _ _ _ _ G1)). assert (R2 := c_rect _ _ _ (r_c _ _ _ _ G2)).
    assert (LE : forall k' c', In (k', c') (later t1 (snd (state n V1 (t1 + n)))) -> (k' < n)%nat /\ (c' < n)%nat /\
      0 < nth k' (bot V1 c' M1) 0 /\ 0 < nth k' (bot V2 c' M2) 0 /\ (forall i, (i < k')%nat -> nth i (bot V1 c' M1) 0 = 0 /\ nth i (bot V2 c' M2) 0 = 0) /\
      (forall j, (j < n)%nat -> j <> c' -> nth k' (bot V1 j M1) 0 = 0 /\ nth k' (bot V2 j M2) 0 = 0)).
    { intros k' c' Hin. assert (P1 := later_in _ _ _ _ Hin). rewrite L in Hin. assert (P2 := later_in _ _ _ _ Hin). assert (B1 := r_rows _ _ _ _ G1 _ P1). assert (B2 := r_rows _ _ _ _ G2 _ P2). cbn [fst] in B1, B2.
      assert (D1 := r_diag _ _ _ _ G1 _ P1). assert (D2 := r_diag _ _ _ _ G2 _ P2). assert (O1 := fun j => r_off _ _ _ _ G1 _ j P1). assert (O2 := fun j => r_off _ _ _ _ G2 _ j P2).
      cbn [fst snd] in *. unfold t1, t2 in *. assert (Hk' : (k' < n)%nat) by lia. split; [auto|].
      assert (K : In c' (seq 0 n)) by (apply (Permutation_in _ (r_cols _ _ _ _ G1)); apply in_map_iff; eexists; split; [|exact P1]; reflexivity). apply in_seq in K. split; [lia|].
      rewrite (bot_entry n) in D1, D2 by auto. split; [auto|]. split; [auto|]. split.
      - intros i Hi. split.
        + assert (Z := r_ech _ _ _ _ G1 _ (length V1 + i)%nat P1). cbn [fst snd] in Z. rewrite (bot_entry n) in Z by (auto; lia). apply Z. lia.
        + assert (Z := r_ech _ _ _ _ G2 _ (length V2 + i)%nat P2). cbn [fst snd] in Z. rewrite (bot_entry n) in Z by (auto; lia). apply Z. lia.
      - intros j Hj Hjc. split.
        + assert (Z := O1 j Hj Hjc). cbn [fst snd] in Z. rewrite (bot_entry n) in Z by auto. auto.
        + assert (Z := O2 j Hj Hjc). cbn [fst snd] in Z. rewrite (bot_entry n) in Z by auto. auto. }
    destruct (LE k c Hc) as (Hk & Hcn & D1 & D2 & _ & _). set (x := bot V1 c M1) in *. set (y := bot V2 c M2) in *.
    assert (P1 := prepare_ok n V1 H1). assert (P2 := prepare_ok n V2 H2).
    assert (X1 : In x (eqs n V1)). { rewrite I1. apply in_map_iff. exists c. split; [reflexivity|]. apply (Permutation_in _ (Permutation_sym (sort_desc_perm _))). apply in_map_iff. exists (k, c). auto. }
    assert (X2 : In y (eqs n V2)). { rewrite I2. apply in_map_iff. exists c. split; [reflexivity|]. apply (Permutation_in _ (Permutation_sym (sort_desc_perm _))). apply in_map_iff. exists (k, c). auto. }
    assert (Lx : length x = n) by (apply bot_length; auto). assert (Ly : length y = n) by (apply bot_length; auto).
    assert (V1x : vanishes V1 x) by (apply (po_eqs_van _ _ _ P1); auto). assert (V1y : vanishes V1 y) by (apply same; auto; apply (po_eqs_van _ _ _ P2); auto).
    set (z := vadd (vscale (nth k y 0) x) (vscale (- nth k x 0) y)). assert (Lz : length z = n) by (unfold z; apply vadd_length_eq; rewrite vscale_length; auto).
    assert (E0 : z = vzero n).
    { apply (span_zero_leads n (eqs n V1) (extracted_leads n V1 H1)); auto.
      - apply (po_eqs_span _ _ _ P1); auto. intros v Hv. unfold z. rewrite dot_vadd_l, !dot_vscale_l by (rewrite !vscale_length; lia). rewrite (V1x v Hv), (V1y v Hv). lia.
      - intros e He. rewrite I1 in He. apply in_map_iff in He as (c' & <- & Hc'). apply (Permutation_in _ (sort_desc_perm _)) in Hc'. apply in_map_iff in Hc' as ((k' & c'') & E & Hc'). cbn [snd] in E. subst c''.
        destruct (LE k' c' Hc') as (Hk' & Hcn' & D1' & D2' & B' & O'). rewrite (first_nz_unique _ k'); [|lia|intros i Hi; apply B'; auto].
        unfold z. rewrite nth_vadd, !nth_vscale by (rewrite !vscale_length; lia). destruct (Nat.eq_dec c c') as [<-|Hne].
        + assert (k' = k); [|subst; lia]. destruct (Nat.lt_trichotomy k k') as [T|[T|T]]; auto; exfalso.
          * destruct (B' k T) as (Z & _). fold x in Z. lia.
          * destruct (LE k c Hc) as (_ & _ & _ & _ & B & _). destruct (B k' T) as (Z & _). lia.
        + destruct (O' c Hcn Hne) as (Z1 & Z2). unfold x at 1, y at 2. rewrite Z1, Z2. lia. }
    apply (proportional_primitive n x y (nth k y 0) (nth k x 0)); auto.
    - right. apply (po_eqs_prim _ _ _ P1); auto.
    - right. apply (po_eqs_prim _ _ _ P2); auto.
    - apply (vec_ext_nth n); rewrite ?vscale_length; auto. intros i _. rewrite !nth_vscale. assert (E1 := f_equal (fun u => nth i u 0) E0). cbn beta in E1. unfold z in E1. rewrite nth_vadd, !nth_vscale, nth_vzero in E1 by (rewrite !vscale_length; lia). lia.
  Qed.
End Two.
