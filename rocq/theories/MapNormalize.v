(** * MapNormalize: the action of a normalised map. *)
From Coq Require Import List ZArith Arith Lia Bool Permutation Sorted.
From Verif Require Import Base Spec LinAlg ListUtil FmeCore ArithModel SafeIntModel Refine IntTypes DimTheorems NormTheorems FmeTheorems
  ClassesModel ApplyTheorems MapModel MapProofs.
Import ListNotations.
Open Scope Z_scope.

Definition term_in (n : nat) (tm : term) : Prop := (fst tm < n)%nat /\ fits 32 (snd tm) = true.

(** ** simplify keeps values and ranges *)
Lemma image_value_app a b x : image_value (a ++ b) x = image_value a x + image_value b x.
Proof. unfold image_value. induction a as [|y a IH]; cbn [app fold_right]; lia. Qed.
Lemma image_value_perm a b x : Permutation a b -> image_value a x = image_value b x.
Proof. unfold image_value. induction 1; cbn [fold_right] in *; lia. Qed.
Lemma zloop_value L x rest r : zloop L x rest = Ok r -> forall y, image_value r y = image_value (rev L ++ x :: rest) y.
Proof.
  revert L x. induction rest as [|y rest IH]; intros L x E z; cbn [zloop] in E.
  - assert (r = rev (x :: L)) as -> by congruence. reflexivity.
  - destruct (Nat.eqb_spec (fst x) (fst y)) as [Ef|Ef].
    + unfold i_add, ck in E. destruct (fits 32 (snd x + snd y)); cbn [bind] in E; [|discriminate].
      destruct (Z.eqb_spec (snd x + snd y) 0) as [Hs|Hs].
      * assert (Hxy : forall a b, image_value (a ++ x :: y :: b) z = image_value (a ++ b) z).
        { intros a b. rewrite !image_value_app. cbn [image_value fold_right]. fold (image_value b z). rewrite Ef. nia. }
        rewrite Hxy. destruct L as [|p L].
        -- destruct rest; [|discriminate]. assert (r = []) as -> by congruence. reflexivity.
        -- rewrite (IH _ _ E). cbn [rev]. rewrite <- app_assoc. reflexivity.
      * rewrite (IH _ _ E). rewrite !image_value_app. cbn [image_value fold_right fst snd]. fold (image_value rest z). rewrite <- Ef. lia.
    + rewrite (IH _ _ E). cbn [rev]. rewrite <- app_assoc. reflexivity.
Qed.
Lemma zloop_in n L x rest r : zloop L x rest = Ok r -> Forall (term_in n) (x :: L) -> Forall (term_in n) rest -> Forall (term_in n) r.
Proof.
  revert L x. induction rest as [|y rest IH]; intros L x E HL HR; cbn [zloop] in E.
  - assert (r = rev (x :: L)) as -> by congruence. apply Forall_rev. auto.
  - inversion HR as [|? ? Hy HR']; subst. inversion HL as [|? ? Hx HL']; subst. destruct (Nat.eqb_spec (fst x) (fst y)) as [Ef|Ef].
    + unfold i_add, ck in E. destruct (fits 32 (snd x + snd y)) eqn:Ef2; cbn [bind] in E; [|discriminate].
      destruct (Z.eqb_spec (snd x + snd y) 0) as [Hs|Hs].
      * destruct L as [|p L].
        -- destruct rest; [|discriminate]. assert (r = []) as -> by congruence. constructor.
        -- apply (IH _ _ E); auto.
      * apply (IH _ _ E); auto. constructor; auto. split; cbn [fst snd]; auto. apply Hx.
    + apply (IH _ _ E); auto.
Qed.
Lemma simplify_value n im r : Z.of_nat (length im) < 2 ^ 64 -> m_simplify_image im = Ok r ->
  (forall y, image_value r y = image_value im y) /\ (Forall (term_in n) im -> Forall (term_in n) r).
Proof.
  intros Hb E. rewrite simplify_zimage in E by auto. unfold zimage in E. assert (Hp := sort_perm im).
  destruct (term_sort im) as [|x rest].
  - assert (r = []) as -> by congruence. apply Permutation_nil in Hp. subst. split; [auto|]. auto.
  - split.
    + intros y. rewrite (zloop_value [] x rest r E y). apply image_value_perm. exact Hp.
    + intros H. apply (Permutation_Forall (Permutation_sym Hp)) in H. inversion H; subst. apply (zloop_in n [] x rest r E); auto.
Qed.

(** ** subtractEquation *)
(** Solving the equation [e] for its leading coordinate, when the leading coefficient is 1. *)
Definition solved (e x : vec) : vec := upd x (first_nz e) (nth (first_nz e) x 0 - dot e x).

Lemma nth_solved e x i : (first_nz e < length x)%nat ->
  nth i (solved e x) 0 = if (i =? first_nz e)%nat then nth (first_nz e) x 0 - dot e x else nth i x 0.
Proof.
  intros H. unfold solved. rewrite nth_upd. destruct (Nat.eqb_spec i (first_nz e)); subst; auto.
  destruct (Nat.ltb_spec (first_nz e) (length x)); auto; lia.
Qed.
Lemma solved_length e x : length (solved e x) = length x.
Proof. apply upd_length. Qed.

Lemma dot_lead e x : length e = length x -> (first_nz e < length x)%nat -> dot e x = nth (first_nz e) e 0 * nth (first_nz e) x 0 + dot (skipn (S (first_nz e)) e) (skipn (S (first_nz e)) x).
Proof.
  revert x. induction e as [|a e IH]; intros [|b x] Hl Hz; try discriminate; cbn [length] in *; [lia|].
  cbn [first_nz] in *. destruct (Z.eqb_spec a 0) as [->|Ha].
  - cbn [nth dot]. rewrite !skipn_cons. rewrite IH by lia. lia.
  - cbn [nth dot]. rewrite !skipn_cons, !skipn_O. reflexivity.
Qed.

Section Typed.
  Variable t : int_type.

  Lemma eqi_zero (e : Z) : a_eqi (arith t) (e : num (arith t)) 0 = (e =? 0).
  Proof. destruct t; reflexivity. Qed.
  Lemma first_nonzero_z (e : vec) : m_first_nonzero (arith t) (e : list (num (arith t))) = first_nz e.
  Proof.
    induction e as [|x e IH]; cbn [m_first_nonzero first_nz]; auto. rewrite (eqi_zero x). destruct (x =? 0); cbn [negb]; auto.
  Qed.

  Hypothesis Ht : t <> INT64.

  Lemma factor_value c e f : m_factor t c e = Ok f -> f = - c * e /\ fits 32 f = true.
  Proof.
    unfold m_factor, i_neg, i_mul, ck. destruct (fits 32 (- c)); cbn [bind]; [|discriminate].
    destruct t; try congruence; try (destruct (fits 32 e); [|discriminate]); destruct (fits 32 (- c * e)) eqn:E; intros H; try discriminate; assert (f = - c * e) as -> by congruence; auto.
  Qed.

  Lemma expand_value n c : forall (eq : vec) j im, m_expand t c j (eq : list (num (arith t))) = Ok im -> (j + length eq <= n)%nat ->
    (forall x, length x = n -> image_value im x = - c * dot eq (skipn j x)) /\ Forall (term_in n) im /\ (length im <= length eq)%nat.
  Proof.
    induction eq as [|e eq IH]; intros j im E Hj.
    - cbn [m_expand] in E. assert (im = []) as -> by congruence. split; [|split; [constructor|auto]]. intros x _. cbn. lia.
    - cbn [m_expand] in E. rewrite (eqi_zero e) in E. cbn [length] in Hj.
      assert (Hsk : forall x, length x = n -> skipn j x = nth j x 0 :: skipn (S j) x).
      { intros x Hx. assert (Hj' : (j < length x)%nat) by lia. clear -Hj'. revert j Hj'. induction x as [|y x IHx]; intros [|j] Hj; cbn [length] in *; try lia; auto.
        rewrite !skipn_cons. apply IHx. lia. }
      destruct (Z.eqb_spec e 0) as [He|He]; cbn [negb] in E.
      + destruct (IH (S j) im E ltac:(lia)) as (H1 & H2 & H3). split; [|split; [auto|cbn [length]; lia]].
        intros x Hx. rewrite (H1 x Hx), (Hsk x Hx). cbn [dot]. rewrite He. lia.
      + unfold factor_of in E. destruct (m_factor t c e) as [f| |] eqn:Ef; cbn [bind] in E; try discriminate.
        match type of E with (bind ?m _ = _) => destruct m as [rest| |] eqn:Er end; cbn [bind] in E; try discriminate.
        assert (im = (j, f) :: rest) as -> by congruence. destruct (IH (S j) rest Er ltac:(lia)) as (H1 & H2 & H3).
        destruct (factor_value _ _ _ Ef) as (-> & Hf). split; [|split].
        * intros x Hx. cbn [image_value fold_right fst snd]. fold (image_value rest x). rewrite (H1 x Hx), (Hsk x Hx). cbn [dot]. lia.
        * constructor; auto. split; cbn [fst snd]; [lia|auto].
        * cbn [length]. lia.
  Qed.

  Lemma subtract_value n (e : vec) im im' : length e = n -> (first_nz e < n)%nat -> nth (first_nz e) e 0 = 1 ->
    m_subtract_image t (first_nz e) (e : list (num (arith t))) im = Ok im' -> Forall (term_in n) im ->
    (forall x, length x = n -> image_value im' x = image_value im (solved e x)) /\ Forall (term_in n) im' /\ (length im' <= Nat.max n (length im))%nat.
  Proof.
    intros He Hz Hl E Hin. unfold m_subtract_image in E. destruct im as [|tm others].
    - assert (im' = []) as -> by congruence. repeat split; auto. cbn [length]. lia.
    - match type of E with (bind ?m _ = _) => destruct m as [im1| |] eqn:E1 end; cbn [bind] in E; try discriminate.
      destruct others; [|discriminate]. assert (im' = im1) as -> by congruence.
      destruct (Nat.eqb_spec (fst tm) (first_nz e)) as [Eq|Ne].
      + destruct (expand_value n _ _ _ _ E1) as (H1 & H2 & H3); [rewrite skipn_length; change (num (arith t)) with Z in *; unfold vec in *; lia|].
        split; [|split; [auto|rewrite skipn_length in H3; change (num (arith t)) with Z in *; unfold vec in *; lia]]. intros x Hx. rewrite (H1 x Hx). cbn [image_value fold_right].
        rewrite nth_solved by lia. rewrite Eq, Nat.eqb_refl. rewrite (dot_lead e x) by lia. rewrite Hl. change (num (arith t)) with Z in *; unfold vec in *; set (q := dot (skipn _ _) _); fold q; nia.
      + assert (im1 = [tm]) as -> by congruence. split; [|split; [auto|cbn [length]; lia]]. intros x Hx. cbn [image_value fold_right].
        rewrite nth_solved by lia. destruct (Nat.eqb_spec (fst tm) (first_nz e)); [congruence|]. reflexivity.
  Qed.

  (** ** The whole map *)
  Definition images_like (n : nat) (f : vec -> vec) (m m' : lmap) : Prop :=
    length m' = length m /\ forall i x, length x = n -> image_value (nth i m' []) x = image_value (nth i m []) (f x).
  Definition small (n : nat) (m : lmap) : Prop := Forall (fun im => Forall (term_in n) im /\ Z.of_nat (length im) < 2 ^ 64) m.

  Lemma mapM_images {Q P : image -> Prop} f g n m m' : mapM g m = Ok m' -> Forall Q m ->
    (forall im im', g im = Ok im' -> Q im -> (forall x, length x = n -> image_value im' x = image_value im (f x)) /\ P im') ->
    images_like n f m m' /\ Forall P m'.
  Proof.
    intros E HQ Hg. revert m' E. induction HQ as [|im m Him HQ IH]; intros m' E; cbn [mapM] in E.
    - assert (m' = []) as -> by congruence. split; [|constructor]. split; auto. intros [|i] x _; reflexivity.
    - destruct (g im) as [im'| |] eqn:E1; cbn [bind] in E; try discriminate.
      match type of E with (bind ?m _ = _) => destruct m as [ms| |] eqn:E2 end; cbn [bind] in E; try discriminate.
      assert (m' = im' :: ms) as -> by congruence. destruct (IH ms eq_refl) as ((L1 & L2) & L3). destruct (Hg _ _ E1 Him) as (H1 & H2).
      split; [|constructor; auto]. split; [cbn [length]; lia|]. intros [|i] x Hx; cbn [nth]; auto.
  Qed.

  Lemma subtract_all n (E : list vec) m m' : Z.of_nat n < 2 ^ 64 -> dims n E ->
    (forall e, In e E -> (first_nz e < n)%nat /\ nth (first_nz e) e 0 = 1) -> small n m ->
    m_subtract_all t m (E : list (list (num (arith t)))) = Ok m' ->
    images_like n (fun x => fold_right solved x E) m m' /\ small n m'.
  Proof.
    intros Hn HE Hlead. revert m. induction E as [|e E IH]; intros m Hm Eq; unfold m_subtract_all in Eq; cbn [foldM] in Eq.
    - assert (m' = m) as -> by congruence. split; auto. split; auto.
    - match type of Eq with (bind ?m _ = _) => destruct m as [m1| |] eqn:E1 end; cbn [bind] in Eq; try discriminate.
      rewrite (first_nonzero_z e) in E1. inversion HE as [|? ? He HE']; subst. destruct (Hlead e (or_introl eq_refl)) as (Hz & H1).
      assert (H : images_like (length e) (solved e) m m1 /\ Forall (fun im => Forall (term_in (length e)) im /\ Z.of_nat (length im) < 2 ^ 64) m1).
      { apply (mapM_images _ _ _ _ _ E1 Hm). intros im im' Eim (Q1 & Q2).
        destruct (subtract_value (length e) e im im' eq_refl Hz H1 Eim Q1) as (R1 & R2 & R3). split; auto. split; auto. lia. }
      destruct H as ((L1 & L2) & S1).
      destruct (IH HE' (fun e' He' => Hlead e' (or_intror He')) m1 S1 Eq) as ((M1 & M2) & S2). split; auto. split; [lia|].
      intros i x Hx. cbn [fold_right]. rewrite M2 by auto. apply L2.
      assert (G : forall l, length (fold_right solved x l) = length x) by (induction l as [|q l IHl]; cbn [fold_right]; auto; rewrite solved_length; auto).
      rewrite G. auto.
  Qed.

  Lemma simplify_map n m m' : small n m -> m_simplify m = Ok m' -> images_like n (fun x => x) m m' /\ Forall (Forall (term_in n)) m'.
  Proof.
    intros Hm E. apply (mapM_images _ _ _ _ _ E Hm). intros im im' Eim (Q1 & Q2). destruct (simplify_value n im im' Q2 Eim) as (R1 & R2). auto.
  Qed.

  Lemma eliminate_spec n zs m m' : m_eliminate m zs = Ok m' -> small n m ->
    length m' = length m /\ small n m' /\ forall i, ~ In i zs -> nth i m' [] = nth i m [].
  Proof.
    unfold m_eliminate. revert m. induction zs as [|z zs IH]; intros m E Hm; cbn [foldM] in E.
    - assert (m' = m) as -> by congruence. auto.
    - match type of E with (bind ?m _ = _) => destruct m as [q| |] eqn:Es end; cbn [bind] in E; try discriminate.
      assert (q = upd m z []) as -> by (unfold set, lmap, image in *; match type of Es with ((if ?b then _ else _) = _) => destruct b end; congruence).
      destruct (IH (upd m z []) E) as (H1 & H2 & H3).
      + clear -Hm. revert z. induction Hm as [|im m Him Hm IH]; intros [|z]; cbn [upd]; constructor; auto. split; [constructor|cbn; lia]. apply IH.
      + rewrite upd_length in H1. split; auto. split; auto. intros i Hi. cbn [In] in Hi. rewrite H3 by tauto. apply nth_upd_other. intros ->. tauto.
  Qed.

  Lemma normalize_map_spec n (E : list vec) m m' : Z.of_nat n < 2 ^ 64 -> dims n E ->
    (forall e, In e E -> (first_nz e < n)%nat /\ nth (first_nz e) e 0 = 1) -> length m = n -> small n m ->
    m_normalize_map t (E : list (list (num (arith t)))) m = Ok m' ->
    map_in n m' /\ forall a x, length a = n -> length x = n -> (forall e, In e E -> nth (first_nz e) a 0 = 0) ->
      dot a (substitute m' x) = dot a (substitute m (fold_right solved x E)).
  Proof.
    intros Hn HE Hlead Hl Hm Eq. unfold m_normalize_map in Eq.
    destruct (m_eliminate m (m_indices t E)) as [m1| |] eqn:E1; cbn [bind] in Eq; try discriminate.
    destruct (eliminate_spec n _ _ _ E1 Hm) as (L1 & S1 & N1).
    match type of Eq with (bind ?m _ = _) => destruct m as [m2| |] eqn:E2 end; cbn [bind] in Eq; try discriminate.
    destruct (subtract_all n E m1 m2 Hn HE Hlead S1 E2) as ((L2 & V2) & S2).
    destruct (simplify_map n m2 m' S2 Eq) as ((L3 & V3) & S3).
    assert (Hm' : map_in n m') by (split; [lia|exact S3]).
    split; auto. intros a x Ha Hx Hz.
    assert (Ls : forall q : lmap, length q = n -> forall y, length (substitute q y) = n) by (intros q Hq y; unfold substitute; rewrite map_length; auto).
    rewrite <- (sum_dot a (substitute m' x) n), <- (sum_dot a (substitute m (fold_right solved x E)) n) by (auto; apply Ls; lia).
    apply sumf_ext. intros i _.
    assert (Nth : forall (q : lmap) y, nth i (substitute q y) 0 = image_value (nth i q []) y).
    { intros q y. unfold substitute. change 0 with (image_value [] y) at 1. apply map_nth. }
    rewrite !Nth. destruct (in_dec Nat.eq_dec i (m_indices t E)) as [Hin|Hout].
    - assert (nth i a 0 = 0); [|nia]. unfold m_indices in Hin. apply in_map_iff in Hin. destruct Hin as (e & <- & He).
      rewrite (first_nonzero_z e). auto.
    - rewrite V3, V2, N1 by auto. reflexivity.
  Qed.
End Typed.

(** ** Normalising the row *)
Lemma norm_step_dot n r e x : length r = n -> length e = n -> length x = n -> (first_nz e < n)%nat -> nth (first_nz e) e 0 = 1 ->
  dot (norm_step r e) x = dot r (solved e x).
Proof.
  intros Hr He Hx Hz Hl. assert (Hd : dot r (solved e x) = dot r x - nth (first_nz e) r 0 * dot e x).
  { rewrite dot_comm. unfold solved. rewrite dot_upd by lia. rewrite (dot_comm x r). lia. }
  rewrite Hd. unfold norm_step. destruct (Z.eqb_spec (nth (first_nz e) r 0) 0) as [E|E]; [rewrite E; lia|].
  rewrite Hl, vscale_1, dot_vadd_l, !dot_vscale_l by (rewrite !vscale_length; lia). lia.
Qed.
Lemma fold_norm_dot n E : forall r x, length r = n -> dims n E -> length x = n ->
  (forall e, In e E -> (first_nz e < n)%nat /\ nth (first_nz e) e 0 = 1) -> 
  length (fold_left norm_step E r) = n /\ dot (fold_left norm_step E r) x = dot r (fold_right solved x E).
Proof.
  induction E as [|e E IH]; intros r x Hr HE Hx Hl; cbn [fold_left fold_right]; auto.
  inversion HE as [|? ? He HE']; subst. destruct (Hl e (or_introl eq_refl)) as (H1 & H2).
  destruct (IH (norm_step r e) x) as (I1 & I2); auto.
  - apply norm_step_length; auto.
  - intros e' He'. apply Hl. right. auto.
  - split; [exact I1|]. rewrite I2. apply (norm_step_dot (length r)); auto.
    assert (G : forall l, length (fold_right solved x l) = length x) by (induction l as [|q l IHl]; cbn [fold_right]; auto; rewrite solved_length; auto).
    rewrite G. auto.
Qed.

Lemma rnorm_zero_or_primitive r : rnorm r = vzero (length r) \/ primitive (rnorm r).
Proof.
  destruct (list_eq_dec Z.eq_dec r (vzero (length r))) as [E|E]; [left|right; apply rnorm_primitive; auto].
  rewrite E at 1. apply (vscale_inj (rfac (vzero (length r)))); [pose proof (rfac_pos (vzero (length r))); lia|]. rewrite rnorm_spec, vscale_vzero. auto.
Qed.
Lemma rnorm_vscale k r : 0 < k -> rnorm (vscale k r) = rnorm r.
Proof.
  intros Hk. apply (proportional_primitive (length r) (rnorm (vscale k r)) (rnorm r) (rfac (vscale k r)) (k * rfac r)).
  - apply rfac_pos.
  - assert (H := rfac_pos r). nia.
  - rewrite rnorm_length, vscale_length. auto.
  - apply rnorm_length.
  - rewrite <- (vscale_length k r). apply rnorm_zero_or_primitive.
  - apply rnorm_zero_or_primitive.
  - rewrite rnorm_spec, <- vscale_vscale, rnorm_spec. reflexivity.
Qed.

Lemma normalized_action t n (E : list vec) m m' (a : vec) : t <> INT64 -> Z.of_nat n < 2 ^ 64 -> dims n E ->
  (forall e, In e E -> (first_nz e < n)%nat /\ nth (first_nz e) e 0 = 1) -> length m = n -> small n m ->
  m_normalize_map t (E : list (list (num (arith t)))) m = Ok m' -> length a = n -> (forall e, In e E -> nth (first_nz e) a 0 = 0) ->
  map_in n m' /\ rnorm (praw Facet_tag m' a) = normalize (rnorm (praw Facet_tag m a)) E.
Proof.
  intros Ht Hn HE Hlead Hl Hm Eq Ha Hz. destruct (normalize_map_spec t Ht n E m m' Hn HE Hlead Hl Hm Eq) as (Hm' & Hv).
  split; auto. assert (Hmi : map_in n m).
  { split; auto. apply Forall_forall. intros im Him. unfold small in Hm. rewrite Forall_forall in Hm. apply (Hm im Him). }
  assert (G : forall l x, length (fold_right solved x l) = length x) by (induction l as [|q l IHl]; intros x; cbn [fold_right]; auto; rewrite solved_length; auto).
  set (w := praw Facet_tag m a). assert (Lw : length w = n) by (unfold w; rewrite praw_length; auto).
  assert (E1 : praw Facet_tag m' a = fold_left norm_step E w).
  { apply (dot_ext n); [rewrite praw_length; auto|apply (fold_norm_dot n E w (vzero n)); auto; apply vzero_length|].
    intros x Hx. rewrite (facet_dot n) by auto. rewrite (proj2 (fold_norm_dot n E w x Lw HE Hx Hlead)).
    rewrite (Hv a x Ha Hx Hz). unfold w. rewrite (facet_dot n); auto. rewrite G. auto. }
  rewrite E1. unfold normalize.
  assert (Lr : length (rnorm w) = n) by (rewrite rnorm_length; auto).
  assert (E2 : fold_left norm_step E w = vscale (rfac w) (fold_left norm_step E (rnorm w))).
  { apply (dot_ext n); [apply (fold_norm_dot n E w (vzero n)); auto; apply vzero_length
      |rewrite vscale_length; apply (fold_norm_dot n E (rnorm w) (vzero n)); auto; apply vzero_length|].
    intros x Hx. rewrite dot_vscale_l. rewrite (proj2 (fold_norm_dot n E w x Lw HE Hx Hlead)), (proj2 (fold_norm_dot n E (rnorm w) x Lr HE Hx Hlead)).
    rewrite <- (rnorm_spec w) at 1. rewrite dot_vscale_l. reflexivity. }
  rewrite E2. apply rnorm_vscale. apply rfac_pos.
Qed.
