(** * MapProofs: what [simplify] and [normalizeMap] compute. *)
From Coq Require Import List ZArith Arith Lia Bool Permutation Sorted.
From Verif Require Import Base Spec LinAlg ListUtil ArithModel SafeIntModel IntTypes ClassesModel ApplyTheorems MapModel.
Import ListNotations.
Open Scope Z_scope.

(** The factor of coordinate [k] in an image. *)
Definition coefficient (im : image) (k : nat) : Z := fold_right (fun tm s => (if (fst tm =? k)%nat then snd tm else 0) + s) 0 im.

Lemma coefficient_app a b k : coefficient (a ++ b) k = coefficient a k + coefficient b k.
Proof. induction a as [|x a IH]; cbn [app coefficient fold_right]; auto. fold (coefficient (a ++ b) k). fold (coefficient a k). rewrite IH. lia. Qed.
Lemma coefficient_perm a b k : Permutation a b -> coefficient a k = coefficient b k.
Proof. induction 1; cbn [coefficient fold_right]; fold (coefficient); try (fold (coefficient l k); fold (coefficient l' k)); try lia; try (fold (coefficient l k); lia). Qed.

(** ** Sorting *)
Definition tle (a b : term) : Prop := term_le a b = true.
Lemma term_le_total a b : term_le a b = false -> term_le b a = true.
Proof.
  unfold term_le. rewrite orb_false_iff, orb_true_iff, andb_false_iff, andb_true_iff.
  rewrite !Nat.ltb_ge, !Nat.ltb_lt, !Nat.eqb_eq, !Nat.eqb_neq, !Z.leb_gt, !Z.leb_le. lia.
Qed.
Lemma term_le_trans a b c : term_le a b = true -> term_le b c = true -> term_le a c = true.
Proof. unfold term_le. rewrite !orb_true_iff, !andb_true_iff, !Nat.ltb_lt, !Nat.eqb_eq, !Z.leb_le. lia. Qed.
Lemma term_le_fst a b : term_le a b = true -> (fst a <= fst b)%nat.
Proof. unfold term_le. rewrite orb_true_iff, andb_true_iff, Nat.ltb_lt, Nat.eqb_eq. lia. Qed.
Lemma term_le_same a b : term_le a b = true -> fst a = fst b -> snd a <= snd b.
Proof. unfold term_le. rewrite orb_true_iff, andb_true_iff, Nat.ltb_lt, Nat.eqb_eq, Z.leb_le. lia. Qed.

Lemma insert_perm x l : Permutation (term_insert x l) (x :: l).
Proof.
  induction l as [|y l IH]; cbn [term_insert]; auto. destruct (term_le x y); auto.
  transitivity (y :: x :: l); [auto|constructor].
Qed.
Lemma sort_perm l : Permutation (term_sort l) l.
Proof. induction l as [|x l IH]; cbn [term_sort fold_right]; auto. rewrite insert_perm. auto. Qed.
Lemma insert_sorted x l : StronglySorted tle l -> StronglySorted tle (term_insert x l).
Proof.
  induction l as [|y l IH]; intros H; cbn [term_insert]; [repeat constructor|].
  destruct (term_le x y) eqn:E.
  - constructor; auto. constructor; auto. apply StronglySorted_inv in H. destruct H as (_ & H). rewrite Forall_forall in H |- *.
    intros z Hz. apply (term_le_trans x y z); auto. apply H. auto.
  - apply StronglySorted_inv in H. destruct H as (Hs & H). constructor; [apply IH; auto|].
    apply Forall_forall. intros z Hz. apply (Permutation_in _ (insert_perm x l)) in Hz. destruct Hz as [<-|Hz]; [apply term_le_total; auto|].
    rewrite Forall_forall in H. auto.
Qed.
Lemma sort_sorted l : StronglySorted tle (term_sort l).
Proof. induction l as [|x l IH]; cbn [term_sort fold_right]; [constructor|]. apply insert_sorted. auto. Qed.

(** ** The loop as a recursion over the terms not yet looked at; [L] is what precedes the current term, reversed. *)
Fixpoint zloop (L : image) (x : term) (rest : image) : res image :=
  match rest with
  | [] => Ok (rev (x :: L))
  | y :: rest' =>
      if (fst x =? fst y)%nat then
        do s <- i_add 32 (snd x) (snd y);
        if s =? 0 then
          match L with
          | [] => match rest' with [] => Ok [] | _ => UB end
          | p :: L' => zloop L' p rest'
          end
        else zloop L (fst x, s) rest'
      else zloop (x :: L) y rest'
  end.

Lemma get_mid {X} (a : list X) x b : get (a ++ x :: b) (length a) = Ok x.
Proof. unfold get. rewrite nth_error_app2, Nat.sub_diag by lia. reflexivity. Qed.
Lemma at_mid {X} (a : list X) x b : at_z (a ++ x :: b) (Z.of_nat (length a)) = Ok x.
Proof.
  unfold at_z. rewrite app_length. cbn [length]. destruct (Z.ltb_spec (Z.of_nat (length a)) (Z.of_nat (length a + S (length b)))); [|lia].
  rewrite Nat2Z.id. apply get_mid.
Qed.
Lemma set_mid {X} (a : list X) x b y : set_z (a ++ x :: b) (Z.of_nat (length a)) y = Ok (a ++ y :: b).
Proof.
  unfold set_z. rewrite app_length. cbn [length]. destruct (Z.ltb_spec (Z.of_nat (length a)) (Z.of_nat (length a + S (length b)))); [|lia].
  rewrite Nat2Z.id. unfold set. rewrite app_length. cbn [length]. destruct (Nat.ltb_spec (length a) (length a + S (length b))); [|lia].
  f_equal. clear. induction a as [|z a IH]; cbn [app length upd]; auto. f_equal. auto.
Qed.
Lemma erase_mid {X} (a : list X) x b : erase_z (a ++ x :: b) (Z.of_nat (length a)) = Ok (a ++ b).
Proof.
  unfold erase_z. rewrite app_length. cbn [length]. destruct (Z.ltb_spec (Z.of_nat (length a)) (Z.of_nat (length a + S (length b)))); [|lia].
  rewrite Nat2Z.id. unfold eraseM. rewrite app_length. cbn [length]. destruct (Nat.ltb_spec (length a) (length a + S (length b))); [|lia].
  f_equal. clear. induction a as [|z a IH]; cbn [app length erase]; auto. f_equal. auto.
Qed.
Lemma wrap_small z : 0 <= z < 2 ^ 64 -> size_wrap z = z.
Proof. intros H. unfold size_wrap. apply Z.mod_small. auto. Qed.
Lemma wrap_back z : 0 <= z < 2 ^ 64 -> size_wrap (size_wrap (z - 1) + 1) = z.
Proof. intros H. unfold size_wrap. rewrite Zplus_mod_idemp_l. replace (z - 1 + 1) with z by lia. apply Z.mod_small. auto. Qed.
Lemma wrap_back2 z : 1 <= z < 2 ^ 64 -> size_wrap (size_wrap (size_wrap (z - 1) - 1) + 1) = z - 1.
Proof.
  intros H. rewrite (wrap_small (z - 1)) by lia. apply wrap_back. lia.
Qed.

Lemma loop_end fuel im : Z.of_nat (length im) < 2 ^ 64 -> m_simplify_loop fuel (size_wrap (0 - 1)) im = match im with [] => Ok [] | _ => UB end.
Proof.
  intros Hl. assert (E : size_wrap (size_wrap (0 - 1) + 1) = 0) by reflexivity.
  destruct fuel as [|fuel]; cbn [m_simplify_loop]; rewrite E; destruct im as [|y im]; try reflexivity; cbn [length] in *.
  destruct (Z.ltb_spec 0 (Z.of_nat (S (length im)))); [|lia].
    unfold at_z. cbn [length]. destruct (Z.ltb_spec (size_wrap (0 - 1)) (Z.of_nat (S (length im)))) as [Ha|Ha]; [|reflexivity].
    assert (size_wrap (0 - 1) = 2 ^ 64 - 1) by reflexivity. lia.
Qed.

Lemma loop_zloop fuel L x rest : (length rest <= fuel)%nat -> Z.of_nat (length L + S (length rest)) < 2 ^ 64 ->
  m_simplify_loop fuel (Z.of_nat (length L)) (rev L ++ x :: rest) = zloop L x rest.
Proof.
  revert L x rest. induction fuel as [|fuel IH]; intros L x rest Hf Hb.
  - destruct rest as [|y rest]; [|cbn [length] in Hf; lia]. cbn [m_simplify_loop zloop rev]. rewrite app_length, rev_length. cbn [length].
    rewrite wrap_small by (cbn [length] in Hb; lia). destruct (Z.ltb_spec (Z.of_nat (length L) + 1) (Z.of_nat (length L + 1))); [lia|reflexivity].
  - cbn [m_simplify_loop]. rewrite app_length, rev_length. cbn [length].
    rewrite (wrap_small (Z.of_nat (length L) + 1)) by lia.
    destruct rest as [|y rest].
    + cbn [length]. destruct (Z.ltb_spec (Z.of_nat (length L) + 1) (Z.of_nat (length L + 1))); [lia|reflexivity].
    + cbn [length] in *. destruct (Z.ltb_spec (Z.of_nat (length L) + 1) (Z.of_nat (length L + S (S (length rest))))); [|lia].
      assert (EL : Z.of_nat (length L) = Z.of_nat (length (rev L))) by (rewrite rev_length; auto).
      assert (EL1 : forall z : term, Z.of_nat (length L) + 1 = Z.of_nat (length (rev L ++ [z]))) by (intros; rewrite app_length, rev_length; cbn [length]; lia).
      rewrite EL at 1. rewrite at_mid. cbn [bind].
      rewrite (EL1 x). rewrite (app_assoc (rev L) [x] (y :: rest) : rev L ++ x :: y :: rest = _) at 1. rewrite at_mid. cbn [bind zloop].
      destruct (Nat.eqb_spec (fst x) (fst y)) as [Ef|Ef].
      * destruct (i_add 32 (snd x) (snd y)) as [s| |]; cbn [bind]; auto.
        rewrite EL at 1. rewrite set_mid. cbn [bind].
        rewrite <- (EL1 x), (EL1 (fst x, s)). rewrite (app_assoc (rev L) [(fst x, s)] (y :: rest) : rev L ++ (fst x, s) :: y :: rest = _) at 1.
        rewrite erase_mid. cbn [bind]. rewrite <- app_assoc. cbn [app].
        destruct (Z.eqb_spec s 0) as [Hs|Hs].
        -- rewrite EL at 1. rewrite erase_mid. cbn [bind]. destruct L as [|p L].
           ++ cbn [length rev app]. change (Z.of_nat 0) with 0.
              replace (size_wrap (size_wrap (size_wrap (0 - 1) - 1) + 1)) with (size_wrap (0 - 1)) by reflexivity.
              apply loop_end. cbn [length] in Hb. lia.
           ++ cbn [length] in *. rewrite wrap_back2 by lia. replace (Z.of_nat (S (length L)) - 1) with (Z.of_nat (length L)) by lia.
              cbn [rev]. rewrite <- app_assoc. cbn [app]. apply IH; lia.
        -- rewrite wrap_back by lia. apply IH; cbn [length] in *; lia.
      * assert (E2 : rev L ++ x :: y :: rest = rev (x :: L) ++ y :: rest) by (cbn [rev]; rewrite <- app_assoc; reflexivity).
        rewrite E2. replace (Z.of_nat (length (rev L ++ [x]))) with (Z.of_nat (length (x :: L))) by (rewrite app_length, rev_length; cbn [length]; lia).
        apply IH; cbn [length] in *; lia.
Qed.

Definition zimage (im : image) : res image := match term_sort im with [] => Ok [] | x :: rest => zloop [] x rest end.
Lemma simplify_zimage im : Z.of_nat (length im) < 2 ^ 64 -> m_simplify_image im = zimage im.
Proof.
  intros Hb. unfold m_simplify_image, zimage. assert (Hl := Permutation_length (sort_perm im)).
  destruct (term_sort im) as [|x rest] eqn:E; cbn [length] in Hl.
  - rewrite <- Hl. reflexivity.
  - rewrite <- (loop_zloop (length im) [] x rest); [reflexivity|lia|cbn [length]; lia].
Qed.

(** ** Results *)
Definition increasing (im : image) : Prop := StronglySorted (fun a b : term => (fst a < fst b)%nat) im.
Definition tfst (a b : term) : Prop := (fst a <= fst b)%nat.

Lemma zloop_coefficient L x rest r : zloop L x rest = Ok r -> forall k, coefficient r k = coefficient (rev L ++ x :: rest) k.
Proof.
  revert L x. induction rest as [|y rest IH]; intros L x E k; cbn [zloop] in E.
  - assert (r = rev (x :: L)) as -> by congruence. reflexivity.
  - destruct (Nat.eqb_spec (fst x) (fst y)) as [Ef|Ef].
    + unfold i_add, ck in E. destruct (fits 32 (snd x + snd y)); cbn [bind] in E; [|discriminate].
      destruct (Z.eqb_spec (snd x + snd y) 0) as [Hs|Hs].
      * assert (Hxy : forall a b, coefficient (a ++ x :: y :: b) k = coefficient (a ++ b) k).
        { intros a b. rewrite !coefficient_app. cbn [coefficient fold_right]. fold (coefficient b k). rewrite Ef. destruct (fst y =? k)%nat; lia. }
        rewrite Hxy. destruct L as [|p L].
        -- destruct rest; [|discriminate]. assert (r = []) as -> by congruence. reflexivity.
        -- rewrite (IH _ _ E). cbn [rev]. rewrite <- app_assoc. reflexivity.
      * rewrite (IH _ _ E). rewrite !coefficient_app. cbn [coefficient fold_right fst snd]. fold (coefficient rest k). rewrite <- Ef.
        destruct (fst x =? k)%nat; lia.
    + rewrite (IH _ _ E). cbn [rev]. rewrite <- app_assoc. reflexivity.
Qed.

(** Invariant: what precedes is strictly increasing (reversed: decreasing), everything is sorted by index. *)
Lemma zloop_increasing L x rest r : StronglySorted (fun a b : term => (fst b < fst a)%nat) (x :: L) -> StronglySorted tfst (x :: rest) ->
  zloop L x rest = Ok r -> increasing r.
Proof.
  revert L x. induction rest as [|y rest IH]; intros L x HL HR E; cbn [zloop] in E.
  - assert (r = rev (x :: L)) as -> by congruence. clear E HR. revert HL. generalize (x :: L). clear. intros l. induction 1 as [|a l _ IH H]; cbn [rev]; [constructor|].
    unfold increasing in *. clear -IH H.
    assert (G : forall l1 (b : term), StronglySorted (fun a b : term => (fst a < fst b)%nat) l1 -> (forall c, In c l1 -> (fst c < fst b)%nat) -> StronglySorted (fun a b : term => (fst a < fst b)%nat) (l1 ++ [b])).
    { induction l1 as [|c l1 IHl]; intros b Hs Hb; cbn [app]; [repeat constructor|]. apply StronglySorted_inv in Hs. destruct Hs as (Hs & Hc).
      constructor; [apply IHl; auto; intros; apply Hb; right; auto|]. apply Forall_forall. intros d Hd. apply in_app_iff in Hd.
      destruct Hd as [Hd|[<-|[]]]; [rewrite Forall_forall in Hc; auto|apply Hb; left; auto]. }
    apply G; auto. intros c Hc. apply in_rev in Hc. rewrite Forall_forall in H. auto.
  - apply StronglySorted_inv in HR. destruct HR as (HR & Hx). assert (HR' := HR). apply StronglySorted_inv in HR. destruct HR as (HR & Hy).
    rewrite Forall_forall in Hx, Hy.
    assert (HL' := HL). apply StronglySorted_inv in HL. destruct HL as (HL & HxL). rewrite Forall_forall in HxL.
    destruct (Nat.eqb_spec (fst x) (fst y)) as [Ef|Ef].
    + destruct (i_add 32 (snd x) (snd y)) as [s| |]; cbn [bind] in E; try discriminate. destruct (s =? 0).
      * destruct L as [|p L]; [destruct rest; [|discriminate]; assert (r = []) as -> by congruence; constructor|].
        apply (IH L p); auto. constructor; auto. apply Forall_forall. intros z Hz. specialize (Hy z Hz). unfold tfst in *.
        specialize (HxL p (or_introl eq_refl)). lia.
      * apply (IH L (fst x, s)); auto.
        -- constructor; auto. apply Forall_forall. intros z Hz. cbn [fst]. auto.
        -- constructor; auto. apply Forall_forall. intros z Hz. unfold tfst. cbn [fst]. rewrite Ef. apply Hy. auto.
    + apply (IH (x :: L) y); auto. constructor; auto. assert (fst x <= fst y)%nat by (apply Hx; left; auto).
      constructor; [lia|]. apply Forall_forall. intros z Hz. specialize (HxL z Hz). lia.
Qed.

Lemma zloop_zero L x rest r : zloop L x rest = Ok r -> forall k, In (k, 0) r -> In (k, 0) (rev L ++ x :: rest).
Proof.
  revert L x. induction rest as [|y rest IH]; intros L x E k Hk; cbn [zloop] in E.
  - assert (r = rev (x :: L)) as -> by congruence. exact Hk.
  - destruct (Nat.eqb_spec (fst x) (fst y)) as [Ef|Ef].
    + destruct (i_add 32 (snd x) (snd y)) as [s| |]; cbn [bind] in E; try discriminate. destruct (Z.eqb_spec s 0).
      * destruct L as [|p L]; [destruct rest; [|discriminate]; assert (r = []) as -> by congruence; destruct Hk|].
        specialize (IH _ _ E k Hk). cbn [rev]. rewrite <- app_assoc. cbn [app]. rewrite !in_app_iff in *. cbn [In] in *. tauto.
      * specialize (IH _ _ E k Hk). rewrite !in_app_iff in *. cbn [In] in *. destruct IH as [H|[H|H]]; [auto| |auto]. exfalso. congruence.
    + specialize (IH _ _ E k Hk). cbn [rev] in IH. rewrite <- app_assoc in IH. exact IH.
Qed.

Lemma sorted_fst l : StronglySorted tle l -> StronglySorted tfst l.
Proof.
  induction 1 as [|x l _ IH H]; constructor; auto. rewrite Forall_forall in *. intros y Hy. apply term_le_fst. apply H. auto.
Qed.

Lemma simplify_result im r : Z.of_nat (length im) < 2 ^ 64 -> m_simplify_image im = Ok r ->
  (forall k, coefficient r k = coefficient im k) /\ increasing r /\ (forall k, In (k, 0) r -> In (k, 0) im).
Proof.
  intros Hb E. rewrite simplify_zimage in E by auto. unfold zimage in E. assert (Hp := sort_perm im). assert (Hs := sorted_fst _ (sort_sorted im)).
  destruct (term_sort im) as [|x rest].
  - assert (r = []) as -> by congruence. apply Permutation_nil in Hp. subst. split; [auto|]. split; [constructor|auto].
  - split; [|split].
    + intros k. rewrite (zloop_coefficient [] x rest r E k). apply coefficient_perm. exact Hp.
    + apply (zloop_increasing [] x rest r); auto. repeat constructor.
    + intros k Hk. apply (Permutation_in _ Hp). apply (zloop_zero [] x rest r E k Hk).
Qed.

(** ** When it is defined *)
(** A prefix of at least two terms of the same index whose factors add up to zero. *)
Definition vanishing_prefix (l : image) (j : nat) : Prop :=
  (2 <= j <= length l)%nat /\ (exists k, forall tm, In tm (firstn j l) -> fst tm = k) /\ fold_right (fun tm s => snd tm + s) 0 (firstn j l) = 0.
Definition total (im : image) : Z := fold_right (fun tm s => Z.abs (snd tm) + s) 0 im.

Lemma total_nonneg im : 0 <= total im.
Proof. induction im as [|x im IH]; cbn [total fold_right]; [lia|]. fold (total im). lia. Qed.
Lemma total_perm a b : Permutation a b -> total a = total b.
Proof. unfold total. induction 1; cbn [fold_right] in *; lia. Qed.
Lemma total_app a b : total (a ++ b) = total a + total b.
Proof. unfold total. induction a as [|x a IH]; cbn [app fold_right]; lia. Qed.

(** Behind the first term nothing can go wrong. *)
Lemma zloop_later L x rest : L <> [] -> StronglySorted (fun a b : term => (fst b < fst a)%nat) (x :: L) -> StronglySorted tfst (x :: rest) ->
  total (x :: rest) + total L <= int_max 32 -> exists r, zloop L x rest = Ok r.
Proof.
  assert (G : forall n rest L x, (length rest <= n)%nat -> (L <> [] \/ forall y, In y rest -> (fst x < fst y)%nat) ->
    StronglySorted (fun a b : term => (fst b < fst a)%nat) (x :: L) -> StronglySorted tfst (x :: rest) ->
    total (x :: rest) + total L <= int_max 32 -> exists r, zloop L x rest = Ok r).
  { induction n as [|n IH]; intros rest0 L0 x0 Hn Hc HL HR Ht; destruct rest0 as [|y rest0]; try (cbn [length] in Hn; lia); cbn [zloop]; eauto.
    apply StronglySorted_inv in HR. destruct HR as (HR & Hx). assert (HR' := HR). apply StronglySorted_inv in HR. destruct HR as (HR & Hy).
    rewrite Forall_forall in Hx, Hy.
    assert (HL' := HL). apply StronglySorted_inv in HL. destruct HL as (HL & HxL). rewrite Forall_forall in HxL.
    cbn [total fold_right] in Ht. fold (total rest0) in Ht. assert (T1 := total_nonneg rest0). assert (T2 := total_nonneg L0).
    destruct (Nat.eqb_spec (fst x0) (fst y)) as [Ef|Ef].
    - assert (Hfit : fits 32 (snd x0 + snd y) = true).
      { unfold fits. rewrite andb_true_iff, !Z.leb_le. unfold int_min, int_max in *. lia. }
      unfold i_add, ck. rewrite Hfit. cbn [bind]. destruct (Z.eqb_spec (snd x0 + snd y) 0) as [Hs|Hs].
      + destruct L0 as [|p L0].
        { exfalso. destruct Hc as [Hc|Hc]; [congruence|]. specialize (Hc y (or_introl eq_refl)). lia. }
        cbn [total fold_right] in Ht. fold (total L0) in Ht. assert (Hp := HxL p (or_introl eq_refl)).
        apply IH; auto.
        * cbn [length] in Hn; lia.
        * right. intros z Hz. specialize (Hy z Hz). unfold tfst in Hy. lia.
        * constructor; auto. apply Forall_forall. intros z Hz. specialize (Hy z Hz). unfold tfst in *. lia.
        * cbn [total fold_right]. fold (total rest0). lia.
      + apply IH; auto.
        * cbn [length] in Hn; lia.
        * destruct Hc as [Hc|Hc]; [auto|]. exfalso. specialize (Hc y (or_introl eq_refl)). lia.
        * constructor; auto. apply Forall_forall. intros z Hz. cbn [fst]. auto.
        * constructor; auto. apply Forall_forall. intros z Hz. unfold tfst. cbn [fst]. rewrite Ef. apply Hy. auto.
        * cbn [total fold_right snd]. fold (total rest0). lia.
    - assert (fst x0 <= fst y)%nat by (apply Hx; left; auto). apply IH; auto.
      + cbn [length] in Hn; lia.
      + left; discriminate.
      + constructor; auto. constructor; [lia|]. apply Forall_forall. intros z Hz. specialize (HxL z Hz). lia.
      + cbn [total fold_right]. fold (total rest0). fold (total L0). lia. }
  intros HL0 HL HR Ht. apply (G (length rest) rest L x); auto.
Qed.

Lemma zloop_first x rest : StronglySorted tfst (x :: rest) -> total (x :: rest) <= int_max 32 ->
  ((exists r, zloop [] x rest = Ok r) /\ (forall j, vanishing_prefix (x :: rest) j -> j = length (x :: rest))) \/
  (zloop [] x rest = UB /\ exists j, vanishing_prefix (x :: rest) j /\ (j < length (x :: rest))%nat).
Proof.
  assert (G : forall rest done x, (forall tm, In tm (done ++ [x]) -> fst tm = fst x) -> 
    StronglySorted tfst (x :: rest) -> total (x :: rest) <= int_max 32 ->
    ((exists r, zloop [] x rest = Ok r) /\ (forall j, vanishing_prefix (x :: rest) j -> j = length (x :: rest))) \/
    (zloop [] x rest = UB /\ exists j, vanishing_prefix (x :: rest) j /\ (j < length (x :: rest))%nat)).
  { clear x rest. induction rest as [|y rest IH]; intros done x Hd HR Ht; cbn [zloop].
    - left. split; [eauto|]. intros j (Hj & _). cbn [length] in *. lia.
    - apply StronglySorted_inv in HR. destruct HR as (HR & Hx). assert (HR' := HR). apply StronglySorted_inv in HR. destruct HR as (HR & Hy).
      rewrite Forall_forall in Hx, Hy.
      cbn [total fold_right] in Ht. fold (total rest) in Ht. assert (T1 := total_nonneg rest).
      destruct (Nat.eqb_spec (fst x) (fst y)) as [Ef|Ef].
      + assert (Hfit : fits 32 (snd x + snd y) = true).
        { unfold fits. rewrite andb_true_iff, !Z.leb_le. unfold int_min, int_max in *. lia. }
        unfold i_add, ck. rewrite Hfit. cbn [bind]. destruct (Z.eqb_spec (snd x + snd y) 0) as [Hs|Hs].
        * destruct rest as [|z rest].
          -- left. split; [eauto|]. intros j (Hj & _). cbn [length] in *. lia.
          -- right. split; auto. exists 2%nat. split; [|cbn [length]; lia]. split; [cbn [length]; lia|]. split.
             ++ exists (fst x). cbn [firstn In]. intros tm [<-|[<-|[]]]; auto.
             ++ cbn [firstn fold_right]. lia.
        * assert (Hsh : forall j, (2 <= j)%nat -> vanishing_prefix ((fst x, snd x + snd y) :: rest) j <-> vanishing_prefix (x :: y :: rest) (S j)).
          { intros [|[|j]] Hj; try lia. unfold vanishing_prefix. cbn [firstn length fold_right snd fst In]. split.
            - intros (H1 & (k & H2) & H3). split; [lia|]. split; [|lia]. exists k. intros tm [<-|[<-|Hin]].
              + apply (H2 _ (or_introl eq_refl)).
              + rewrite <- Ef. apply (H2 _ (or_introl eq_refl)).
              + apply H2. right. auto.
            - intros (H1 & (k & H2) & H3). split; [lia|]. split; [|lia]. exists k. intros tm [<-|Hin].
              + cbn [fst]. apply H2. auto.
              + apply H2. auto. }
          destruct (IH [] (fst x, snd x + snd y)) as [(Hr & Hj)|(Hr & j & Hj & Hjl)].
          -- cbn. intros tm [<-|[]]. reflexivity.
          -- constructor; auto. apply Forall_forall. intros z Hz. unfold tfst. cbn [fst]. rewrite Ef. apply Hy. auto.
          -- cbn [total fold_right snd]. fold (total rest). lia.
          -- left. split; auto. intros [|[|[|j]]] Hv; try (destruct Hv as ((Hv & _) & _); lia).
             ++ exfalso. destruct Hv as (_ & _ & Hv). cbn [firstn fold_right] in Hv. lia.
             ++ apply Hsh in Hv; [|lia]. apply Hj in Hv. cbn [length] in *. lia.
          -- right. split; auto. exists (S j). assert (2 <= j)%nat by apply Hj. apply Hsh in Hj; auto. split; auto. cbn [length] in *. lia.
      + assert (Hlt : (fst x < fst y)%nat) by (specialize (Hx y (or_introl eq_refl)); unfold tfst in Hx; lia).
        left. split.
        * apply zloop_later; auto; [discriminate| |cbn [total fold_right]; fold (total rest); lia].
          constructor; [repeat constructor|]. repeat constructor. auto.
        * intros [|[|j]] ((H1 & _) & (k & H2) & _); try lia. exfalso. cbn [firstn In] in H2.
          assert (fst x = k) by auto. assert (fst y = k) by auto. lia. }
  intros HR Ht. apply (G rest [] x); auto. cbn. intros tm [<-|[]]. reflexivity.
Qed.

Lemma simplify_defined im : Z.of_nat (length im) < 2 ^ 64 -> total im <= int_max 32 ->
  ((exists r, m_simplify_image im = Ok r) /\ (forall j, vanishing_prefix (term_sort im) j -> j = length im)) \/
  (m_simplify_image im = UB /\ exists j, vanishing_prefix (term_sort im) j /\ (j < length im)%nat).
Proof.
  intros Hb Ht. rewrite simplify_zimage by auto. unfold zimage. assert (Hp := sort_perm im). assert (Hs := sorted_fst _ (sort_sorted im)).
  rewrite <- (total_perm _ _ Hp) in Ht. rewrite <- (Permutation_length Hp).
  destruct (term_sort im) as [|x rest].
  - left. split; [eauto|]. intros j ((H1 & H2) & _). cbn [length] in *. lia.
  - apply zloop_first; auto.
Qed.
