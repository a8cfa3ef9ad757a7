(** * BigIntLimbs: what the operations on limbs compute. *)
From Coq Require Import List ZArith Arith Lia Bool.
From Verif Require Import Base ArithModel SafeIntModel BigIntModel.
Import ListNotations.
Open Scope Z_scope.

Section Limbs.
  Variable W : nat.
  Hypothesis HW : (32 <= W)%nat.
  Notation B := (base W).
  Notation wrap := (limb_wrap W).

  (** The number that a list of limbs denotes. *)
  Fixpoint lval (l : list Z) : Z := match l with [] => 0 | x :: l' => x + B * lval l' end.
  Definition in_range (l : list Z) : Prop := Forall (fun x => 0 <= x < B) l.
  (** At least one limb, and the most significant limb is not zero unless it is the only one. *)
  Definition cmag (l : list Z) : Prop := l <> [] /\ in_range l /\ (length l = 1%nat \/ last l 0 <> 0).

  Lemma base_big : 2 ^ 32 <= B.
  Proof. unfold base. apply Z.pow_le_mono_r; lia. Qed.
  Lemma base_pos : 0 < B.
  Proof. assert (H := base_big). lia. Qed.
  Lemma base_even : exists h, B = 2 * h /\ 0 < h /\ h = 2 ^ (Z.of_nat W - 1).
  Proof.
    exists (2 ^ (Z.of_nat W - 1)). split; [|split; auto; apply Z.pow_pos_nonneg; lia].
    unfold base. rewrite <- Z.pow_succ_r by lia. f_equal. lia.
  Qed.
  Lemma wrap_small x : 0 <= x < B -> wrap x = x.
  Proof. intros H. unfold limb_wrap. apply Z.mod_small. auto. Qed.
  Lemma wrap_over x : B <= x < 2 * B -> wrap x = x - B.
  Proof. intros H. unfold limb_wrap. symmetry. apply (Z.mod_unique _ _ 1); lia. Qed.
  Lemma wrap_under x : - B <= x < 0 -> wrap x = x + B.
  Proof. intros H. unfold limb_wrap. symmetry. apply (Z.mod_unique _ _ (-1)); lia. Qed.
  Lemma wrap_range x : 0 <= wrap x < B.
  Proof. unfold limb_wrap. apply Z.mod_pos_bound. apply base_pos. Qed.

  Lemma lval_nonneg l : in_range l -> 0 <= lval l.
  Proof. assert (Hb := base_pos). induction 1 as [|x l Hx _ IH]; cbn [lval]; [lia|]. nia. Qed.
  Lemma lval_bound l : in_range l -> lval l < B ^ Z.of_nat (length l).
  Proof.
    assert (Hb := base_pos). induction 1 as [|x l Hx H IH]; cbn [lval length]; [reflexivity|].
    rewrite Nat2Z.inj_succ, Z.pow_succ_r by lia. nia.
  Qed.
  Lemma lval_app a b : lval (a ++ b) = lval a + B ^ Z.of_nat (length a) * lval b.
  Proof.
    induction a as [|x a IH]; cbn [app lval length]; [cbn [Z.of_nat Z.pow]; lia|]. rewrite IH, Nat2Z.inj_succ, Z.pow_succ_r by lia. ring.
  Qed.
  Lemma range_app a b : in_range (a ++ b) <-> in_range a /\ in_range b.
  Proof. apply Forall_app. Qed.

  Lemma last_low l : l <> [] -> in_range l -> last l 0 <> 0 -> B ^ Z.of_nat (length l - 1) <= lval l.
  Proof.
    intros Hne Hr Hl. destruct (exists_last Hne) as (l' & x & ->). apply range_app in Hr. destruct Hr as (Hr' & Hx).
    rewrite last_last in Hl. rewrite lval_app, app_length. cbn [length lval]. replace (length l' + 1 - 1)%nat with (length l') by lia.
    inversion Hx as [|? ? Hx' _]; subst. assert (H0 := lval_nonneg l' Hr'). assert (Hp : 0 < B ^ Z.of_nat (length l')) by (apply Z.pow_pos_nonneg; [apply base_pos|lia]). nia.
  Qed.
  Lemma last_of_low l : l <> [] -> in_range l -> B ^ Z.of_nat (length l - 1) <= lval l -> last l 0 <> 0.
  Proof.
    intros Hne Hr Hl E. destruct (exists_last Hne) as (l' & x & ->). apply range_app in Hr. destruct Hr as (Hr' & Hx).
    rewrite last_last in E. subst x. rewrite lval_app, app_length in Hl. cbn [length lval] in Hl. replace (length l' + 1 - 1)%nat with (length l') in Hl by lia.
    assert (H := lval_bound l' Hr'). lia.
  Qed.
  Lemma cmag_of l : l <> [] -> in_range l -> (length l = 1%nat \/ B ^ Z.of_nat (length l - 1) <= lval l) -> cmag l.
  Proof. intros H1 H2 [H|H]; split; auto. split; auto. right. apply last_of_low; auto. Qed.
  Lemma cmag_low l : cmag l -> length l = 1%nat \/ B ^ Z.of_nat (length l - 1) <= lval l.
  Proof. intros (H1 & H2 & [H|H]); auto. right. apply last_low; auto. Qed.
  Lemma cmag_range l : cmag l -> in_range l.
  Proof. intros (_ & H & _). auto. Qed.
  Lemma cmag_nonneg l : cmag l -> 0 <= lval l.
  Proof. intros H. apply lval_nonneg. apply cmag_range. auto. Qed.
  Lemma cmag_zero l : cmag l -> (lval l = 0 <-> l = [0]).
  Proof.
    intros H. split; [|intros ->; cbn [lval]; lia]. intros E. assert (Hl := cmag_low l H). destruct Hl as [Hl|Hl].
    - destruct l as [|x [|y l]]; try discriminate. cbn [lval] in E. f_equal. lia.
    - assert (Hp : 0 < B ^ Z.of_nat (length l - 1)) by (apply Z.pow_pos_nonneg; [apply base_pos|lia]). lia.
  Qed.

  Lemma lval_inj a b : in_range a -> in_range b -> length a = length b -> lval a = lval b -> a = b.
  Proof.
    intros Ha. revert b. induction Ha as [|x a Hx Ha IH]; intros b Hb Hl E; destruct b as [|y b]; try discriminate; auto.
    inversion Hb as [|? ? Hy Hb']; subst. cbn [lval] in E. assert (Hp := base_pos). assert (lval a = lval b) by nia. assert (x = y) by nia. f_equal; auto.
  Qed.

  (** ** Comparison of magnitudes *)
  Lemma longer_greater a b : cmag a -> cmag b -> (length a < length b)%nat -> lval a < lval b.
  Proof.
    intros Ha Hb Hl. assert (H1 := lval_bound a (cmag_range _ Ha)). destruct (cmag_low b Hb) as [H|H].
    - exfalso. destruct Ha as (Ha & _). destruct a; cbn [length] in *; [congruence|lia].
    - assert (B ^ Z.of_nat (length a) <= B ^ Z.of_nat (length b - 1)) by (apply Z.pow_le_mono_r; [apply base_pos|lia]). lia.
  Qed.
  Lemma mismatch_spec a b : length a = length b -> in_range a -> in_range b ->
    mismatch_lt (rev a) (rev b) = (lval a <? lval b) /\ mismatch_gt (rev a) (rev b) = (lval b <? lval a).
  Proof.
    revert b. induction a as [|x a IH] using rev_ind; intros b Hl Ha Hb.
    - destruct b; [split; reflexivity|discriminate].
    - destruct b as [|y b _] using rev_ind; [rewrite app_length in Hl; cbn [length] in Hl; lia|].
      rewrite !app_length in Hl. cbn [length] in Hl. apply range_app in Ha, Hb. destruct Ha as (Ha & Hx). destruct Hb as (Hb & Hy).
      inversion Hx as [|? ? Hx' _]; inversion Hy as [|? ? Hy' _]; subst.
      rewrite !rev_unit. cbn [mismatch_lt mismatch_gt]. rewrite !lval_app. cbn [lval].
      destruct (IH b ltac:(lia) Ha Hb) as (I1 & I2). assert (E : length a = length b) by lia. rewrite E.
      assert (B1 := lval_bound a Ha). assert (B2 := lval_bound b Hb). rewrite E in B1. assert (N1 := lval_nonneg a Ha). assert (N2 := lval_nonneg b Hb).
      set (P := B ^ Z.of_nat (length b)) in *. clearbody P.
      destruct (Z.eqb_spec x y) as [->|Hne].
      + rewrite I1, I2. split; [destruct (Z.ltb_spec (lval a) (lval b))|destruct (Z.ltb_spec (lval b) (lval a))]; symmetry; [apply Z.ltb_lt|apply Z.ltb_ge|apply Z.ltb_lt|apply Z.ltb_ge]; lia.
      + rewrite Z.gtb_ltb. split; [destruct (Z.ltb_spec x y)|destruct (Z.ltb_spec y x)]; symmetry; [apply Z.ltb_lt|apply Z.ltb_ge|apply Z.ltb_lt|apply Z.ltb_ge]; nia.
  Qed.
  Lemma mag_smaller_spec a b : cmag (limbs a) -> cmag (limbs b) -> b_mag_smaller a b = (lval (limbs a) <? lval (limbs b)).
  Proof.
    intros Ha Hb. unfold b_mag_smaller. destruct (Nat.eqb_spec (length (limbs a)) (length (limbs b))) as [E|E]; cbn [negb].
    - apply mismatch_spec; auto; apply cmag_range; auto.
    - destruct (Nat.ltb_spec (length (limbs a)) (length (limbs b))) as [H|H]; symmetry; [apply Z.ltb_lt|apply Z.ltb_ge; apply Z.lt_le_incl]; apply longer_greater; auto; lia.
  Qed.
  Lemma mag_greater_spec a b : cmag (limbs a) -> cmag (limbs b) -> b_mag_greater a b = (lval (limbs b) <? lval (limbs a)).
  Proof.
    intros Ha Hb. unfold b_mag_greater. destruct (Nat.eqb_spec (length (limbs a)) (length (limbs b))) as [E|E]; cbn [negb].
    - apply mismatch_spec; auto; apply cmag_range; auto.
    - destruct (Nat.ltb_spec (length (limbs b)) (length (limbs a))) as [H|H]; symmetry; [apply Z.ltb_lt|apply Z.ltb_ge; apply Z.lt_le_incl]; apply longer_greater; auto; lia.
  Qed.
  Lemma cmag_unique a b : cmag a -> cmag b -> lval a = lval b -> a = b.
  Proof.
    intros Ha Hb E. apply lval_inj; auto using cmag_range.
    destruct (Nat.lt_trichotomy (length a) (length b)) as [H|[H|H]]; auto; [assert (L := longer_greater a b Ha Hb H)|assert (L := longer_greater b a Hb Ha H)]; lia.
  Qed.
  Lemma equal_limbs_spec a b : length a = length b -> equal_limbs a b = true <-> a = b.
  Proof.
    revert b. induction a as [|x a IH]; intros [|y b] Hl; try discriminate; cbn [equal_limbs]; [tauto|].
    rewrite andb_true_iff, Z.eqb_eq, IH by (cbn [length] in Hl; lia). split; [intros (-> & ->); auto|intros E; injection E; auto].
  Qed.

  (** ** shrinkToFit *)
  Lemma drop_zeros_spec l : in_range l -> in_range (drop_zeros l) /\ lval (drop_zeros l) = lval l /\ (drop_zeros l = [] \/ last (drop_zeros l) 0 <> 0).
  Proof.
    induction 1 as [|x l Hx H (I1 & I2 & I3)]; cbn [drop_zeros]; [repeat split; auto; constructor|].
    destruct (drop_zeros l) as [|y r] eqn:E.
    - cbn [lval] in I2. destruct (Z.eqb_spec x 0) as [->|Hne].
      + split; [constructor|]. split; [cbn [lval]; lia|auto].
      + split; [constructor; auto; constructor|]. split; [cbn [lval]; lia|]. right. cbn. auto.
    - split; [constructor; auto|]. split; [cbn [lval] in *; lia|]. right. destruct I3 as [I3|I3]; [discriminate|]. exact I3.
  Qed.
  Lemma shrink_limbs_spec l : l <> [] -> in_range l -> cmag (shrink_limbs l) /\ lval (shrink_limbs l) = lval l.
  Proof.
    intros Hne H. destruct (drop_zeros_spec l H) as (I1 & I2 & I3). unfold shrink_limbs. destruct (drop_zeros l) as [|y r] eqn:E.
    - destruct l as [|x l]; [congruence|]. cbn [firstn lval] in *. inversion H as [|? ? Hx Hl]; subst. assert (N := lval_nonneg l Hl). assert (Hb := base_pos).
      assert (x = 0) by nia. subst. split; [|nia]. split; [discriminate|]. split; [constructor; auto|]. left. reflexivity.
    - split; auto. split; [discriminate|]. split; auto. right. destruct I3 as [I3|I3]; [discriminate|auto].
  Qed.

  (** ** addMagnitude *)
  Definition cz (c : bool) : Z := if c then 1 else 0.
  Lemma carry_spec c d : in_range d -> in_range (carry_limbs W c d) /\ lval (carry_limbs W c d) = lval d + cz c /\
    (length (carry_limbs W c d) = length d \/ (length (carry_limbs W c d) = S (length d) /\ last (carry_limbs W c d) 0 = 1)).
  Proof.
    intros H. assert (Hb := base_big). revert c. induction H as [|x d Hx H IH]; intros c; cbn [carry_limbs].
    - destruct c; cbn [lval length cz last]; repeat split; auto; try lia; repeat constructor; lia.
    - destruct c; [|cbn [cz]; repeat split; auto; [constructor; auto|lia]].
      destruct (IH (wrap (x + 1) =? 0)) as (I1 & I2 & I3). cbn zeta. split; [constructor; auto; apply wrap_range|]. split.
      + cbn [lval]. rewrite I2. destruct (Z.eq_dec x (B - 1)) as [->|Hne].
        * rewrite wrap_over by lia. replace (B - 1 + 1 - B) with 0 by lia. cbn [Z.eqb cz]. lia.
        * rewrite wrap_small by lia. destruct (Z.eqb_spec (x + 1) 0); [lia|]. cbn [cz]. lia.
      + cbn [length]. destruct I3 as [I3|(I3 & I4)]; [left; lia|right]. split; [lia|].
        destruct (carry_limbs W (wrap (x + 1) =? 0) d) eqn:E; [discriminate|]. exact I4.
  Qed.
  Lemma add_spec c d s : in_range d -> in_range s -> in_range (add_limbs W c d s) /\ lval (add_limbs W c d s) = lval d + lval s + cz c /\
    (length (add_limbs W c d s) = Nat.max (length d) (length s) \/ (length (add_limbs W c d s) = S (Nat.max (length d) (length s)) /\ last (add_limbs W c d s) 0 = 1)).
  Proof.
    intros Hd Hs. assert (Hb := base_big). revert c d Hd. induction Hs as [|y s Hy Hs IH]; intros c d Hd; cbn [add_limbs].
    - destruct (carry_spec c d Hd) as (I1 & I2 & I3). split; auto. split; [cbn [lval]; lia|]. cbn [length]. rewrite Nat.max_0_r. auto.
    - set (x := match d with [] => 0 | x :: _ => x end). set (d' := match d with [] => [] | _ :: d' => d' end).
      assert (E : match d with [] => (0, []) | x :: d' => (x, d') end = (x, d')) by (destruct d; reflexivity). rewrite E.
      assert (Hx : 0 <= x < B) by (subst x; destruct Hd; lia).
      assert (Hd' : in_range d') by (subst d'; destruct Hd; [constructor|auto]).
      assert (Ev : lval d = x + B * lval d') by (subst x d'; destruct d; cbn [lval]; lia).
      assert (El : Nat.max (length d) (S (length s)) = S (Nat.max (length d') (length s))) by (subst d'; destruct d; cbn [length]; lia).
      assert (Hlast : forall z c1, last (z :: add_limbs W c1 d' s) 0 = match add_limbs W c1 d' s with [] => z | _ => last (add_limbs W c1 d' s) 0 end).
      { intros z c1. destruct (add_limbs W c1 d' s); reflexivity. }
      assert (Done : forall z c1, 0 <= z < B -> z + B * cz c1 = x + y + cz c -> 
        in_range (z :: add_limbs W c1 d' s) /\ lval (z :: add_limbs W c1 d' s) = lval d + lval (y :: s) + cz c /\
        (length (z :: add_limbs W c1 d' s) = Nat.max (length d) (length (y :: s)) \/
         (length (z :: add_limbs W c1 d' s) = S (Nat.max (length d) (length (y :: s))) /\ last (z :: add_limbs W c1 d' s) 0 = 1))).
      { intros z c1 Hz Hsum. destruct (IH c1 d' Hd') as (I1 & I2 & I3). split; [constructor; auto|]. split; [cbn [lval]; rewrite I2, Ev; lia|].
        cbn [length]. rewrite El. destruct I3 as [I3|(I3 & I4)]; [left; lia|right]. split; [lia|]. rewrite Hlast.
        destruct (add_limbs W c1 d' s) eqn:E2; [discriminate|]. exact I4. }
      cbn zeta. destruct c; cbn [andb cz] in *.
      + destruct (Z.eqb_spec (wrap (y + 1)) 0) as [Hw|Hw].
        * apply Done; auto. cbn [cz]. assert (y = B - 1); [|lia]. destruct (Z.eq_dec y (B - 1)); auto. rewrite wrap_small in Hw by lia. lia.
        * assert (Hy1 : y + 1 < B) by (destruct (Z.eq_dec y (B - 1)) as [->|]; [rewrite wrap_over in Hw by lia; lia|lia]).
          rewrite (wrap_small (y + 1)) by lia. destruct (Z.lt_ge_cases (x + (y + 1)) B) as [Hlt|Hge].
          -- rewrite wrap_small by lia. destruct (Z.ltb_spec (x + (y + 1)) x); [lia|]. apply Done; cbn [cz]; lia.
          -- rewrite wrap_over by lia. destruct (Z.ltb_spec (x + (y + 1) - B) x); [|lia]. apply Done; cbn [cz]; lia.
      + rewrite Z.add_0_r. rewrite (wrap_small y) by lia. destruct (Z.lt_ge_cases (x + y) B) as [Hlt|Hge].
        * rewrite wrap_small by lia. destruct (Z.ltb_spec (x + y) x); [lia|]. apply Done; cbn [cz]; lia.
        * rewrite wrap_over by lia. destruct (Z.ltb_spec (x + y - B) x); [|lia]. apply Done; cbn [cz]; lia.
  Qed.
  Lemma add_limbs_ok d s : cmag d -> cmag s -> cmag (add_limbs W false d s) /\ lval (add_limbs W false d s) = lval d + lval s.
  Proof.
    intros Hd Hs. destruct (add_spec false d s (cmag_range _ Hd) (cmag_range _ Hs)) as (I1 & I2 & I3). cbn [cz] in I2. split; [|lia].
    assert (Hld : (0 < length d)%nat) by (destruct Hd as (Hd & _); destruct d; [congruence|cbn [length]; lia]).
    assert (Hne : add_limbs W false d s <> []) by (intros E; rewrite E in I3; cbn [length] in I3; lia).
    split; auto. split; auto. destruct I3 as [I3|(I3 & I4)]; [|right; lia].
    assert (Hn1 := cmag_nonneg _ Hd). assert (Hn2 := cmag_nonneg _ Hs).
    destruct (Nat.le_gt_cases (length d) (length s)) as [Hle|Hgt].
    - destruct (cmag_low s Hs) as [H|H]; [left; lia|right]. apply last_of_low; auto. rewrite I3, Nat.max_r by auto. lia.
    - destruct (cmag_low d Hd) as [H|H]; [left; lia|right]. apply last_of_low; auto. rewrite I3, Nat.max_l by lia. lia.
  Qed.

  (** ** subtractMagnitude *)
  Lemma borrow_spec c d : in_range d -> exists o, in_range (borrow_limbs W c d) /\ length (borrow_limbs W c d) = length d /\
    lval (borrow_limbs W c d) = lval d - cz c + cz o * B ^ Z.of_nat (length d).
  Proof.
    intros H. assert (Hb := base_big). revert c. induction H as [|x d Hx H IH]; intros c; cbn [borrow_limbs].
    - exists c. repeat split; auto; [constructor|]. cbn. lia.
    - destruct c; [|exists false; repeat split; auto; [constructor; auto|cbn [cz]; lia]].
      destruct (IH (x =? 0)) as (o & I1 & I2 & I3). exists o. split; [constructor; auto; apply wrap_range|]. split; [cbn [length]; lia|].
      cbn [lval length]. rewrite Nat2Z.inj_succ, Z.pow_succ_r, I3 by lia. destruct (Z.eqb_spec x 0) as [->|Hne]; cbn [cz].
      + rewrite wrap_under by lia. lia.
      + rewrite wrap_small by lia. lia.
  Qed.
  Lemma sub_spec c d s : in_range d -> in_range s -> (length s <= length d)%nat -> exists r o, sub_limbs W c d s = Ok r /\ in_range r /\ length r = length d /\
    lval r = lval d - lval s - cz c + cz o * B ^ Z.of_nat (length d).
  Proof.
    intros Hd Hs. assert (Hb := base_big). revert c d Hd. induction Hs as [|y s Hy Hs IH]; intros c d Hd Hl; cbn [sub_limbs].
    - destruct (borrow_spec c d Hd) as (o & I1 & I2 & I3). exists (borrow_limbs W c d), o. split; [reflexivity|]. split; [exact I1|]. split; [exact I2|]. cbn [lval]. rewrite I3. ring.
    - destruct Hd as [|x d Hx Hd]; [cbn [length] in Hl; lia|]. cbn [length] in Hl.
      assert (Done : forall z c1, 0 <= z < B -> z - B * cz c1 = x - y - cz c -> exists r o, (do r <- sub_limbs W c1 d s; Ok (z :: r)) = Ok r /\
        in_range r /\ length r = length (x :: d) /\ lval r = lval (x :: d) - lval (y :: s) - cz c + cz o * B ^ Z.of_nat (length (x :: d))).
      { intros z c1 Hz Hsum. destruct (IH c1 d Hd ltac:(lia)) as (r & o & I1 & I2 & I3 & I4). exists (z :: r), o. rewrite I1. cbn [bind].
        split; auto. split; [constructor; auto|]. split; [cbn [length]; lia|]. cbn [lval length]. rewrite Nat2Z.inj_succ, Z.pow_succ_r, I4 by lia. lia. }
      cbn zeta. destruct c; cbn [andb cz] in *.
      + destruct (Z.eqb_spec (wrap (y + 1)) 0) as [Hw|Hw].
        * apply Done; auto. cbn [cz]. assert (y = B - 1); [|lia]. destruct (Z.eq_dec y (B - 1)); auto. rewrite wrap_small in Hw by lia. lia.
        * assert (Hy1 : y + 1 < B) by (destruct (Z.eq_dec y (B - 1)) as [->|]; [rewrite wrap_over in Hw by lia; lia|lia]).
          rewrite (wrap_small (y + 1)) by lia. rewrite Z.gtb_ltb. destruct (Z.lt_ge_cases (x - (y + 1)) 0) as [Hlt|Hge].
          -- rewrite wrap_under by lia. destruct (Z.ltb_spec x (x - (y + 1) + B)); [|lia]. apply Done; cbn [cz]; lia.
          -- rewrite wrap_small by lia. destruct (Z.ltb_spec x (x - (y + 1))); [lia|]. apply Done; cbn [cz]; lia.
      + rewrite Z.add_0_r. rewrite (wrap_small y) by lia. rewrite Z.gtb_ltb. destruct (Z.lt_ge_cases (x - y) 0) as [Hlt|Hge].
        * rewrite wrap_under by lia. destruct (Z.ltb_spec x (x - y + B)); [|lia]. apply Done; cbn [cz]; lia.
        * rewrite wrap_small by lia. destruct (Z.ltb_spec x (x - y)); [lia|]. apply Done; cbn [cz]; lia.
  Qed.
  Lemma sub_limbs_ok d s : cmag d -> cmag s -> lval s <= lval d -> exists r, sub_limbs W false d s = Ok r /\ r <> [] /\ in_range r /\ lval r = lval d - lval s.
  Proof.
    intros Hd Hs Hle. assert (Hl : (length s <= length d)%nat).
    { destruct (Nat.le_gt_cases (length s) (length d)) as [H|H]; auto. assert (L := longer_greater d s Hd Hs H). lia. }
    destruct (sub_spec false d s (cmag_range _ Hd) (cmag_range _ Hs) Hl) as (r & o & I1 & I2 & I3 & I4). exists r. split; auto.
    split; [intros ->; destruct Hd as (Hd & _); destruct d; [congruence|discriminate]|]. split; auto.
    destruct o; cbn [cz] in I4; [|lia]. exfalso. assert (Hb := lval_bound r I2). rewrite I3 in Hb. lia.
  Qed.

  (** ** operator<<= by one *)
  Lemma top_bit_spec x : 0 <= x < B -> 2 * x = wrap (2 * x) + B * cz (top_bit W x).
  Proof.
    intros Hx. destruct base_even as (h & Hh & Hp & Eh). unfold top_bit.
    assert (Et : Z.testbit x (Z.of_nat W - 1) = negb (x <? h)).
    { destruct (Z.ltb_spec x h) as [Hlt|Hge]; cbn [negb].
      - apply Z.testbit_false; [lia|]. rewrite <- Eh. rewrite Z.div_small by lia. reflexivity.
      - apply Z.testbit_true; [lia|]. rewrite <- Eh. replace (x / h) with 1 by (apply (Z.div_unique x h 1 (x - h)); lia). reflexivity. }
    rewrite Et. destruct (Z.ltb_spec x h); cbn [negb cz]; [rewrite wrap_small by lia; lia|rewrite wrap_over by lia; lia].
  Qed.
  Lemma wrap_even x : Z.even (wrap (2 * x)) = true.
  Proof.
    destruct base_even as (h & Hh & Hp & _). unfold limb_wrap. rewrite Hh. rewrite Z.mul_mod_distr_l by lia. rewrite Z.even_mul. reflexivity.
  Qed.
  Lemma wrap_even_small x c : wrap (wrap (2 * x) + cz c) = wrap (2 * x) + cz c.
  Proof.
    apply wrap_small. assert (R := wrap_range (2 * x)). assert (E := wrap_even x). destruct base_even as (h & Hh & _). destruct c; cbn [cz]; [|lia].
    apply Z.even_spec in E. destruct E as (m & E). lia.
  Qed.
  Lemma shift_spec c l : in_range l -> in_range (shift_limbs W c l) /\ lval (shift_limbs W c l) = 2 * lval l + cz c /\
    (length (shift_limbs W c l) = length l \/ (length (shift_limbs W c l) = S (length l) /\ last (shift_limbs W c l) 0 = 1)).
  Proof.
    intros H. assert (Hb := base_big). revert c. induction H as [|x l Hx H IH]; intros c; cbn [shift_limbs].
    - destruct c; cbn [lval length cz last]; repeat split; auto; try lia; repeat constructor; lia.
    - destruct (IH (top_bit W x)) as (I1 & I2 & I3). fold (cz c). rewrite wrap_even_small. assert (T := top_bit_spec x Hx).
      assert (R := wrap_range (wrap (2 * x) + cz c)). rewrite wrap_even_small in R. split; [constructor; auto|]. split.
      + cbn [lval]. rewrite I2. lia.
      + cbn [length]. destruct I3 as [I3|(I3 & I4)]; [left; lia|right]. split; [lia|].
        destruct (shift_limbs W (top_bit W x) l) eqn:E; [discriminate|]. exact I4.
  Qed.
  Lemma shift_limbs_ok l : cmag l -> cmag (shift_limbs W false l) /\ lval (shift_limbs W false l) = 2 * lval l /\ exists x r, shift_limbs W false l = x :: r /\ Z.even x = true.
  Proof.
    intros Hl. destruct (shift_spec false l (cmag_range _ Hl)) as (I1 & I2 & I3). cbn [cz] in I2. destruct l as [|x l]; [destruct Hl; congruence|].
    split; [|split; [lia|]].
    - assert (Hne : shift_limbs W false (x :: l) <> []) by discriminate. destruct I3 as [I3|(I3 & I4)].
      + apply cmag_of; auto. rewrite I3, I2. destruct (cmag_low _ Hl) as [H|H]; auto. right. assert (Hn := cmag_nonneg _ Hl). lia.
      + split; auto. split; auto. right. lia.
    - cbn [shift_limbs]. do 2 eexists. split; [reflexivity|]. rewrite Z.add_0_r, wrap_small by apply wrap_range. apply wrap_even.
  Qed.

  (** Setting the lowest bit of an even limb. *)
  Lemma lor_even x (b : bool) : 0 <= x -> Z.even x = true -> Z.lor x (if b then 1 else 0) = x + cz b.
  Proof.
    intros Hx E. destruct b; cbn [cz]; [|rewrite Z.lor_0_r; lia]. apply Z.even_spec in E. destruct E as (m & ->).
    assert (L : Z.land (2 * m) 1 = 0).
    { apply Z.bits_inj'. intros n Hn. rewrite Z.land_spec, Z.bits_0. destruct (Z.eq_dec n 0) as [->|Hne].
      - rewrite Z.testbit_even_0. reflexivity.
      - replace (Z.testbit 1 n) with false; [apply andb_false_r|]. symmetry. apply (Z.pow2_bits_false 0). lia. }
    rewrite Z.add_nocarry_lxor, Z.lxor_lor; auto.
  Qed.
  Lemma even_bound x : 0 <= x < B -> Z.even x = true -> x + 1 < B.
  Proof. intros Hx E. destruct base_even as (h & Hh & _). apply Z.even_spec in E. destruct E as (m & ->). lia. Qed.

  (** Bits of a number are bits of its limbs. *)
  Lemma testbit_limb l k : in_range l -> (k < W * length l)%nat -> Z.testbit (nth (k / W) l 0) (Z.of_nat (k mod W)) = Z.testbit (lval l) (Z.of_nat k).
  Proof.
    intros H. assert (HW0 : W <> 0%nat) by lia. revert k. induction H as [|x l Hx H IH]; intros k Hk; [cbn [length] in Hk; lia|].
    cbn [lval]. destruct (Nat.lt_ge_cases k W) as [Hlt|Hge].
    - rewrite Nat.div_small, Nat.mod_small by auto. cbn [nth].
      rewrite <- (Z.mod_pow2_bits_low (x + B * lval l) (Z.of_nat W) (Z.of_nat k)) by lia. fold B. f_equal.
      symmetry. unfold base in *. rewrite Z.mul_comm, Z.mod_add by (apply Z.pow_nonzero; lia). apply Z.mod_small. auto.
    - assert (Ek : k = (1 * W + (k - W))%nat) by lia. 
      assert (E1 : (k / W = S ((k - W) / W))%nat) by (rewrite Ek at 1; rewrite Nat.div_add_l by auto; reflexivity).
      assert (E2 : (k mod W = (k - W) mod W)%nat) by (rewrite Ek at 1; rewrite Nat.add_comm, Nat.mod_add by auto; reflexivity).
      rewrite E1, E2. cbn [nth]. rewrite IH by (cbn [length] in Hk; lia).
      replace (Z.of_nat k) with (Z.of_nat (k - W) + Z.of_nat W) by lia. rewrite <- Z.div_pow2_bits by lia. f_equal.
      unfold base in *. rewrite Z.mul_comm, Z.div_add by (apply Z.pow_nonzero; lia). rewrite Z.div_small by auto. lia.
  Qed.
End Limbs.
