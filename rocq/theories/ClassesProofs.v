(** * ClassesProofs: sets of rows, [getClass] and [classes] for the integer types. *)
From Coq Require Import List ZArith Arith Lia Bool Permutation Sorted.
From Verif Require Import Base Spec ListUtil ArithModel IntTypes ClassesModel.
Import ListNotations.
Open Scope Z_scope.

(** ** The order of rows *)
(** [a] precedes [b] lexicographically: they agree on a prefix, after which [a] is smaller or ends. *)
Definition lex_lt (a b : vec) : Prop :=
  exists p, (exists x y a' b', a = p ++ x :: a' /\ b = p ++ y :: b' /\ x < y) \/ (exists y b', a = p /\ b = p ++ y :: b').

Lemma lex_cons x a b : lex_lt (x :: a) (x :: b) <-> lex_lt a b.
Proof.
  split.
  - intros (p & [(u & v & a' & b' & H1 & H2 & H3)|(v & b' & H1 & H2)]).
    + destruct p as [|z p]; cbn [app] in *; [injection H1; injection H2; intros; subst; lia|].
      injection H1; injection H2; intros; subst. exists p. left. eauto 10.
    + destruct p as [|z p]; [discriminate|]. cbn [app] in *. injection H1; injection H2; intros; subst. exists p. right. eauto.
  - intros (p & [(u & v & a' & b' & H1 & H2 & H3)|(v & b' & H1 & H2)]); exists (x :: p).
    + left. exists u, v, a', b'. subst. auto.
    + right. exists v, b'. subst. auto.
Qed.

Section Types.
  Variable t : int_type.
  Notation lt := (m_lex_lt (arith t)).

  Lemma lt_nil (a : vec) : lt a [] = false.
  Proof. destruct a; reflexivity. Qed.
  Lemma lt_cons (x y : Z) (a b : vec) : lt (x :: a) (y :: b) = if y >? x then true else if x >? y then false else lt a b.
  Proof. reflexivity. Qed.

  Lemma lt_iff (a b : vec) : lt a b = true <-> lex_lt a b.
  Proof.
    revert b. induction a as [|x a IH]; intros [|y b].
    - rewrite lt_nil. split; [discriminate|]. intros (p & [(u & v & a' & b' & H1 & H2 & H3)|(v & b' & H1 & H2)]); destruct p; discriminate.
    - split; [|reflexivity]. intros _. exists []. right. exists y, b. auto.
    - rewrite lt_nil. split; [discriminate|]. intros (p & [(u & v & a' & b' & H1 & H2 & H3)|(v & b' & H1 & H2)]); destruct p; discriminate.
    - rewrite lt_cons. destruct (Z.gtb_spec y x) as [H|H].
      { split; auto. intros _. exists []. left. exists x, y, a, b. split; [|split]; auto; lia. }
      destruct (Z.gtb_spec x y) as [H'|H'].
      { split; [discriminate|]. intros (p & [(u & v & a' & b' & H1 & H2 & H3)|(v & b' & H1 & H2)]).
        - destruct p as [|z p]; cbn [app] in *; injection H1; injection H2; intros; subst; lia.
        - destruct p as [|z p]; [discriminate|]. cbn [app] in *. injection H1; injection H2; intros; subst; lia. }
      assert (x = y) by lia. subst y. rewrite IH. symmetry. apply lex_cons.
  Qed.

  Lemma lt_irrefl (a : vec) : lt a a = false.
  Proof. induction a as [|x a IH]; [reflexivity|]. rewrite lt_cons. destruct (Z.gtb_spec x x); [lia|exact IH]. Qed.
  Lemma lt_trans (a b c : vec) : lt a b = true -> lt b c = true -> lt a c = true.
  Proof.
    revert b c. induction a as [|x a IH]; intros [|y b] [|z c]; rewrite ?lt_nil; try discriminate; auto.
    rewrite !lt_cons. destruct (Z.gtb_spec y x), (Z.gtb_spec z y), (Z.gtb_spec z x), (Z.gtb_spec x y), (Z.gtb_spec y z), (Z.gtb_spec x z);
      try discriminate; try lia; auto. apply IH.
  Qed.
  Lemma lt_total (a b : vec) : lt a b = false -> lt b a = false -> a = b.
  Proof.
    revert b. induction a as [|x a IH]; intros [|y b]; rewrite ?lt_nil; try discriminate; auto.
    rewrite !lt_cons. destruct (Z.gtb_spec y x), (Z.gtb_spec x y); try discriminate; try lia.
    intros H1 H2. assert (x = y) by lia. subst. f_equal. auto.
  Qed.
  Lemma lt_asym (a b : vec) : lt a b = true -> lt b a = false.
  Proof. intros H. destruct (lt b a) eqn:E; auto. assert (Q := lt_trans a b a H E). rewrite lt_irrefl in Q. discriminate. Qed.

  (** ** Sets of rows *)
  Definition sorted_rows (s : list vec) : Prop := StronglySorted (fun a b : vec => lt a b = true) s.

  Lemma sorted_NoDup s : sorted_rows s -> NoDup s.
  Proof.
    induction 1 as [|a s _ IH H]; constructor; auto. intros Ha. rewrite Forall_forall in H. specialize (H a Ha).
    rewrite lt_irrefl in H. discriminate.
  Qed.
  Lemma sorted_tail a s : sorted_rows (a :: s) -> sorted_rows s /\ forall x, In x s -> lt a x = true.
  Proof. intros H. apply StronglySorted_inv in H. destruct H as (H1 & H2). split; auto. intros x Hx. rewrite Forall_forall in H2. auto. Qed.

  Lemma insert_in (x : vec) (s : list vec) : sorted_rows s -> forall y, In y (fst (m_set_insert (arith t) x s)) <-> y = x \/ In y s.
  Proof.
    intros Hs y. induction s as [|z s IH]; cbn [m_set_insert]; [cbn; intuition|].
    apply sorted_tail in Hs. destruct Hs as (Hs & Hz).
    destruct (lt x z) eqn:E1; [cbn; intuition|].
    destruct (lt z x) eqn:E2.
    - cbn [fst In]. specialize (IH Hs). change (In y (fst (m_set_insert (arith t) x s)) <-> y = x \/ In y s) in IH. cbn. rewrite IH. intuition.
    - assert (x = z) by (apply lt_total; auto). subst. cbn. intuition.
  Qed.
  Lemma insert_sorted (x : vec) (s : list vec) : sorted_rows s -> sorted_rows (fst (m_set_insert (arith t) x s)).
  Proof.
    intros Hs. induction s as [|z s IH]; [repeat constructor|].
    assert (Hs0 := Hs). apply sorted_tail in Hs. destruct Hs as (Hs & Hz). cbn [m_set_insert].
    destruct (lt x z) eqn:E1.
    - cbn [fst]. constructor; auto. constructor; auto. apply Forall_forall. intros y Hy. apply (lt_trans x z); auto.
    - destruct (lt z x) eqn:E2; [|exact Hs0].
      cbn [fst]. constructor; [apply IH; auto|]. apply Forall_forall. intros y Hy. apply insert_in in Hy; auto.
      destruct Hy as [->|Hy]; auto.
  Qed.
  Lemma insert_new (x : vec) (s : list vec) : sorted_rows s -> snd (m_set_insert (arith t) x s) = true <-> ~ In x s.
  Proof.
    intros Hs. induction s as [|z s IH]; [cbn; intuition|].
    assert (Hs0 := Hs). apply sorted_tail in Hs. destruct Hs as (Hs & Hz). cbn [m_set_insert].
    destruct (lt x z) eqn:E1.
    - cbn [snd]. split; auto. intros _ [->|Hx]; [rewrite lt_irrefl in E1; discriminate|].
      specialize (Hz x Hx). apply lt_asym in Hz. congruence.
    - destruct (lt z x) eqn:E2.
      + cbn [snd]. specialize (IH Hs). change (snd (m_set_insert (arith t) x s) = true <-> ~ In x (z :: s)). rewrite IH. cbn.
        split; [|tauto]. intros H [->|Hx]; [rewrite lt_irrefl in E2; discriminate|auto].
      + assert (x = z) by (apply lt_total; auto). subst. cbn. split; [discriminate|tauto].
  Qed.
  Lemma insert_length (x : vec) (s : list vec) : length (fst (m_set_insert (arith t) x s)) = (length s + if snd (m_set_insert (arith t) x s) then 1 else 0)%nat.
  Proof.
    induction s as [|z s IH]; [reflexivity|]. cbn [m_set_insert].
    destruct (m_lex_lt (arith t) x z); [cbn [fst snd length]; rewrite Nat.add_1_r; reflexivity|].
    destruct (m_lex_lt (arith t) z x); [|cbn [fst snd length]; rewrite Nat.add_0_r; reflexivity].
    cbn [fst snd length]. exact (f_equal S IH).
  Qed.
  Lemma erase_in (x : vec) (s : list vec) : sorted_rows s -> forall y, In y (m_set_erase (arith t) x s) <-> In y s /\ y <> x.
  Proof.
    intros Hs y. induction s as [|z s IH]; [cbn; tauto|].
    assert (Hs0 := Hs). apply sorted_tail in Hs. destruct Hs as (Hs & Hz). cbn [m_set_erase].
    destruct (lt x z) eqn:E1.
    - split; [|tauto]. intros Hy. split; auto. intros ->. destruct Hy as [->|Hy]; [rewrite lt_irrefl in E1; discriminate|].
      specialize (Hz x Hy). apply lt_asym in Hz. congruence.
    - destruct (lt z x) eqn:E2.
      + cbn [In]. specialize (IH Hs). cbn in IH. cbn. rewrite IH. split; [|intuition]. intros [->|H]; [|tauto]. split; auto. intros ->. congruence.
      + assert (x = z) by (apply lt_total; auto). subst. split.
        * intros Hy. split; [right; auto|]. intros ->. specialize (Hz z Hy). rewrite lt_irrefl in Hz. discriminate.
        * intros ([->|Hy] & Hn); [congruence|auto].
  Qed.
  Lemma erase_sorted (x : vec) (s : list vec) : sorted_rows s -> sorted_rows (m_set_erase (arith t) x s).
  Proof.
    intros Hs. induction s as [|z s IH]; [constructor|].
    assert (Hs0 := Hs). apply sorted_tail in Hs. destruct Hs as (Hs & Hz). cbn [m_set_erase].
    destruct (lt x z); [exact Hs0|]. destruct (lt z x); [|exact Hs].
    constructor; [apply IH; auto|]. apply Forall_forall. intros y Hy. apply erase_in in Hy; auto. apply Hz. tauto.
  Qed.
  Lemma erase_all_in (l s : list vec) : sorted_rows s ->
    sorted_rows (fold_left (fun s r => m_set_erase (arith t) r s) l s) /\
    forall y, In y (fold_left (fun s r => m_set_erase (arith t) r s) l s) <-> In y s /\ ~ In y l.
  Proof.
    revert s. induction l as [|x l IH]; intros s Hs; cbn [fold_left]; [split; auto; cbn; tauto|].
    destruct (IH _ (erase_sorted x s Hs)) as (H1 & H2). split; [exact H1|]. intros y. cbn in H2. cbn. rewrite H2, (erase_in x s Hs). cbn.
    split; [intros ((A1 & A2) & A3); split; auto; intros [E|E]; auto|intros (A1 & A2); split; [split; auto|]; intros E; apply A2; auto].
  Qed.

  Lemma set_of_spec (l : list vec) : sorted_rows (m_set_of (arith t) l) /\ forall y, In y (m_set_of (arith t) l) <-> In y l.
  Proof.
    unfold m_set_of.
    assert (H : forall (l s : list vec), sorted_rows s -> sorted_rows (fold_left (fun s r => fst (m_set_insert (arith t) r s)) l s) /\
      forall y, In y (fold_left (fun s r => fst (m_set_insert (arith t) r s)) l s) <-> In y s \/ In y l).
    { clear l. induction l as [|x l IH]; intros s Hs; cbn [fold_left]; [split; auto; cbn; tauto|].
      destruct (IH _ (insert_sorted x s Hs)) as (H1 & H2). split; [exact H1|]. intros y. cbn in H2. cbn. rewrite H2, (insert_in x s Hs). cbn. intuition. }
    destruct (H l [] ltac:(constructor)) as (H1 & H2). split; auto. intros y. rewrite H2. cbn. tauto.
  Qed.

  (** The last row of a sorted list is the largest. *)
  Lemma last_max (s : list vec) (x : vec) : sorted_rows s -> back s = Ok x -> In x s /\ forall y, In y s -> y = x \/ lt y x = true.
  Proof.
    intros Hs. destruct s as [|z s]; [discriminate|]. cbn [back]. intros E.
    assert (E' : last (z :: s) z = x) by congruence. clear E. rename z into d.
    assert (G : forall (s : list vec) (z dflt : vec), sorted_rows (z :: s) -> last (z :: s) dflt = x -> In x (z :: s) /\ forall y, In y (z :: s) -> y = x \/ lt y x = true).
    { clear. induction s as [|w s IH]; intros z d Hs E.
      - cbn in E. subst. cbn. intuition.
      - change (last (w :: s) d = x) in E. apply sorted_tail in Hs. destruct Hs as (Hs & Hz).
        destruct (IH w d Hs E) as (H1 & H2). split; [right; auto|]. intros y [<-|Hy]; [right; apply Hz; auto|auto]. }
    apply (G s d d Hs E').
  Qed.

  (** ** Orbits *)
  (** The rows reachable from [r] by applying the maps. *)
  Inductive orbit (tg : tag) (maps : list lmap) (r : vec) : vec -> Prop :=
  | orbit_start : orbit tg maps r r
  | orbit_apply x m y : orbit tg maps r x -> In m maps -> m_apply (arith t) tg m x = Ok y -> orbit tg maps r y.

  Lemma orbit_trans tg maps r x y : orbit tg maps r x -> orbit tg maps x y -> orbit tg maps r y.
  Proof. intros H1 H2. induction H2 as [|x' m y' _ IH Hm E]; auto. apply (orbit_apply tg maps r x' m); auto. Qed.

  Section Class.
    Variables (tg : tag) (maps : list lmap) (r : vec).
    Notation orb := (orbit tg maps).

    (** The invariant of the work list: the rows found are in the orbit, the set is closed except for the rows on the stack. *)
    Definition inv (rows stack : list vec) : Prop :=
      sorted_rows rows /\ In r rows /\ (forall x, In x rows -> orb r x) /\ incl stack rows /\
      (forall x m y, In x rows -> ~ In x stack -> In m maps -> m_apply (arith t) tg m x = Ok y -> In y rows).

    Lemma class_row_spec (current : vec) (ms : list lmap) (rows stack : list vec) s' : sorted_rows rows ->
      m_class_row (arith t) tg ms current (rows, stack) = Ok s' ->
      sorted_rows (fst s') /\
      (forall m, In m ms -> exists y, m_apply (arith t) tg m current = Ok y /\ In y (fst s')) /\
      incl rows (fst s') /\ incl stack (snd s') /\
      (forall y, In y (fst s') -> In y rows \/ (In y (snd s') /\ exists m, In m ms /\ m_apply (arith t) tg m current = Ok y)) /\
      (forall y, In y (snd s') -> In y stack \/ In y (fst s')) /\
      (length (fst s') + length stack = length rows + length (snd s'))%nat.
    Proof.
      unfold m_class_row. revert rows stack. induction ms as [|m ms IH]; intros rows stack Hs E; cbn [foldM] in E.
      - injection E as <-. cbn [fst snd]. split; [auto|]. split; [intros m []|]. split; [apply incl_refl|]. split; [apply incl_refl|].
        split; [auto|]. split; [auto|reflexivity].
      - destruct (m_apply (arith t) tg m current) as [y| |] eqn:Ea; cbn [bind fst snd] in E; try discriminate.
        assert (Hs1 := insert_sorted y rows Hs). assert (Hn := insert_new y rows Hs). assert (Hi := insert_in y rows Hs).
        assert (Hl := insert_length y rows).
        destruct (m_set_insert (arith t) y rows) as [rows1 b] eqn:Ei. cbn [fst snd] in *.
        destruct (IH _ _ Hs1 E) as (C1 & C2 & C3 & C4 & C5 & C6 & C7).
        split; [auto|]. split; [|split; [|split; [|split; [|split]]]].
        + intros m' [<-|Hm]; [|apply C2; auto]. exists y. split; auto. apply C3. apply Hi. auto.
        + intros x Hx. apply C3. apply Hi. auto.
        + intros x Hx. apply C4. destruct b; [right; auto|auto].
        + intros z Hz. destruct (C5 z Hz) as [Hz'|(Hz' & m' & Hm' & Em')]; [|right; split; auto; exists m'; split; auto; right; auto].
          apply Hi in Hz'. destruct Hz' as [->|Hz']; [|auto].
          destruct b.
          * right. split; [apply C4; left; auto|]. exists m. split; [left; auto|auto].
          * left. destruct (in_dec (list_eq_dec Z.eq_dec) y rows) as [|Hni]; auto. apply Hn in Hni. discriminate.
        + intros z Hz. destruct (C6 z Hz) as [Hz'|Hz']; [|auto]. destruct b; [|auto]. destruct Hz' as [<-|Hz']; [|auto].
          right. apply C3. apply Hi. auto.
        + change (num (arith t)) with Z in *. unfold vec in *. destruct b; cbn [length] in C7; lia.
    Qed.

    Lemma class_loop_spec fuel (rows stack S : list vec) : inv rows stack ->
      m_class_loop (arith t) fuel tg maps rows stack = Ok (Some S) -> sorted_rows S /\ forall x, In x S <-> orb r x.
    Proof.
      revert rows stack. induction fuel as [|fuel IH]; intros rows stack I E; destruct stack as [|current stack].
      1, 3: (cbn [m_class_loop] in E; assert (rows = S) as <- by congruence; destruct I as (I1 & I2 & I3 & I4 & I5); split; auto;
        intros x; split; [auto|]; induction 1 as [|x m y _ IHx Hm Ea]; auto; apply (I5 x m y); auto).
      - discriminate.
      - cbn [m_class_loop] in E.
        match type of E with (bind ?m _ = _) => destruct m as [s'| |] eqn:Er end; cbn [bind] in E; [|discriminate E..].
        destruct I as (I1 & I2 & I3 & I4 & I5).
        destruct (class_row_spec current maps rows stack s' I1 Er) as (C1 & C2 & C3 & C4 & C5 & C6 & C7).
        refine (IH (fst s') (snd s') _ E). split; [auto|]. split; [auto|]. split; [|split].
        + intros x Hx. destruct (C5 x Hx) as [Hx'|(_ & m & Hm & Em)]; [auto|].
          apply (orbit_apply tg maps r current m); auto. apply I3. apply I4. left; auto.
        + intros y Hy. destruct (C6 y Hy) as [Hy'|]; auto. apply C3. apply I4. right; auto.
        + intros x m y Hx Hns Hm Ea. destruct (C5 x Hx) as [Hx'|(Hin & _)]; [|contradiction].
          destruct (list_eq_dec Z.eq_dec x current) as [->|Hne].
          * destruct (C2 m Hm) as (y' & E1 & E2). assert (y = y') by congruence. subst. auto.
          * apply C3. apply (I5 x m y); auto. intros [Q|Q]; [congruence|]. apply Hns. auto.
    Qed.

    Lemma get_class_spec fuel (S : list vec) : m_get_class (arith t) fuel tg maps r = Ok (Some S) -> sorted_rows S /\ forall x, In x S <-> orb r x.
    Proof.
      apply class_loop_spec. split; [repeat constructor|]. split; [left; auto|]. split; [intros x [<-|[]]; constructor|].
      split; [apply incl_refl|]. intros x m y Hx Hn. contradiction.
    Qed.

    (** *** Termination *)
    Lemma class_row_ok current ms rows stack : (forall m, In m ms -> exists y, m_apply (arith t) tg m current = Ok y) ->
      exists s', m_class_row (arith t) tg ms current (rows, stack) = Ok s'.
    Proof.
      unfold m_class_row. revert rows stack. induction ms as [|m ms IH]; intros rows stack H; cbn [foldM]; [eauto|].
      destruct (H m (or_introl eq_refl)) as (y & E). rewrite E. cbn [bind fst snd]. apply IH. intros m' Hm'. apply H. right; auto.
    Qed.

    Lemma class_loop_total (L : list vec) fuel (rows stack : list vec) : inv rows stack ->
      (forall x, orb r x -> In x L /\ forall m, In m maps -> exists y, m_apply (arith t) tg m x = Ok y) ->
      (length L + length stack <= fuel + length rows)%nat ->
      exists S, m_class_loop (arith t) fuel tg maps rows stack = Ok (Some S).
    Proof.
      intros I HL. revert rows stack I. induction fuel as [|fuel IH]; intros rows stack I Hf.
      - destruct stack as [|current stack]; [exists rows; reflexivity|]. exfalso. destruct I as (I1 & I2 & I3 & I4 & I5).
        assert (length rows <= length L)%nat; [|cbn [length] in *; lia].
        apply NoDup_incl_length; [apply sorted_NoDup; auto|]. intros x Hx. apply HL. auto.
      - destruct stack as [|current stack]; [exists rows; reflexivity|]. cbn [m_class_loop].
        destruct I as (I1 & I2 & I3 & I4 & I5). assert (Hc : orb r current) by (apply I3, I4; left; auto).
        destruct (class_row_ok current maps rows stack (proj2 (HL current Hc))) as (s' & Er). cbn in Er |- *. rewrite Er. cbn [bind].
        destruct (class_row_spec current maps rows stack s' I1 Er) as (C1 & C2 & C3 & C4 & C5 & C6 & C7).
        apply IH; [|change (num (arith t)) with Z in *; unfold vec in *; cbn [length] in *; lia].
        split; [auto|]. split; [auto|]. split; [|split].
        + intros x Hx. destruct (C5 x Hx) as [Hx'|(_ & m & Hm & Em)]; [auto|].
          apply (orbit_apply tg maps r current m); auto.
        + intros y Hy. destruct (C6 y Hy) as [Hy'|]; auto. apply C3. apply I4. right; auto.
        + intros x m y Hx Hns Hm Ea. destruct (C5 x Hx) as [Hx'|(Hin & _)]; [|contradiction].
          destruct (list_eq_dec Z.eq_dec x current) as [->|Hne].
          * destruct (C2 m Hm) as (y' & E1 & E2). assert (y = y') by congruence. subst. auto.
          * apply C3. apply (I5 x m y); auto. intros [Q|Q]; [congruence|]. apply Hns. auto.
    Qed.
    Lemma get_class_total (L : list vec) fuel :
      (forall x, orb r x -> In x L /\ forall m, In m maps -> exists y, m_apply (arith t) tg m x = Ok y) ->
      (length L <= fuel)%nat -> exists S, m_get_class (arith t) fuel tg maps r = Ok (Some S).
    Proof.
      intros HL Hf. apply (class_loop_total L); auto; [|cbn [length]; lia].
      split; [repeat constructor|]. split; [left; auto|]. split; [intros x [<-|[]]; constructor|].
      split; [apply incl_refl|]. intros x m y Hx Hn. contradiction.
    Qed.
  End Class.

  (** Strictly sorted lists with the same members are equal. *)
  Lemma sorted_unique (a b : list vec) : sorted_rows a -> sorted_rows b -> (forall x, In x a <-> In x b) -> a = b.
  Proof.
    revert b. induction a as [|x a IH]; intros [|y b] Ha Hb H; auto.
    - destruct (proj2 (H y) (or_introl eq_refl)).
    - destruct (proj1 (H x) (or_introl eq_refl)).
    - apply sorted_tail in Ha. apply sorted_tail in Hb. destruct Ha as (Ha & Hx), Hb as (Hb & Hy).
      assert (x = y).
      { destruct (proj1 (H x) (or_introl eq_refl)) as [|Hxb]; auto. destruct (proj2 (H y) (or_introl eq_refl)) as [|Hya]; auto.
        specialize (Hx y Hya). specialize (Hy x Hxb). apply lt_asym in Hx. congruence. }
      subst y. f_equal. apply IH; auto. intros z. split; intros Hz.
      + destruct (proj1 (H z) (or_intror Hz)) as [->|]; auto. specialize (Hx z Hz). rewrite lt_irrefl in Hx. discriminate.
      + destruct (proj2 (H z) (or_intror Hz)) as [->|]; auto. specialize (Hy z Hz). rewrite lt_irrefl in Hy. discriminate.
  Qed.

  (** ** Classes *)
  (** [x] is the representative of the class of [r]: its largest row. *)
  Definition largest (tg : tag) (maps : list lmap) (r x : vec) : Prop :=
    orbit tg maps r x /\ forall y, orbit tg maps r y -> y = x \/ lex_lt y x.
  Definition reversible (tg : tag) (maps : list lmap) (r : vec) : Prop := forall x y, orbit tg maps r x -> orbit tg maps x y -> orbit tg maps y x.

  Lemma representative_spec fuel tg maps r x : m_representative (arith t) fuel tg maps r = Ok (Some x) -> largest tg maps r x.
  Proof.
    unfold m_representative. destruct (m_get_class (arith t) fuel tg maps r) as [[S|]| |] eqn:E; cbn [bind]; try discriminate.
    destruct (get_class_spec tg maps r fuel S E) as (H1 & H2). destruct (back S) as [z| |] eqn:Eb; cbn [bind]; try discriminate.
    intros Ez. assert (z = x) by congruence. subst z. destruct (last_max S x H1 Eb) as (B1 & B2). split; [apply H2; auto|].
    intros y Hy. apply H2 in Hy. destruct (B2 y Hy) as [|B]; auto. right. apply lt_iff. auto.
  Qed.
  Lemma largest_unique tg maps r x y : largest tg maps r x -> largest tg maps r y -> x = y.
  Proof.
    intros (H1 & H2) (H3 & H4). destruct (H2 y H3) as [|L1]; auto. destruct (H4 x H1) as [|L2]; auto.
    apply lt_iff in L1, L2. apply lt_asym in L1. congruence.
  Qed.
  Lemma largest_orbit tg maps r s x : reversible tg maps r -> orbit tg maps r s -> largest tg maps r x <-> largest tg maps s x.
  Proof.
    intros Hr Hs. assert (Hs' : orbit tg maps s r) by (apply (Hr r s); [constructor|auto]).
    assert (E : forall y, orbit tg maps r y <-> orbit tg maps s y) by (intros y; split; intros; [apply (orbit_trans tg maps s r)|apply (orbit_trans tg maps r s)]; auto).
    unfold largest. split; intros (H1 & H2); (split; [apply E; auto|]; intros y Hy; apply H2; apply E; auto).
  Qed.

  Lemma classes_loop_spec rounds fuel tg maps (rows out : list vec) : sorted_rows rows ->
    m_classes_loop (arith t) rounds fuel tg maps rows = Ok (Some out) ->
    exists heads, incl heads rows /\ Forall2 (fun h x => largest tg maps h x) heads out /\
      (forall r, In r rows -> exists h, In h heads /\ orbit tg maps h r) /\
      (forall i j h k, (i < j)%nat -> nth_error heads i = Some h -> nth_error heads j = Some k -> ~ orbit tg maps h k) /\
      (forall h, In h heads -> exists L : list vec, forall x, orbit tg maps h x -> In x L).
  Proof.
    revert rows out. induction rounds as [|rounds IH]; intros rows out Hs E; destruct rows as [|first rows'].
    1, 3: (cbn [m_classes_loop] in E; assert (out = []) as -> by (injection E; auto); exists []; split; [apply incl_refl|]; split; [constructor|];
      split; [intros r []|]; split; [intros [|i] [|j]; discriminate|intros h []]).
    - discriminate.
    - cbn [m_classes_loop] in E. destruct (m_get_class (arith t) fuel tg maps first) as [[S|]| |] eqn:Ec; cbn [bind] in E; try discriminate.
      destruct (get_class_spec tg maps first fuel S Ec) as (H1 & H2). destruct (back S) as [z| |] eqn:Eb; cbn [bind] in E; try discriminate.
      destruct (erase_all_in S (first :: rows') Hs) as (E1 & E2).
      match type of E with (bind ?m _ = _) => destruct m as [[out'|]| |] eqn:El end; cbn [bind] in E; try discriminate.
      assert (Eo : out = z :: out') by (injection E; auto). subst out. clear E.
      destruct (IH _ _ E1 El) as (heads & A1 & A2 & A3 & A4 & A5).
      exists (first :: heads). split; [|split; [|split; [|split]]].
      + intros h [<-|Hh]; [left; auto|]. apply A1 in Hh. apply E2 in Hh. tauto.
      + constructor; auto. destruct (last_max S z H1 Eb) as (B1 & B2). split; [apply H2; auto|].
        intros y Hy. apply H2 in Hy. destruct (B2 y Hy) as [|B]; auto. right. apply lt_iff. auto.
      + intros r Hr. destruct (in_dec (list_eq_dec Z.eq_dec) r S) as [HS|HS].
        * exists first. split; [left; auto|]. apply H2. auto.
        * destruct (A3 r) as (h & Hh & Ho); [apply E2; auto|]. exists h. split; [right; auto|auto].
      + intros [|i] [|j] h k Hij Hh Hk; cbn [nth_error] in *; try lia.
        * injection Hh as <-. apply nth_error_In in Hk. apply A1 in Hk. apply E2 in Hk. intros Q. apply H2 in Q. tauto.
        * apply (A4 i j h k); auto; lia.
      + intros h [<-|Hh]; [|auto]. exists S. intros x Hx. apply H2. auto.
  Qed.

  Lemma classes_loop_total rounds fuel tg maps (rows : list vec) : sorted_rows rows -> (length rows <= rounds)%nat ->
    (forall r, In r rows -> exists S, m_get_class (arith t) fuel tg maps r = Ok (Some S)) ->
    exists out, m_classes_loop (arith t) rounds fuel tg maps rows = Ok (Some out).
  Proof.
    revert rows. induction rounds as [|rounds IH]; intros rows Hs Hl H; destruct rows as [|first rows'].
    1, 3: (exists []; reflexivity).
    - cbn [length] in Hl; lia.
    - cbn [m_classes_loop]. destruct (H first (or_introl eq_refl)) as (S & Ec). rewrite Ec. cbn [bind].
      destruct (get_class_spec tg maps first fuel S Ec) as (H1 & H2).
      assert (Hf : In first S) by (apply H2; constructor).
      destruct (back S) as [z| |] eqn:Eb; [|destruct S; [destruct Hf|discriminate]..]. cbn [bind].
      destruct (erase_all_in S (first :: rows') Hs) as (E1 & E2).
      destruct (IH (fold_left (fun s r => m_set_erase (arith t) r s) S (first :: rows'))) as (out & Eo); auto.
      + assert (length (fold_left (fun s r => m_set_erase (arith t) r s) S (first :: rows')) <= length rows')%nat; [|change (num (arith t)) with Z in *; unfold vec in *; cbn [length] in Hl; lia].
        apply NoDup_incl_length; [apply sorted_NoDup; auto|]. intros y Hy. apply E2 in Hy. destruct Hy as ([<-|Hy] & Hn); [contradiction|auto].
      + intros r Hr. apply E2 in Hr. apply H. tauto.
      + cbn in Eo. cbn. rewrite Eo. cbn [bind]. eauto.
  Qed.
End Types.
