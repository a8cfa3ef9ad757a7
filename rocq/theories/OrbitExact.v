(** * OrbitExact: a class that could be computed with some integer type is the class over the integers. *)
From Coq Require Import List ZArith Arith Lia Bool Permutation.
From Verif Require Import Base Spec LinAlg ListUtil FmeCore ArithModel MatrixModel FmeModel SafeIntModel Refine IntTypes FmeTheorems
  ClassesModel ClassesProofs OrbitTheorems ApplyTheorems.
Import ListNotations.
Open Scope Z_scope.

Section Closed.
  Variables (t : int_type) (tg : tag) (maps : list lmap).

  (** The returned set is closed under all maps: every application was computed. *)
  Lemma class_loop_closed fuel : forall (rows stack S : list vec), sorted_rows t rows -> incl stack rows ->
    (forall x m, In x rows -> ~ In x stack -> In m maps -> exists y, m_apply (arith t) tg m x = Ok y /\ In y rows) ->
    m_class_loop (arith t) fuel tg maps rows stack = Ok (Some S) ->
    forall x m, In x S -> In m maps -> exists y, m_apply (arith t) tg m x = Ok y /\ In y S.
  Proof.
    induction fuel as [|fuel IH]; intros rows stack S Hs Hi Hc E; destruct stack as [|current stack].
    1, 3: (cbn [m_class_loop] in E; assert (rows = S) as <- by congruence; intros x m Hx Hm; apply Hc; auto).
    - discriminate.
    - cbn [m_class_loop] in E. match type of E with (bind ?m _ = _) => destruct m as [s'| |] eqn:Er end; cbn [bind] in E; [|discriminate E..].
      destruct (class_row_spec t tg current maps rows stack s' Hs Er) as (C1 & C2 & C3 & C4 & C5 & C6 & C7).
      refine (IH (fst s') (snd s') S C1 _ _ E).
      + intros y Hy. destruct (C6 y Hy) as [Hy'|]; auto. apply C3. apply Hi. right; auto.
      + intros x m Hx Hns Hm. destruct (C5 x Hx) as [Hx'|(Hin & _)]; [|contradiction].
        destruct (list_eq_dec Z.eq_dec x current) as [->|Hne]; [apply C2; auto|].
        destruct (Hc x m) as (y & E1 & E2); auto; [|exists y; split; auto; apply C3; auto].
        intros [Q|Q]; [congruence|]. apply Hns. auto.
  Qed.
  Lemma get_class_closed fuel (r : vec) (S : list vec) : m_get_class (arith t) fuel tg maps r = Ok (Some S) ->
    forall x m, In x S -> In m maps -> exists y, m_apply (arith t) tg m x = Ok y /\ In y S.
  Proof.
    intros E. apply (class_loop_closed fuel [r] [r] S); auto.
    - repeat constructor.
    - apply incl_refl.
    - intros x m [<-|[]] Hn. exfalso. apply Hn. left; auto.
  Qed.

  Variable n : nat.
  Hypothesis Ht : t <> INT16.
  Hypothesis Hm : Forall (map_in n) maps.
  Lemma orbit_good r x : length r = n -> Forall (representable t) r -> orbit t tg maps r x -> orbit EXACT tg maps r x /\ length x = n /\ Forall (representable t) x.
  Proof.
    intros Hr Hrep. induction 1 as [|x m y _ (IH1 & IH2 & IH3) Hin E]; [repeat split; auto; constructor|].
    assert (Mm := proj1 (Forall_forall _ _) Hm m Hin). destruct (apply_result t tg n m x y Ht Mm IH2 IH3 E) as (-> & Hy). split; [|split; auto; rewrite rnorm_length, praw_length; auto].
    apply (orbit_apply EXACT tg maps r x m); auto. apply (apply_exact tg n); auto.
  Qed.
  Lemma orbit_exact fuel (r : vec) (S : list vec) : length r = n -> Forall (representable t) r -> m_get_class (arith t) fuel tg maps r = Ok (Some S) ->
    forall x, orbit EXACT tg maps r x <-> orbit t tg maps r x.
  Proof.
    intros Hr Hrep E. destruct (get_class_spec t tg maps r fuel S E) as (_ & HS). assert (Hc := get_class_closed fuel r S E).
    intros x. split; [|apply (orbit_good r x Hr Hrep)]. induction 1 as [|x m y _ IH Hin Ey]; [constructor|].
    assert (Mm := proj1 (Forall_forall _ _) Hm m Hin). destruct (orbit_good r x Hr Hrep IH) as (_ & Lx & Rx).
    destruct (Hc x m) as (z & Ez & Hz); [apply HS; auto|auto|]. destruct (apply_result t tg n m x z Ht Mm Lx Rx Ez) as (Hz' & _).
    rewrite (apply_exact tg n m x Mm Lx) in Ey. assert (y = z) as -> by congruence. apply (orbit_apply t tg maps r x m); auto.
  Qed.
  Lemma largest_exact fuel (r : vec) (S : list vec) y : length r = n -> Forall (representable t) r -> m_get_class (arith t) fuel tg maps r = Ok (Some S) ->
    largest t tg maps r y <-> largest EXACT tg maps r y.
  Proof.
    intros Hr Hrep E. assert (O := orbit_exact fuel r S Hr Hrep E). unfold largest. split; intros (H1 & H2); (split; [apply O; auto|]; intros z Hz; apply H2; apply O; auto).
  Qed.

  (** [classRepresentative] and [classes]. *)
  Lemma representative_exact fuel (r x : vec) : length r = n -> Forall (representable t) r -> m_representative (arith t) fuel tg maps r = Ok (Some x) ->
    largest EXACT tg maps r x /\ length x = n /\ Forall (representable t) x.
  Proof.
    intros Hr Hrep E. assert (L := representative_spec t fuel tg maps r x E). destruct (orbit_good r x Hr Hrep (proj1 L)) as (_ & H1 & H2). split; auto.
    unfold m_representative in E. match type of E with (bind ?m _ = _) => destruct m as [[S|]| |] eqn:Ec end; cbn [bind] in E; try discriminate.
    apply (largest_exact fuel r S x); auto.
  Qed.
  (** Some rows [heads] have been replaced by their representatives, and every row is in the class of one of them. *)
  Lemma classes_exact fuel (rows out : list vec) : dims n rows -> rows_representable t rows -> m_classes_of (arith t) fuel tg maps rows = Ok (Some out) ->
    (forall x, In x out -> length x = n /\ Forall (representable t) x /\ exists r, In r rows /\ largest EXACT tg maps r x) /\
    (forall r, In r rows -> exists h x, In h rows /\ orbit EXACT tg maps h r /\ In x out /\ largest EXACT tg maps h x).
  Proof.
    intros Hd Hrep E. unfold m_classes_of, m_classes in E. destruct (set_of_spec t rows) as (Hs & Hin).
    assert (G : forall rounds (rs o : list vec), sorted_rows t rs -> incl rs rows -> m_classes_loop (arith t) rounds fuel tg maps rs = Ok (Some o) ->
      (forall x, In x o -> length x = n /\ Forall (representable t) x /\ exists r, In r rows /\ largest EXACT tg maps r x) /\
      (forall r, In r rs -> exists h x, In h rows /\ orbit EXACT tg maps h r /\ In x o /\ largest EXACT tg maps h x)).
    { clear E. induction rounds as [|rounds IH]; intros rs o Hss Hi E; destruct rs as [|first rs'].
      1, 3: (cbn [m_classes_loop] in E; assert (o = []) as -> by (injection E; auto); split; [intros x []|intros r []]).
      - discriminate.
      - cbn [m_classes_loop] in E. destruct (m_get_class (arith t) fuel tg maps first) as [[S|]| |] eqn:Ec; cbn [bind] in E; try discriminate.
        destruct (get_class_spec t tg maps first fuel S Ec) as (H1 & H2). destruct (back S) as [z| |] eqn:Eb; cbn [bind] in E; try discriminate.
        destruct (erase_all_in t S (first :: rs') Hss) as (E1 & E2).
        match type of E with (bind ?m _ = _) => destruct m as [[o'|]| |] eqn:El end; cbn [bind] in E; try discriminate.
        assert (Eo : o = z :: o') by (injection E; auto). subst o. clear E.
        destruct (IH _ o' E1) as (A1 & A2); [|exact El|].
        { intros h Hh. apply E2 in Hh. apply Hi. tauto. }
        assert (Hf : In first rows) by (apply Hi; left; auto). assert (Lf := dims_in n rows first Hd Hf). assert (Rf := proj1 (Forall_forall _ _) Hrep first Hf).
        destruct (last_max t S z H1 Eb) as (B1 & B2).
        assert (Lz : largest t tg maps first z).
        { split; [apply H2; auto|]. intros y Hy. apply H2 in Hy. destruct (B2 y Hy) as [|B]; auto. right. apply (lt_iff t). auto. }
        assert (Lz' := proj1 (largest_exact fuel first S z Lf Rf Ec) Lz). destruct (orbit_good first z Lf Rf (proj1 Lz)) as (_ & Zl & Zr). split.
        + intros x [<-|Hx]; [|auto]. split; auto. split; auto. exists first. auto.
        + intros r Hr. destruct (in_dec (list_eq_dec Z.eq_dec) r S) as [HS|HS].
          * exists first, z. split; auto. split; [apply (orbit_exact fuel first S Lf Rf Ec); apply H2; auto|]. split; [left; auto|auto].
          * destruct (A2 r) as (h & x & B3 & B4 & B5 & B6); [apply E2; auto|]. exists h, x. split; auto. split; auto. split; [right; auto|auto]. }
    destruct (G _ _ out Hs (fun x Hx => proj1 (Hin x) Hx) E) as (G1 & G2). split; auto. intros r Hr. apply G2. apply Hin. auto.
  Qed.
  (** No row is selected twice. *)
  Lemma classes_nodup fuel (rows out : list vec) : dims n rows -> rows_representable t rows -> (forall r, In r rows -> reversible EXACT tg maps r) ->
    m_classes_of (arith t) fuel tg maps rows = Ok (Some out) -> NoDup out.
  Proof.
    intros Hd Hrep Hrev E. unfold m_classes_of, m_classes in E. destruct (set_of_spec t rows) as (Hs & Hin).
    assert (G : forall rounds (rs o : list vec), sorted_rows t rs -> incl rs rows -> m_classes_loop (arith t) rounds fuel tg maps rs = Ok (Some o) ->
      NoDup o /\ forall x, In x o -> exists r, In r rs /\ orbit EXACT tg maps r x).
    { clear E. induction rounds as [|rounds IH]; intros rs o Hss Hi E; destruct rs as [|first rs'].
      1, 3: (cbn [m_classes_loop] in E; assert (o = []) as -> by (injection E; auto); split; [constructor|intros x []]).
      - discriminate.
      - cbn [m_classes_loop] in E. destruct (m_get_class (arith t) fuel tg maps first) as [[S|]| |] eqn:Ec; cbn [bind] in E; try discriminate.
        destruct (get_class_spec t tg maps first fuel S Ec) as (H1 & H2). destruct (back S) as [z| |] eqn:Eb; cbn [bind] in E; try discriminate.
        destruct (erase_all_in t S (first :: rs') Hss) as (E1 & E2).
        match type of E with (bind ?m _ = _) => destruct m as [[o'|]| |] eqn:El end; cbn [bind] in E; try discriminate.
        assert (Eo : o = z :: o') by (injection E; auto). subst o. clear E.
        destruct (IH _ o' E1) as (A1 & A2); [|exact El|].
        { intros h Hh. apply E2 in Hh. apply Hi. tauto. }
        assert (Hf : In first rows) by (apply Hi; left; auto). assert (Lf := dims_in n rows first Hd Hf). assert (Rf := proj1 (Forall_forall _ _) Hrep first Hf).
        destruct (last_max t S z H1 Eb) as (B1 & _). assert (Oz : orbit EXACT tg maps first z) by (apply (orbit_exact fuel first S Lf Rf Ec); apply H2; auto). split.
        + constructor; auto. intros Hz. destruct (A2 z Hz) as (r & Hr & Or). apply E2 in Hr. destruct Hr as (Hr & Hn). apply Hn. apply H2. apply (orbit_exact fuel first S Lf Rf Ec).
          apply (orbit_trans EXACT tg maps first z); auto. apply (Hrev r (Hi r Hr) r z); auto. constructor.
        + intros x [<-|Hx]; [exists first; split; [left; auto|auto]|]. destruct (A2 x Hx) as (r & Hr & Or). apply E2 in Hr. exists r. split; auto. apply Hr. }
    apply (G _ _ out Hs (fun x Hx => proj1 (Hin x) Hx) E).
  Qed.
End Closed.
