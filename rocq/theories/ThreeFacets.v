(** * ThreeFacets: a pointed cone of dimension at least three has three facets. *)
From Coq Require Import List ZArith Arith Lia Bool Permutation.
From Verif Require Import Spec LinAlg ListUtil Cone FmePrepare FmeCorrect FmeTheorems.
Import ListNotations.
Open Scope Z_scope.

Lemma common_zero f1 f2 f3 g1 g2 g3 : exists c1 c2 c3, ~ (c1 = 0 /\ c2 = 0 /\ c3 = 0) /\
  f1 * c1 + f2 * c2 + f3 * c3 = 0 /\ g1 * c1 + g2 * c2 + g3 * c3 = 0.
Proof.
  destruct (Z.eq_dec (f2 * g3 - f3 * g2) 0) as [E1|]; [|exists (f2 * g3 - f3 * g2), (f3 * g1 - f1 * g3), (f1 * g2 - f2 * g1); split; [tauto|split; ring]].
  destruct (Z.eq_dec (f3 * g1 - f1 * g3) 0) as [E2|]; [|exists (f2 * g3 - f3 * g2), (f3 * g1 - f1 * g3), (f1 * g2 - f2 * g1); split; [tauto|split; ring]].
  destruct (Z.eq_dec (f1 * g2 - f2 * g1) 0) as [E3|]; [|exists (f2 * g3 - f3 * g2), (f3 * g1 - f1 * g3), (f1 * g2 - f2 * g1); split; [tauto|split; ring]].
  destruct (Z.eq_dec f1 0) as [F1|]; [|exists f2, (- f1), 0; split; [lia|split; lia]].
  destruct (Z.eq_dec f2 0) as [F2|]; [|exists f2, (- f1), 0; split; [lia|split; lia]].
  destruct (Z.eq_dec f3 0) as [F3|]; [|exists f3, 0, (- f1); split; [lia|split; lia]].
  destruct (Z.eq_dec g1 0) as [G1|]; [|exists g2, (- g1), 0; split; [lia|split; lia]].
  destruct (Z.eq_dec g2 0) as [G2|]; [|exists g2, (- g1), 0; split; [lia|split; lia]].
  destruct (Z.eq_dec g3 0) as [G3|]; [|exists g3, 0, (- g1); split; [lia|split; lia]].
  exists 1, 0, 0. split; [lia|split; lia].
Qed.

Section Three.
  Variables (n : nat) (V : list vec) (order : list nat -> list nat).
  Hypothesis HV : dims n V.
  Hypothesis Ho : sort_order order.

  Lemma two_not_enough f g b1 b2 b3 : incl [b1; b2; b3] V -> independent n [b1; b2; b3] ->
    (forall r, In r (all_rows order n V) -> r = f \/ r = g) ->
    exists x, length x = n /\ x <> vzero n /\ in_cone n V x /\ in_cone n V (vscale (-1) x).
  Proof.
    intros Hi Hind Hall.
    assert (HB : dims n [b1; b2; b3]) by (apply (dims_incl n _ V); auto).
    destruct (common_zero (dot f b1) (dot f b2) (dot f b3) (dot g b1) (dot g b2) (dot g b3)) as (c1 & c2 & c3 & Hne & Ef & Eg).
    set (x := lincomb n [c1; c2; c3] [b1; b2; b3]).
    assert (Hx : length x = n) by (apply lincomb_length; auto).
    assert (Hdot : forall a, dot a x = dot a b1 * c1 + dot a b2 * c2 + dot a b3 * c3).
    { intros a. unfold x. rewrite dot_comm, dot_lincomb_l by auto. cbn [map dot]. rewrite (dot_comm b1 a), (dot_comm b2 a), (dot_comm b3 a). ring. }
    assert (Hz : forall s, in_cone n V (vscale s x)).
    { intros s. apply (all_rows_describe order Ho n V HV); [rewrite vscale_length; auto|].
      assert (P := prepare_ok n V HV). split.
      - intros e He. rewrite dot_vscale_r, Hdot.
        rewrite !(po_eqs_van _ _ _ P e He) by (apply Hi; cbn; tauto). lia.
      - intros r Hr. rewrite dot_vscale_r, Hdot. destruct (Hall r Hr) as [->| ->]; rewrite ?Ef, ?Eg; lia. }
    exists x. split; auto. split; [|split; [rewrite <- (vscale_1 x); apply Hz|apply Hz]].
    intros E. assert (H := Hind [c1; c2; c3] eq_refl E). 
    apply Hne; split; [exact (Forall_inv H)|split; [exact (Forall_inv (Forall_inv_tail H))|exact (Forall_inv (Forall_inv_tail (Forall_inv_tail H)))]].
  Qed.

  Theorem three_facets b1 b2 b3 : incl [b1; b2; b3] V -> independent n [b1; b2; b3] ->
    (forall x, length x = n -> in_cone n V x -> in_cone n V (vscale (-1) x) -> x = vzero n) ->
    exists a b c, facet n V a /\ facet n V b /\ facet n V c /\ ~ equivalent_ineq V a b /\ ~ equivalent_ineq V a c /\ ~ equivalent_ineq V b c.
  Proof.
    intros Hi Hind Hp.
    assert (Hno : forall f g, ~ forall r, In r (all_rows order n V) -> r = f \/ r = g).
    { intros f g Hall. destruct (two_not_enough f g b1 b2 b3 Hi Hind Hall) as (x & Hx & Hn & H1 & H2). apply Hn, Hp; auto. }
    assert (Hne := all_rows_inequivalent order Ho n V HV). assert (Hnd := all_rows_NoDup order Ho n V HV).
    assert (Hf := all_rows_facet order Ho n V HV).
    destruct (all_rows order n V) as [|a [|b [|c l]]].
    - exfalso. apply (Hno [] []). intros r [].
    - exfalso. apply (Hno a a). intros r [->|[]]. auto.
    - exfalso. apply (Hno a b). intros r [->|[->|[]]]; auto.
    - exists a, b, c. split; [apply Hf; cbn; tauto|]. split; [apply Hf; cbn; tauto|]. split; [apply Hf; cbn; tauto|].
      inversion Hnd as [|? ? N1 Hnd']; subst. inversion Hnd' as [|? ? N2 _]; subst. cbn [In] in N1, N2.
      split; [|split]; intros E; apply Hne in E; cbn [In]; try tauto; subst; tauto.
  Qed.

  (** Polytopes: all generators are vertices. *)
  Lemma polytope_pointed : (0 < n)%nat -> (forall v, In v V -> 0 < nth (n - 1) v 0) ->
    forall x, length x = n -> in_cone n V x -> in_cone n V (vscale (-1) x) -> x = vzero n.
  Proof.
    intros Hn Hpos x Hx H1 H2.
    set (e := unit_vec n (n - 1) (-1)).
    assert (He : forall v, length v = n -> dot e v = - nth (n - 1) v 0) by (intros v Hv; apply unit_dot; auto; lia).
    assert (Hval : valid V e) by (intros v Hv; rewrite He by (eapply dims_in; eauto); specialize (Hpos v Hv); lia).
    assert (Q1 := in_cone_valid n V e x HV Hval H1). assert (Q2 := in_cone_valid n V e _ HV Hval H2). rewrite dot_vscale_r in Q2.
    destruct H1 as (k & cs & Hk & Hl & Hc & E).
    assert (Hz : Forall (fun c => c = 0) cs).
    { assert (S0 : dot cs (map (fun v => dot v e) V) = 0).
      { assert (Ek := f_equal (fun u => dot u e) E). cbn beta in Ek. rewrite dot_vscale_l, dot_lincomb_l in Ek by auto.
        rewrite (dot_comm x e) in Ek. nia. }
      assert (Hneg : forall v, In v V -> dot v e < 0).
      { intros v Hv. rewrite dot_comm, He by (eapply dims_in; eauto). specialize (Hpos v Hv). lia. }
      clear - S0 Hneg Hl Hc. revert cs Hl Hc S0. induction V as [|v l IH]; intros [|c cs] Hl Hc S0; cbn [length] in Hl; try lia; constructor.
      - cbn [map dot] in S0. assert (C0 := Forall_inv Hc). cbn beta in C0. assert (Hv := Hneg v (or_introl eq_refl)).
        assert (N : dot cs (map (fun v => dot v e) l) <= 0); [|nia].
        assert (Hcs := Forall_inv_tail Hc). assert (Hn' : forall u, In u l -> dot u e < 0) by (intros; apply Hneg; right; auto).
        clear - Hcs Hn'. revert cs Hcs. induction l as [|u l IH]; intros [|c cs] Hcs; cbn [map dot]; try lia.
        assert (C1 := Forall_inv Hcs). cbn beta in C1. specialize (IH (fun u H => Hn' u (or_intror H)) cs (Forall_inv_tail Hcs)).
        assert (Hu := Hn' u (or_introl eq_refl)). nia.
      - apply IH; auto.
        + intros u Hu. apply Hneg. right; auto.
        + apply (Forall_inv_tail Hc).
        + cbn [map dot] in S0. assert (C0 := Forall_inv Hc). cbn beta in C0. assert (Hv := Hneg v (or_introl eq_refl)).
          assert (N : dot cs (map (fun v => dot v e) l) <= 0); [|nia].
          assert (Hcs := Forall_inv_tail Hc). assert (Hn' : forall u, In u l -> dot u e < 0) by (intros; apply Hneg; right; auto).
          clear - Hcs Hn'. revert cs Hcs. induction l as [|u l IH]; intros [|c cs] Hcs; cbn [map dot]; try lia.
          assert (C1 := Forall_inv Hcs). cbn beta in C1. specialize (IH (fun u H => Hn' u (or_intror H)) cs (Forall_inv_tail Hcs)).
          assert (Hu := Hn' u (or_introl eq_refl)). nia. }
    apply (vscale_inj k); [lia|]. rewrite E, vscale_vzero. apply lincomb_zeros; auto.
  Qed.
End Three.
