(** * FmeFacets: the elimination invariant says the rows are exactly the facets. *)
From Coq Require Import List ZArith NArith Lia Bool Arith Permutation.
From Verif Require Import Spec LinAlg Cone Bits ListUtil FmeCore.
Import ListNotations.
Open Scope Z_scope.

Section Facets.
  Variables (n : nat) (Vs : list vec) (sys : list entry).
  Hypothesis Hinv : inv n Vs sys.

  Lemma inv_bsub e e' : In e sys -> In e' sys -> subs Vs (fst e) (fst e') -> bsub (snd e) (snd e').
  Proof.
    intros He He' Hs. apply (bsub_subs Vs (snd e) (snd e') (fst e) (fst e')); auto;
      try (apply (inv_valid _ _ _ Hinv); auto); apply (inv_marks _ _ _ Hinv); auto.
  Qed.

  Lemma inv_facet e : In e sys -> facet n Vs (fst e).
  Proof.
    intros He. set (a := fst e).
    assert (Ha : length a = n) by (apply (inv_dim _ _ _ Hinv); auto).
    assert (Hv : valid Vs a) by (apply (inv_valid _ _ _ Hinv); auto).
    assert (Hnz : nz Vs a) by (apply (inv_nz _ _ _ Hinv); auto).
    split; [exact Ha|]. split; [exact Hv|]. split.
    { intros H. destruct Hnz as (v & Hvi & Hne). apply Hne, H; auto. }
    intros b Hb Htight.
    destruct Hnz as (v1 & Hv1 & Hne1).
    destruct (min_ratio (fun v => - dot b v) (fun v => - dot a v) Vs) as (v0 & Hv0 & Hpos & Hmin).
    { exists v1; split; auto. specialize (Hv v1 Hv1). lia. }
    exists (- dot a v0), (dot b v0). split; [lia|].
    set (x := vadd (vscale (- dot a v0) b) (vscale (dot b v0) a)).
    assert (Hx : forall v, dot x v = - dot a v0 * dot b v + dot b v0 * dot a v).
    { intros v. unfold x. rewrite dot_vadd_l, !dot_vscale_l; auto. rewrite !vscale_length; lia. }
    assert (Hx0 : dot x v0 = 0) by (rewrite Hx; lia).
    assert (Hxs : subs Vs x a).
    { intros v Hvi E. rewrite Hx, E. rewrite (Htight v Hvi E). lia. }
    assert (Hxv : valid Vs x).
    { intros v Hvi. rewrite Hx. destruct (Z.eq_dec (dot a v) 0) as [E|E].
      - rewrite E, (Htight v Hvi E). lia.
      - assert (Hq : 0 < - dot a v) by (specialize (Hv v Hvi); lia). specialize (Hmin v Hvi Hq). nia. }
    destruct (nz_dec Vs x) as [Hxnz|]; [exfalso|assumption].
    destruct (inv_covers _ _ _ Hinv x) as (g & Hg & Hgs).
    { split; auto. unfold x. apply vadd_length_eq; rewrite vscale_length; auto. }
    { auto. }
    apply in_map_iff in Hg. destruct Hg as (e' & <- & He').
    assert (Hb' : bsub (snd e') (snd e)) by (apply inv_bsub; auto; eapply subs_trans; eauto).
    assert (Hne : e' <> e).
    { intros ->. assert (dot a v0 = 0) by (apply Hgs; auto). lia. }
    destruct (pairwise_in incomparable sys e' e) as (Hi & _); auto using incomparable_sym.
    apply (inv_anti _ _ _ Hinv).
  Qed.

  Lemma facets_covered a : facet n Vs a -> exists e, In e sys /\ equivalent_ineq Vs (fst e) a.
  Proof.
    intros (Ha & Hv & Hnv & Hf).
    destruct (inv_covers _ _ _ Hinv a) as (g & Hg & Hgs).
    { split; auto. }
    { destruct (nz_dec Vs a); tauto. }
    apply in_map_iff in Hg. destruct Hg as (e & <- & He). exists e; split; auto.
    assert (Hl := inv_dim _ _ _ Hinv e He).
    destruct (Hf (fst e) Hl Hgs) as (k & t & Hk & Hvan).
    destruct (inv_nz _ _ _ Hinv e He) as (v & Hvi & Hne).
    assert (Hvv := Hvan v Hvi). rewrite dot_vadd_l, !dot_vscale_l in Hvv by (rewrite !vscale_length; lia).
    assert (H1 : dot (fst e) v < 0) by (assert (H := inv_valid _ _ _ Hinv e He v Hvi); lia).
    assert (H2 : dot a v < 0).
    { specialize (Hv v Hvi). destruct (Z.eq_dec (dot a v) 0) as [E|E]; [|lia]. apply Hgs in E; auto. lia. }
    assert (Hkt : (0 < k /\ t < 0) \/ (k < 0 /\ 0 < t)) by nia.
    destruct Hkt as [(K & T)|(K & T)].
    - exists k, (- t). split; [auto|]. split; [lia|]. rewrite Z.opp_involutive. exact Hvan.
    - exists (- k), t. split; [lia|]. split; [lia|]. intros w Hw. specialize (Hvan w Hw).
      rewrite dot_vadd_l, !dot_vscale_l in * by (rewrite !vscale_length; lia). lia.
  Qed.

  Lemma rows_inequivalent e e' : In e sys -> In e' sys -> equivalent_ineq Vs (fst e) (fst e') -> e = e'.
  Proof.
    intros He He' (k & t & Hk & Ht & Hvan).
    assert (Hs : subs Vs (fst e) (fst e')).
    { intros v Hv E. specialize (Hvan v Hv).
      rewrite dot_vadd_l, !dot_vscale_l in Hvan
        by (rewrite !vscale_length, !(inv_dim _ _ _ Hinv); auto). nia. }
    apply inv_bsub in Hs; auto.
    destruct (N.eq_dec (snd e) (snd e')) as [E|E].
    - destruct (In_dec (fun x y : entry => ltac:(decide equality; [apply N.eq_dec|apply list_eq_dec, Z.eq_dec])) e [e']) as [[->|[]]|Hn]; auto.
      exfalso. destruct (pairwise_in incomparable sys e e') as (Hi & _); auto using incomparable_sym.
      + apply (inv_anti _ _ _ Hinv).
      + intros ->. apply Hn; left; auto.
    - exfalso. destruct (pairwise_in incomparable sys e e') as (Hi & _); auto using incomparable_sym.
      + apply (inv_anti _ _ _ Hinv).
      + intros ->; auto.
  Qed.
End Facets.
