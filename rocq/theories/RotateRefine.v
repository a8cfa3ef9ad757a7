(** * RotateRefine: the modelled rotation computes the pure one, for every sound integer type. *)
From Coq Require Import List ZArith Arith Lia Bool Permutation.
From Verif Require Import Base Spec LinAlg ListUtil Cone FmeCore FmePure FmeCorrect ArithModel MatrixModel FmeModel Refine MatrixRefine FmeRefine
  ClassesModel RotationModel Adjacency RotatePure.
Import ListNotations.
Open Scope Z_scope.

Definition ridges_of (order : list nat -> list nat) (n : nat) (V : list vec) (f : vec) : list vec := fme order n (tight V f).
Definition rotated_of (order : list nat -> list nat) (n : nat) (V : list vec) (f : vec) : list vec :=
  map (rotate V f) (ridges_of order n V f).

Section R.
  Variables (allowT allowU : bool) (A : Arith) (S : Sound allowT allowU A).
  Notation rl := (rel allowT allowU).
  Notation rowr := (rowr S).
  Notation matr := (matr S).
  Variable order : list nat -> list nat.
  Hypothesis Ho : forall ks, Permutation (order ks) (seq 0 (length ks)).

  Lemma extremal_rel (better : num A -> num A -> bool) (better' : Z -> Z -> bool) n a a' :
    (forall x y u v, vr S x u -> vr S y v -> better x y = better' u v) -> rowr a a' -> length a' = n ->
    forall vs vs', matr vs vs' -> dims n vs' -> forall best best' d, rowr best best' -> length best' = n -> vr S d (- dot a' best') ->
    rl rowr (m_extremal A better a best d vs) (extremal better' a' best' vs').
  Proof.
    intros Hb Ha Hl vs vs' H. induction H as [|v v' vs vs' Hv _ IH]; intros HV best best' d Hbest Hlb Hd; cbn [m_extremal extremal].
    - exact Hbest.
    - assert (Hlv := Forall_inv HV). cbn beta in Hlv. assert (HV' := Forall_inv_tail HV).
      apply (rel_bind _ _ (vr S) _ _ _ (- dot a' v')); [apply distance_rel; auto; congruence|]. intros e He.
      rewrite (Hb e d _ _ He Hd). destruct (better' _ _); apply IH; auto.
  Qed.
  Lemma extremal_vertex_rel (better : num A -> num A -> bool) (better' : Z -> Z -> bool) n a a' vs vs' :
    (forall x y u v, vr S x u -> vr S y v -> better x y = better' u v) -> rowr a a' -> length a' = n ->
    matr vs vs' -> dims n vs' -> vs' <> [] ->
    rl rowr (m_extremal_vertex A better vs a) (extremal_of better' vs' a').
  Proof.
    intros Hb Ha Hl H HV Hne. destruct H as [|v v' vs vs' Hv H]; [congruence|]. cbn [m_extremal_vertex extremal_of].
    assert (Hlv := Forall_inv HV). cbn beta in Hlv. assert (HV' := Forall_inv_tail HV).
    apply (rel_bind _ _ (vr S) _ _ _ (- dot a' v')); [apply distance_rel; auto; congruence|]. intros e He.
    apply (extremal_rel better better' n); auto.
  Qed.
  Lemma nearest_rel n a a' vs vs' : rowr a a' -> length a' = n -> matr vs vs' -> dims n vs' -> vs' <> [] ->
    rl rowr (m_nearest A vs a) (nearest vs' a').
  Proof. intros. apply (extremal_vertex_rel _ _ n); auto. intros. apply vr_gt with (S := S); auto. Qed.
  Lemma furthest_rel n a a' vs vs' : rowr a a' -> length a' = n -> matr vs vs' -> dims n vs' -> vs' <> [] ->
    rl rowr (m_furthest A vs a) (furthest vs' a').
  Proof. intros. apply (extremal_vertex_rel _ _ n); auto. intros. apply vr_gt with (S := S); auto. Qed.

  Lemma on_facet_rel n f f' vs vs' : rowr f f' -> length f' = n -> matr vs vs' -> dims n vs' ->
    rl matr (m_on_facet A vs f) (tight vs' f').
  Proof.
    intros Hf Hl H. induction H as [|v v' vs vs' Hv _ IH]; intros HV; cbn [m_on_facet tight filter].
    - constructor.
    - assert (Hlv := Forall_inv HV). cbn beta in Hlv.
      apply (rel_bind _ _ (vr S) _ _ _ (- dot f' v')); [apply distance_rel; auto; congruence|]. intros d Hd.
      apply (rel_bind _ _ matr _ _ _ (tight vs' f')); [apply IH; apply (Forall_inv_tail HV)|]. intros rest Hr. cbn [rel].
      rewrite (vr_eqi _ _ _ S d _ 0 Hd) by auto.
      destruct (Z.eqb_spec (- dot f' v') 0), (Z.eqb_spec (dot f' v') 0); try lia; [constructor; auto|exact Hr].
  Qed.

  Lemma rotate_body_rel n V V' f f' r r' w' df dr : matr V V' -> dims n V' -> V' <> [] -> rowr f f' -> length f' = n -> rowr r r' -> length r' = n ->
    vr S df (- dot f' w') -> vr S dr (- dot r' w') -> dot f' w' < 0 ->
    let s := rotate_step f' r' w' in
    rl (fun p q => rowr (fst (fst p)) s /\ vr S (snd (fst p)) (- dot f' (nearest V' s)) /\ vr S (snd p) (- dot s (nearest V' s)))
      (m_rotate_body A V f r df dr) tt.
  Proof.
    intros HM HV Hne Hf Hlf Hr Hlr Hdf Hdr Hw s. unfold m_rotate_body.
    set (x := - dot f' w') in *. set (y := - dot r' w') in *.
    apply (rel_bind _ _ (vr S) _ _ _ (Z.gcd x y)); [apply gcd_rel; auto|]. intros g Hg.
    apply (rel_bind _ _ (fun p q => vr S (fst p) (fst q) /\ vr S (snd p) (snd q)) _ _ _
      (if Z.gcd x y >? 1 then (Z.quot x (Z.gcd x y), Z.quot y (Z.gcd x y)) else (x, y))).
    { rewrite (vr_gti _ _ _ S g _ Hg). destruct (Z.gcd x y >? 1) eqn:E; [|split; auto].
      apply Z.gtb_lt in E.
      apply (rel_bind _ _ (vr S) _ _ _ (Z.quot x (Z.gcd x y))); [apply vr_div; auto; lia|]. intros u Hu.
      apply (rel_bind _ _ (vr S) _ _ _ (Z.quot y (Z.gcd x y))); [apply vr_div; auto; lia|]. intros v Hv. split; auto. }
    intros d (Hd1 & Hd2).
    destruct (if Z.gcd x y >? 1 then (Z.quot x (Z.gcd x y), Z.quot y (Z.gcd x y)) else (x, y)) as [p q] eqn:Ed. cbn [fst snd] in Hd1, Hd2.
    apply (rel_bind _ _ rowr _ _ _ (vscale p r')); [apply row_mul_rel; auto|]. intros r1 Hr1.
    apply (rel_bind _ _ rowr _ _ _ (vscale q f')); [apply row_mul_rel; auto|]. intros r2 Hr2.
    apply (rel_bind _ _ rowr _ _ _ (vadd (vscale p r') (vscale (-1) (vscale q f')))).
    { apply row_sub_rel; auto. rewrite !vscale_length. congruence. }
    intros r3 Hr3.
    assert (Es : rnorm (vadd (vscale p r') (vscale (-1) (vscale q f'))) = s).
    { unfold s, rotate_step. fold x y. rewrite Ed. reflexivity. }
    assert (Hls : length s = n) by (apply rotate_step_length; auto).
    apply (rel_bind _ _ rowr _ _ _ s); [rewrite <- Es; apply row_reduce_rel; auto|]. intros r4 Hr4.
    apply (rel_bind _ _ rowr _ _ _ (nearest V' s)); [apply (nearest_rel n); auto|]. intros v Hv.
    assert (Hlv : length (nearest V' s) = n) by (apply (dims_in n V'); auto; apply extremal_of_in; auto).
    apply (rel_bind _ _ (vr S) _ _ _ (- dot f' (nearest V' s))); [apply distance_rel; auto; congruence|]. intros df' Hdf'.
    apply (rel_bind _ _ (vr S) _ _ _ (- dot s (nearest V' s))); [apply distance_rel; auto; congruence|]. intros dr' Hdr'.
    cbn [rel fst snd]. auto.
  Qed.

  Section OneFacet.
    Variables (n : nat) (V : list (list (num A))) (V' : list vec) (f : list (num A)) (f' : vec).
    Hypothesis HM : matr V V'.
    Hypothesis HV : dims n V'.
    Hypothesis Hne : V' <> [].
    Hypothesis Hf : rowr f f'.
    Hypothesis Hlf : length f' = n.
    Hypothesis Hfv : valid V' f'.

    Lemma rotate_loop_rel fuel : forall r r' w' df dr, rowr r r' -> length r' = n -> valid (tight V' f') r' -> nz (tight V' f') r' ->
      vr S df (- dot f' w') -> vr S dr (- dot r' w') -> In w' V' -> dot f' w' < 0 -> (0 < dot r' w')%Z -> (npos V' r' <= fuel)%nat ->
      rl rowr (m_rotate_loop A fuel V f r df dr) (rotate_loop fuel V' f' r' w').
    Proof.
      induction fuel as [|fuel IH]; intros r r' w' df dr Hr Hlr Hval Hnz Hdf Hdr Hw Hfw Hrw Hn.
      - exfalso. unfold npos in Hn. assert (Hin : In w' (filter (fun v => 0 <? dot r' v) V')) by (apply filter_In; split; auto; apply Z.ltb_lt; auto).
        destruct (filter _ V'); [destruct Hin|cbn in Hn; lia].
      - cbn [m_rotate_loop rotate_loop].
        destruct (after n V' f' HV Hlf Hfv r' w' Hlr Hval Hnz Hw Hfw) as (Hl' & Hv' & Hz' & Hp' & Hw' & Hge & H0 & Hlt).
        assert (Hc := step_npos n V' f' Hlf Hfv r' w' Hlr Hw Hfw Hrw).
        eapply rel_bind; [exact (rotate_body_rel n V V' f f' r r' w' df dr HM HV Hne Hf Hlf Hr Hlr Hdf Hdr Hfw)|].
        intros [[r4 df4] dr4] (G1 & G2 & G3). cbn [fst snd] in *.
        rewrite (vr_eqi _ _ _ S dr4 _ 0 G3) by auto.
        set (s := rotate_step f' r' w') in *. set (w2 := nearest V' s) in *.
        destruct (Z.eqb_spec (- dot s w2) 0), (Z.eqb_spec (dot s w2) 0); try lia; cbn [negb]; [exact G1|].
        apply IH; auto; try lia.
    Qed.
    Lemma rotate_first_rel fuel r r' w' df dr : rowr r r' -> length r' = n -> valid (tight V' f') r' -> nz (tight V' f') r' ->
      vr S df (- dot f' w') -> vr S dr (- dot r' w') -> In w' V' -> dot f' w' < 0 -> (length V' <= fuel)%nat ->
      rl rowr (m_rotate_loop A fuel V f r df dr) (rotate_loop fuel V' f' r' w').
    Proof.
      intros Hr Hlr Hval Hnz Hdf Hdr Hw Hfw Hn. destruct fuel as [|fuel]; [destruct V'; [congruence|cbn in Hn; lia]|].
      cbn [m_rotate_loop rotate_loop].
      destruct (after n V' f' HV Hlf Hfv r' w' Hlr Hval Hnz Hw Hfw) as (Hl' & Hv' & Hz' & Hp' & Hw' & Hge & H0 & Hlt).
      assert (Hzw := step_zero n f' Hlf r' w' Hlr Hfw). assert (Hc := npos_le V' (rotate_step f' r' w') w' Hw Hzw).
      eapply rel_bind; [exact (rotate_body_rel n V V' f f' r r' w' df dr HM HV Hne Hf Hlf Hr Hlr Hdf Hdr Hfw)|].
      intros [[r4 df4] dr4] (G1 & G2 & G3). cbn [fst snd] in *.
      rewrite (vr_eqi _ _ _ S dr4 _ 0 G3) by auto.
      set (s := rotate_step f' r' w') in *. set (w2 := nearest V' s) in *.
      destruct (Z.eqb_spec (- dot s w2) 0), (Z.eqb_spec (dot s w2) 0); try lia; cbn [negb]; [exact G1|].
      apply rotate_loop_rel; auto; try lia.
    Qed.

    Lemma rotate_rel w r r' : rowr r r' -> length r' = n -> valid (tight V' f') r' -> nz (tight V' f') r' ->
      rowr w (furthest V' f') -> dot f' (furthest V' f') < 0 -> rl rowr (m_rotate A V w f r) (rotate V' f' r').
    Proof.
      intros Hr Hlr Hval Hnz Hw Hfw. assert (Hin : In (furthest V' f') V') by (apply extremal_of_in; auto).
      assert (Hlw := dims_in _ _ _ HV Hin). unfold m_rotate, rotate.
      apply (rel_bind _ _ (vr S) _ _ _ (- dot f' (furthest V' f'))); [apply distance_rel; auto; congruence|]. intros df Hdf.
      apply (rel_bind _ _ (vr S) _ _ _ (- dot r' (furthest V' f'))); [apply distance_rel; auto; congruence|]. intros dr Hdr.
      rewrite (Forall2_length HM). apply rotate_first_rel; auto. lia.
    Qed.

    Lemma ridges_rel : nonzero n (tight V' f') -> rl matr (m_ridges A order V f) (ridges_of order n V' f').
    Proof.
      intros Hz. unfold m_ridges. apply (rel_bind _ _ matr _ _ _ (tight V' f')); [apply (on_facet_rel n); auto|]. intros sel Hsel.
      apply fme_rel; auto. apply dims_tight; auto.
    Qed.

    Lemma rotated_rel : (exists v, In v V' /\ dot f' v < 0) -> nonzero n (tight V' f') ->
      rl matr (m_rotated A order V f) (rotated_of order n V' f').
    Proof.
      intros Hneg Hz. destruct (furthest_off n V' f' HV Hlf Hfv Hneg) as (Hw & Hfw). unfold m_rotated, rotated_of.
      apply (rel_bind _ _ rowr _ _ _ (furthest V' f')); [apply (furthest_rel n); auto|]. intros w Hwr.
      apply (rel_bind _ _ matr _ _ _ (ridges_of order n V' f')); [apply ridges_rel; auto|]. intros rs Hrs.
      apply rel_mapM.
      assert (Hall : forall r, In r (ridges_of order n V' f') -> length r = n /\ valid (tight V' f') r /\ nz (tight V' f') r).
      { intros r Hr. destruct (all_rows_facet order Ho n _ (dims_tight n V' f' HV) r (fme_incl order n _ r Hr)) as ((H1 & H2 & H3 & _) & _).
        split; auto. split; auto. destruct (nz_dec (tight V' f') r); auto. contradiction. }
      induction Hrs as [|r r' rs rs' Hr _ IH]; constructor.
      - destruct (Hall r' (or_introl eq_refl)) as (H1 & H2 & H3). apply rotate_rel; auto.
      - apply IH. intros x Hx. apply Hall. right; auto.
    Qed.
  End OneFacet.
End R.
