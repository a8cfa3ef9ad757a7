(** * Symmetry: maps that permute the generators act on the facets and preserve adjacency. *)
From Coq Require Import List ZArith Arith Lia Bool Permutation.
From Verif Require Import Base Spec LinAlg ListUtil Cone FmeCore FmePrepare ArithModel MatrixModel FmeModel SafeIntModel Refine IntTypes FmeTheorems DimTheorems NormTheorems
  ClassesModel ClassesProofs ApplyTheorems Adjacency Climb NormalForm.
Import ListNotations.
Open Scope Z_scope.

Lemma dot_snoc (a b : vec) x y : length a = length b -> dot (a ++ [x]) (b ++ [y]) = dot a b + x * y.
Proof. revert b. induction a as [|z a IH]; intros [|w b] H; try discriminate; cbn [app dot]; [lia|]. rewrite IH by (cbn in H; lia). lia. Qed.

Lemma dot_app (a b c d : vec) : length a = length c -> dot (a ++ b) (c ++ d) = dot a c + dot b d.
Proof. revert c. induction a as [|x a IH]; intros [|y c] H; try discriminate; cbn [app dot]; [lia|]. rewrite IH by (cbn in H; lia). lia. Qed.
Lemma dot_zero_r (a v : vec) : Forall (fun x => x = 0) v -> dot a v = 0.
Proof. intros H. revert a. induction H as [|x v -> _ IH]; intros [|y a]; cbn [dot]; auto. rewrite IH. lia. Qed.

Section Pullback.
  Variables (n : nat) (m : lmap).
  Hypothesis Hm : map_in n m.
  Notation sub := (substitute m).
  Notation pull := (praw Facet_tag m).

  Lemma pull_dot f x : length f = n -> length x = n -> dot (pull f) x = dot f (sub x).
  Proof. intros. apply (facet_dot n); auto. Qed.
  Lemma pull_length f : length f = n -> length (pull f) = n.
  Proof. intros. rewrite praw_length. auto. Qed.

  Lemma pull_zero : pull (vzero n) = vzero n.
  Proof.
    apply (dot_ext n); [apply pull_length; apply vzero_length|apply vzero_length|]. intros x Hx. rewrite pull_dot, !dot_vzero_l by (auto; apply vzero_length). reflexivity.
  Qed.

  (** [sub] maps [W'] onto [W], up to positive factors. *)
  Definition onto (W' W : list vec) : Prop :=
    (forall w', In w' W' -> exists w j k, In w W /\ 0 < j /\ 0 < k /\ vscale j (sub w') = vscale k w) /\
    (forall w, In w W -> exists w' j k, In w' W' /\ 0 < j /\ 0 < k /\ vscale j (sub w') = vscale k w).

  Variables (W' W : list vec).
  Hypothesis HW' : dims n W'.
  Hypothesis HW : dims n W.
  Hypothesis Hon : onto W' W.

  Lemma pull_values w' : In w' W' -> exists w j k, In w W /\ 0 < j /\ 0 < k /\ forall g, length g = n -> j * dot (pull g) w' = k * dot g w.
  Proof.
    intros Hw'. destruct (proj1 Hon w' Hw') as (w & j & k & Hw & Hj & Hk & E). exists w, j, k. split; auto. split; auto. split; auto. intros g Hg.
    rewrite pull_dot by (auto; apply (dims_in n W'); auto). rewrite <- !dot_vscale_r, E. reflexivity.
  Qed.
  Lemma pull_values_back w : In w W -> exists w' j k, In w' W' /\ 0 < j /\ 0 < k /\ forall g, length g = n -> j * dot (pull g) w' = k * dot g w.
  Proof.
    intros Hw. destruct (proj2 Hon w Hw) as (w' & j & k & Hw' & Hj & Hk & E). exists w', j, k. split; auto. split; auto. split; auto. intros g Hg.
    rewrite pull_dot by (auto; apply (dims_in n W'); auto). rewrite <- !dot_vscale_r, E. reflexivity.
  Qed.
  Lemma pull_valid f : length f = n -> valid W f <-> valid W' (pull f).
  Proof.
    intros Hf. split; intros H v Hv.
    - destruct (pull_values v Hv) as (w & j & k & Hw & Hj & Hk & E). specialize (E f Hf). specialize (H w Hw). nia.
    - destruct (pull_values_back v Hv) as (w & j & k & Hw & Hj & Hk & E). specialize (E f Hf). specialize (H w Hw). nia.
  Qed.
  Lemma pull_vanishes f : length f = n -> vanishes W f <-> vanishes W' (pull f).
  Proof.
    intros Hf. split; intros H v Hv.
    - destruct (pull_values v Hv) as (w & j & k & Hw & Hj & Hk & E). specialize (E f Hf). specialize (H w Hw). nia.
    - destruct (pull_values_back v Hv) as (w & j & k & Hw & Hj & Hk & E). specialize (E f Hf). specialize (H w Hw). nia.
  Qed.
  Lemma pull_sim f g : length f = n -> length g = n -> simn W f g <-> simn W' (pull f) (pull g).
  Proof.
    intros Hf Hg. split; intros (k & t & Hk & Ht & H); exists k, t; (split; [auto|split; [auto|]]); intros v Hv.
    - destruct (pull_values v Hv) as (w & i & j & Hw & Hi & Hj & E). assert (E1 := E f Hf). assert (E2 := E g Hg). specialize (H w Hw).
      apply (Z.mul_reg_l _ _ i); [lia|]. replace (i * (k * dot (pull f) v)) with (k * (i * dot (pull f) v)) by ring. replace (i * (t * dot (pull g) v)) with (t * (i * dot (pull g) v)) by ring.
      rewrite E1, E2. replace (k * (j * dot f w)) with (j * (k * dot f w)) by ring. rewrite H. ring.
    - destruct (pull_values_back v Hv) as (w & i & j & Hw & Hi & Hj & E). assert (E1 := E f Hf). assert (E2 := E g Hg). specialize (H w Hw).
      apply (Z.mul_reg_l _ _ j); [lia|]. replace (j * (k * dot f v)) with (k * (j * dot f v)) by ring. replace (j * (t * dot g v)) with (t * (j * dot g v)) by ring.
      rewrite <- E1, <- E2. replace (k * (i * dot (pull f) w)) with (i * (k * dot (pull f) w)) by ring. rewrite H. ring.
  Qed.
  Lemma pull_onto_tight f : length f = n -> onto (tight W' (pull f)) (tight W f).
  Proof.
    intros Hf. split; intros v Hv; apply in_tight in Hv; destruct Hv as (Hv & E0).
    - destruct (proj1 Hon v Hv) as (w & j & k & Hw & Hj & Hk & E). exists w, j, k. split; [|auto]. apply in_tight. split; auto.
      rewrite pull_dot in E0 by (auto; apply (dims_in n W'); auto). assert (Q := f_equal (dot f) E). rewrite !dot_vscale_r in Q. nia.
    - destruct (proj2 Hon v Hv) as (w & j & k & Hw & Hj & Hk & E). exists w, j, k. split; [|auto]. apply in_tight. split; auto.
      rewrite pull_dot by (auto; apply (dims_in n W'); auto). assert (Q := f_equal (dot f) E). rewrite !dot_vscale_r in Q. nia.
  Qed.
  Lemma pull_facet f : (forall a, length a = n -> exists b k, length b = n /\ k <> 0 /\ forall v, In v W' -> dot (pull b) v = k * dot a v) -> facet n W f -> facet n W' (pull f).
  Proof.
    intros Hsur Ff. assert (Hf := proj1 Ff). assert (Hv := proj1 (proj2 Ff)). split; [apply pull_length; auto|]. split; [apply pull_valid; auto|]. split.
    - intros H. apply (proj1 (proj2 (proj2 Ff))). apply pull_vanishes; auto.
    - intros a Ha Hz. destruct (Hsur a Ha) as (b & j & Hb & Hj & Eb).
      assert (Hbz : forall w, In w W -> dot f w = 0 -> dot b w = 0).
      { intros w Hw E0. destruct (pull_values_back w Hw) as (w' & i & i' & Hw' & Hi & Hi' & E). assert (Q := E b Hb). assert (Q' := E f Hf). rewrite (Eb w' Hw'), Hz in Q; [nia|auto|]. nia. }
      destruct (facet_form n W f b Ff Hb Hbz) as (k & t & Hk & H). exists (k * j), (- t). split; [nia|].
      intros v Hv'. destruct (pull_values v Hv') as (w & i & i' & Hw & Hi & Hi' & E). rewrite dot_vadd_l, !dot_vscale_l by (rewrite !vscale_length, pull_length; auto).
      assert (Q := E b Hb). rewrite (Eb v Hv') in Q. assert (Q' := E f Hf). specialize (H w Hw). apply (Z.mul_reg_l _ _ i); [lia|].
      replace (i * (k * j * dot a v + - t * dot (pull f) v)) with (k * (i * (j * dot a v)) + - t * (i * dot (pull f) v)) by ring. rewrite Q, Q'. replace (k * (i' * dot b w)) with (i' * (k * dot b w)) by ring. rewrite H. ring.
  Qed.
End Pullback.

(** ** Symmetries of a cone *)
Section Symmetric.
  Variables (n : nat) (V : list vec) (m : lmap).
  Hypothesis HV : dims n V.
  Hypothesis Hm : map_in n m.
  Hypothesis Hon : onto m V V.
  Notation pull := (praw Facet_tag m).
  Notation e := (unit_vec n (n - 1) (-1)).
  Definition act (f : vec) : vec := rnorm (praw Facet_tag m f).

  Lemma act_length f : length f = n -> length (act f) = n.
  Proof. intros. unfold act. rewrite rnorm_length, praw_length. auto. Qed.
  Lemma act_sim W f : simn W (pull f) (act f).
  Proof. exists 1, (rfac (pull f)). split; [lia|]. split; [apply rfac_pos|]. intros v _. rewrite (dot_rnorm (pull f)). unfold act. lia. Qed.

  (** Every form agrees on the generators with the pullback of a form, up to a factor. *)
  Lemma sym_surjective a : length a = n -> exists b k, length b = n /\ k <> 0 /\ forall v, In v V -> dot (pull b) v = k * dot a v.
  Proof.
    intros Ha. assert (P := prepare_ok n V HV). set (E := eqs n V). assert (HE : dims n E) by apply (po_eqs_dim _ _ _ P). assert (HL : leads_ok n E) by (apply extracted_leads; auto).
    set (A := map (fun i => substitute m (unit_vec n i 1) ++ colv i E ++ [- nth i a 0]) (seq 0 n)).
    set (B := map (fun e => unit_vec n (first_nz e) 1 ++ vzero (length E) ++ [0]) E).
    assert (LC : forall i, length (colv i E) = length E) by (intros i; unfold colv; apply map_length).
    destruct (underdetermined (n + (length E + 1)) (A ++ B)) as (y & Hy & Hy0 & HY).
    - apply Forall_forall. intros r Hr. apply in_app_iff in Hr. destruct Hr as [Hr|Hr]; apply in_map_iff in Hr; destruct Hr as (i & <- & _); rewrite !app_length; cbn [length].
      + rewrite (substitute_length n m Hm), LC. lia.
      + rewrite unit_vec_length, vzero_length. lia.
    - rewrite app_length. unfold A, B. rewrite !map_length, seq_length. lia.
    - destruct (exists_last (l := y)) as (y' & k & ->); [intros ->; cbn in Hy; lia|]. rewrite app_length in Hy. cbn [length] in Hy.
      assert (Ey : y' = firstn n y' ++ skipn n y') by (symmetry; apply firstn_skipn). set (b := firstn n y') in *. set (c := skipn n y') in *.
      assert (Lb : length b = n) by (unfold b; rewrite firstn_length; lia). assert (Lc : length c = length E) by (unfold c; rewrite skipn_length; lia).
      assert (D : forall (p1 p2 : vec) q, length p1 = n -> length p2 = length E -> dot (p1 ++ p2 ++ [q]) (y' ++ [k]) = dot p1 b + dot p2 c + q * k).
      { intros p1 p2 q L1 L2. rewrite app_assoc, dot_snoc by (rewrite Ey, !app_length; lia). rewrite Ey. rewrite dot_app by lia. lia. }
      assert (Hi : vadd (pull b) (lincomb n c E) = vscale k a).
      { apply (vec_ext_nth n); [apply vadd_length_eq; [apply pull_length; auto|apply lincomb_length; auto]|rewrite vscale_length; auto|]. intros i Hi.
        assert (Q := HY (substitute m (unit_vec n i 1) ++ colv i E ++ [- nth i a 0])). rewrite D in Q by (auto; apply (substitute_length n m Hm)).
        assert (Q' := Q ltac:(apply in_app_iff; left; apply in_map_iff; exists i; split; auto; apply in_seq; lia)).
        rewrite (dot_comm (substitute _ _) b), <- (pull_dot n m Hm), (dot_comm (pull b)), dot_unit in Q' by (auto using unit_vec_length; rewrite praw_length; auto).
        rewrite nth_vadd by (rewrite praw_length, lincomb_length; auto). rewrite (nth_lincomb n c E i HE), nth_vscale. lia. }
      assert (Hz : forall e, In e E -> nth (first_nz e) b 0 = 0).
      { intros e He. assert (Q := HY (unit_vec n (first_nz e) 1 ++ vzero (length E) ++ [0])). rewrite D in Q by (rewrite ?unit_vec_length, ?vzero_length; auto).
        assert (Q' := Q ltac:(apply in_app_iff; right; apply in_map_iff; exists e; auto)). rewrite dot_unit, dot_vzero_l in Q' by (auto; apply (leads_in n E HL e He)). lia. }
      assert (Hp : forall v, In v V -> dot (pull b) v = k * dot a v).
      { intros v Hv. assert (Q := f_equal (fun u => dot u v) Hi). cbn beta in Q. rewrite dot_vadd_l, dot_vscale_l in Q by (rewrite praw_length, lincomb_length; auto).
        rewrite dot_lincomb_l in Q by auto. rewrite (dot_zero_r c) in Q; [lia|]. apply Forall_forall. intros x Hx. apply in_map_iff in Hx. destruct Hx as (e & <- & He). apply (po_eqs_van _ _ _ P e He v Hv). }
      exists b, k. split; auto. split; auto. intros ->. apply Hy0.
      assert (Eb : b = vzero n).
      { apply (span_zero_leads n E HL); auto. apply (po_eqs_span _ _ _ P); auto. apply (pull_vanishes n m Hm V V); auto. }
      assert (Ec : c = vzero (length E)).
      { apply (vec_ext_nth (length E)); [auto|apply vzero_length|]. intros i Hi'. rewrite nth_vzero. destruct (proj2 HL i Hi') as (L1 & L2 & L3). cbn zeta in *.
        assert (Q := f_equal (fun u => nth (first_nz (nth i E [])) u 0) Hi). cbn beta in Q. rewrite nth_vadd, nth_vscale, (nth_lincomb n c E _ HE), (lead_coef E c _ i) in Q by (auto; rewrite praw_length, lincomb_length; auto).
        rewrite Eb in Q. rewrite (pull_zero n m Hm), nth_vzero in Q. rewrite Z.mul_0_l, Z.add_0_l in Q. apply Z.mul_eq_0 in Q. unfold vec in *. destruct Q as [Q|Q]; [exfalso; lia|exact Q]. }
      rewrite Ey, Eb, Ec. unfold vzero. change [0] with (repeat 0 1). rewrite <- !repeat_app. f_equal. lia.
  Qed.
  Lemma act_facet f : facet n V f -> facet n V (act f).
  Proof.
    intros Ff. assert (Hf := proj1 Ff). apply (facet_sim n V (pull f)); [apply act_length; auto|apply act_sim|]. apply (pull_facet n m Hm V V); auto. apply sym_surjective.
  Qed.
  Lemma act_simn f g : length f = n -> length g = n -> simn V f g <-> simn V (act f) (act g).
  Proof.
    intros Hf Hg. rewrite (pull_sim n m Hm V V HV Hon f g Hf Hg). split; intros H.
    - apply (sim_trans V _ (pull f)); [apply sim_sym, act_sim|]. apply (sim_trans V _ (pull g)); [auto|apply act_sim].
    - apply (sim_trans V _ (act f)); [apply act_sim|]. apply (sim_trans V _ (act g)); [auto|apply sim_sym, act_sim].
  Qed.
  Lemma tight_act f : tight V (act f) = tight V (pull f).
  Proof. apply sim_tight. apply sim_sym, act_sim. Qed.
  Lemma act_adj f g : ridge_adj n V f g -> ridge_adj n V (act f) (act g).
  Proof.
    intros (Ff & Fg & Fr). split; [apply act_facet; auto|]. split; [apply act_facet; auto|]. assert (Hf := proj1 Ff). assert (Hg := proj1 Fg). rewrite tight_act.
    apply (facet_sim n _ (pull g)); [apply act_length; auto|apply act_sim|].
    apply (pull_facet n m Hm (tight V (pull f)) (tight V f)); auto using dims_tight.
    - apply (pull_onto_tight n); auto.
    - intros a Ha. destruct (sym_surjective a Ha) as (b & k & Hb & Hk & E). exists b, k. split; auto. split; auto. intros v Hv. apply E. apply in_tight in Hv. apply Hv.
  Qed.
  Lemma act_primitive f : facet n V f -> primitive (act f).
  Proof.
    intros Ff. apply rnorm_primitive. intros E. assert (F := pull_facet n m Hm V V HV Hon f sym_surjective Ff). apply (proj1 (proj2 (proj2 F))). rewrite E. intros v _. apply dot_vzero_l.
  Qed.

  (** The maps do not change the homogenising coordinate. *)
  Hypothesis Haff : nth (n - 1) m [] = [((n - 1)%nat, 1)].
  Hypothesis Hn : (0 < n)%nat.
  Lemma sub_last x : nth (n - 1) (substitute m x) 0 = nth (n - 1) x 0.
  Proof. rewrite nth_substitute. rewrite Haff. cbn [image_value fold_right fst snd]. ring. Qed.
  Lemma pull_trivial : pull e = e.
  Proof.
    apply (dot_ext n); [apply pull_length; auto using unit_vec_length|apply unit_vec_length|]. intros x Hx. rewrite (pull_dot n m Hm) by (auto using unit_vec_length).
    rewrite !dot_unit, sub_last by (auto; try lia; apply (substitute_length n m Hm)). reflexivity.
  Qed.
  Lemma act_trivial f : length f = n -> simn V (act f) e <-> simn V f e.
  Proof.
    intros Hf. rewrite (pull_sim n m Hm V V HV Hon f e Hf (unit_vec_length _ _ _)), pull_trivial. split; intros H.
    - apply (sim_trans V _ (act f)); auto. apply act_sim.
    - apply (sim_trans V _ (pull f)); auto. apply sim_sym, act_sim.
  Qed.
  Lemma act_nstep f g : nstep n V f g -> nstep n V (act f) (act g).
  Proof.
    intros (Ha & Hd). assert (Hf := proj1 (proj1 Ha)). assert (Hg := proj1 (proj1 (proj2 Ha))). split; [apply act_adj; auto|]. intros H. apply Hd. rewrite tight_act in H.
    apply (pull_sim n m Hm (tight V (pull f)) (tight V f) (dims_tight n V _ HV) (pull_onto_tight n m Hm V V HV Hon f Hf) g e Hg (unit_vec_length _ _ _)). rewrite pull_trivial.
    apply (sim_trans _ _ (act g)); auto. apply act_sim.
  Qed.
End Symmetric.

Lemma full_nform n V a : dims n V -> eqs n V = [] -> nform n V a <-> length a = n /\ primitive a.
Proof. intros HV E. unfold nform. rewrite E. split; [tauto|]. intros (H1 & H2). split; auto. split; auto. intros x []. Qed.
Lemma full_vanishes n V a : dims n V -> eqs n V = [] -> length a = n -> vanishes V a -> a = vzero n.
Proof.
  intros HV E Ha Hv. destruct (po_eqs_span _ _ _ (prepare_ok n V HV) a Ha Hv) as (k & cs & Hk & Hl & Ek). unfold eqs in E. rewrite E in Ek.
  assert (Ek' : vscale k a = vzero n) by (destruct cs; exact Ek). apply (vscale_inj k); [lia|]. rewrite Ek', vscale_vzero. reflexivity.
Qed.
