(** * VertexSymmetry: maps that permute the rows of a system act on its extreme rays. *)
From Coq Require Import List ZArith Arith Lia Bool Permutation.
From Verif Require Import Base Spec LinAlg ListUtil Cone FmeCore ArithModel MatrixModel FmeModel SafeIntModel Refine IntTypes FmeTheorems DimTheorems NormTheorems
  ClassesModel ClassesProofs OrbitTheorems OrbitExact ApplyTheorems Adjacency Symmetry ValidityProofs MapNormalize.
Import ListNotations.
Open Scope Z_scope.

(** The transposed map: its action on rows is the substitution. *)
Definition transpose (n : nat) (m : lmap) : lmap :=
  map (fun j => flat_map (fun i => map (fun tm : term => (i, snd tm)) (filter (fun tm : term => (fst tm =? j)%nat) (nth i m []))) (seq 0 n)) (seq 0 n).
Lemma transpose_in n m : map_in n m -> map_in n (transpose n m).
Proof.
  intros Hm. split; [unfold transpose; rewrite map_length, seq_length; auto|]. apply Forall_forall. intros im Him. apply in_map_iff in Him. destruct Him as (j & <- & Hj).
  apply Forall_forall. intros tm Htm. apply in_flat_map in Htm. destruct Htm as (i & Hi & Htm). apply in_map_iff in Htm. destruct Htm as (tm' & <- & Htm). apply filter_In in Htm. destruct Htm as (Htm & _).
  cbn [fst snd]. apply in_seq in Hi. split; [lia|]. apply (map_terms n m Hm i tm' Htm).
Qed.
Lemma sumf_app {X} (f : X -> Z) l k : sumf f (l ++ k) = sumf f l + sumf f k.
Proof. induction l as [|x l IH]; cbn [app sumf fold_right]; [reflexivity|]. fold (sumf f (l ++ k)). fold (sumf f l). rewrite IH. lia. Qed.
Lemma sumf_flat {X Y} (f : Y -> Z) (g : X -> list Y) l : sumf f (flat_map g l) = sumf (fun x => sumf f (g x)) l.
Proof. induction l as [|x l IH]; cbn [flat_map]; [reflexivity|]. rewrite sumf_app, IH. reflexivity. Qed.
Lemma map_seq_nth {X} (f : nat -> X) n j d : (j < n)%nat -> nth j (map f (seq 0 n)) d = f j.
Proof. intros Hj. rewrite (nth_indep _ d (f 0%nat)) by (rewrite map_length, seq_length; auto). rewrite (map_nth f), seq_nth by auto. reflexivity. Qed.
Lemma nth_unit n i c k : (i < n)%nat -> nth k (unit_vec n i c) 0 = if (k =? i)%nat then c else 0.
Proof.
  intros Hi. unfold unit_vec. destruct (Nat.eqb_spec k i) as [->|E]; [rewrite nth_upd_same by (rewrite vzero_length; auto); reflexivity|]. rewrite nth_upd_other by auto. apply nth_vzero.
Qed.
Lemma transpose_terms n j k (im : list (nat * Z)) : (j < n)%nat -> sumf (fun tm : nat * Z => snd tm * k) (filter (fun tm : nat * Z => (fst tm =? j)%nat) im) =
  k * sumf (fun tm : nat * Z => snd tm * nth (fst tm) (unit_vec n j 1) 0) im.
Proof.
  intros Hj. induction im as [|tm im IH]; [cbn; lia|]. cbn [filter]. change (sumf ?f (tm :: im)) with (f tm + sumf f im). cbn beta. rewrite Z.mul_add_distr_l, <- IH, nth_unit by auto.
  destruct (fst tm =? j)%nat; [change (sumf ?f (tm :: ?l)) with (f tm + sumf f l); cbn beta|]; ring.
Qed.
Lemma transpose_sub n m a : map_in n m -> length a = n -> substitute (transpose n m) a = praw Facet_tag m a.
Proof.
  intros Hm Ha. assert (HT := transpose_in n m Hm). apply (vec_ext_nth n); [apply (substitute_length n); auto|rewrite praw_length; auto|]. intros j Hj.
  rewrite <- (Z.mul_1_l (nth j (praw Facet_tag m a) 0)), <- (dot_unit n j 1 (praw Facet_tag m a)) by (rewrite ?praw_length; auto). rewrite dot_comm, (facet_dot n) by (auto using unit_vec_length).
  rewrite <- (sum_dot a (substitute m (unit_vec n j 1)) n Ha) by (apply (substitute_length n); auto).
  rewrite nth_substitute. unfold transpose. rewrite map_seq_nth by auto.
  rewrite image_value_sum, sumf_flat. apply sumf_ext. intros i Hi. rewrite nth_substitute, image_value_sum, sumf_map. cbn [fst snd].
  apply transpose_terms; auto.
Qed.
Lemma transpose_pull n m x : map_in n m -> length x = n -> praw Facet_tag (transpose n m) x = substitute m x.
Proof.
  intros Hm Hx. assert (HT := transpose_in n m Hm). apply (dot_ext n); [rewrite praw_length; auto|apply (substitute_length n); auto|]. intros y Hy.
  rewrite (facet_dot n) by auto. rewrite transpose_sub by auto. rewrite dot_comm, (facet_dot n) by auto. apply dot_comm.
Qed.

(** ** The action on the extreme rays *)
Section Rays.
  Variables (n : nat) (A : list vec) (maps : list lmap).
  Hypothesis HA : dims n A.
  Hypothesis Hline : no_line n A.
  Hypothesis Hmaps : forall m, In m maps -> map_in n m.
  Hypothesis Hto : forall m a, In m maps -> In a A -> exists b j k, In b A /\ 0 < j /\ 0 < k /\ forall x, length x = n -> j * dot a (substitute m x) = k * dot b x.
  Hypothesis Hfrom : forall m b, In m maps -> In b A -> exists a j k, In a A /\ 0 < j /\ 0 < k /\ forall x, length x = n -> j * dot a (substitute m x) = k * dot b x.
  Notation orb := (orbit EXACT Vertex_tag maps).

  Lemma transpose_onto m : In m maps -> onto (transpose n m) A A.
  Proof.
    intros Hm. assert (Mm := Hmaps m Hm).
    assert (G : forall a b j k, In a A -> In b A -> (forall x, length x = n -> j * dot a (substitute m x) = k * dot b x) -> vscale j (substitute (transpose n m) a) = vscale k b).
    { intros a b j k Ha Hb E. assert (La := dims_in n A a HA Ha). assert (Lb := dims_in n A b HA Hb). rewrite transpose_sub by auto. apply (dot_ext n); [rewrite vscale_length, praw_length; auto|rewrite vscale_length; auto|].
      intros x Hx. rewrite !dot_vscale_l. rewrite (facet_dot n) by auto. auto. }
    split.
    - intros a Ha. destruct (Hto m a Hm Ha) as (b & j & k & Hb & Hj & Hk & E). exists b, j, k. split; auto.
    - intros b Hb. destruct (Hfrom m b Hm Hb) as (a & j & k & Ha & Hj & Hk & E). exists a, j, k. split; auto.
  Qed.
  Lemma no_line_vanishes x : length x = n -> vanishes A x -> x = vzero n.
  Proof. intros Hx Hv. apply Hline; auto. intros a Ha. rewrite dot_comm. auto. Qed.
  Lemma extreme_iff x : extreme_ray n A x <-> facet n A x.
  Proof. split; [apply extreme_facet; auto|apply facet_extreme; auto; apply no_line_vanishes]. Qed.
  Lemma vact_act m x : In m maps -> length x = n -> rnorm (substitute m x) = act (transpose n m) x.
  Proof. intros Hm Hx. unfold act. rewrite transpose_pull by auto. reflexivity. Qed.
  Lemma ray_image m x : In m maps -> extreme_ray n A x -> extreme_ray n A (rnorm (substitute m x)) /\ primitive (rnorm (substitute m x)).
  Proof.
    intros Hm He. assert (Hx : length x = n) by apply He. apply extreme_iff in He. rewrite (vact_act m x Hm Hx).
    split; [apply extreme_iff; apply act_facet|apply (act_primitive n A)]; auto using transpose_in, transpose_onto.
  Qed.
  Lemma sim_same x y : length x = n -> length y = n -> primitive x -> primitive y -> simn A x y -> x = y.
  Proof.
    intros Hx Hy Px Py (k & t & Hk & Ht & H). apply (proportional_primitive n x y k t); auto.
    assert (E : vadd (vscale k x) (vscale (- t) y) = vzero n).
    { apply no_line_vanishes; [apply vadd_length_eq; rewrite vscale_length; auto|]. intros a Ha. rewrite dot_vadd_l, !dot_vscale_l by (rewrite !vscale_length; congruence). specialize (H a Ha). lia. }
    apply (vec_ext_nth n); try (rewrite vscale_length; auto). intros j Hj. assert (Q := f_equal (fun u => nth j u 0) E). cbn beta in Q. rewrite nth_vadd, !nth_vscale, nth_vzero in Q by (rewrite !vscale_length; congruence). rewrite !nth_vscale. lia.
  Qed.
  Lemma ray_injective m x y : In m maps -> length x = n -> length y = n -> primitive x -> primitive y -> rnorm (substitute m x) = rnorm (substitute m y) -> x = y.
  Proof.
    intros Hm Hx Hy Px Py E. apply sim_same; auto. apply (act_simn n A (transpose n m)); auto using transpose_in, transpose_onto. rewrite <- !vact_act by auto. rewrite E. apply sim_refl.
  Qed.
  Lemma ray_apply m x y : length x = n -> In m maps -> m_apply (arith EXACT) Vertex_tag m x = Ok y -> y = rnorm (substitute m x) /\ length y = n.
  Proof.
    intros Hx Hm E. rewrite (apply_exact Vertex_tag n m x (Hmaps m Hm) Hx) in E. assert (E' : rnorm (praw Vertex_tag m x) = y) by congruence.
    rewrite (vertex_raw n) in E' by auto. subst y. split; auto. rewrite rnorm_length. apply (substitute_length n). auto.
  Qed.
  Lemma ray_orbit x y : extreme_ray n A x -> primitive x -> orb x y -> extreme_ray n A y /\ primitive y.
  Proof.
    intros Hx Px. induction 1 as [|y m z _ (IH1 & IH2) Hm E]; [auto|]. destruct (ray_apply m y z (proj1 (proj1 IH1)) Hm E) as (-> & _). apply ray_image; auto.
  Qed.

  Variable F : list vec.
  Hypothesis HF : forall x, In x F <-> extreme_ray n A x /\ primitive x.
  Lemma rays_injective x : In x F -> acts_injectively EXACT Vertex_tag maps x.
  Proof.
    intros Hx m Hm. apply HF in Hx. destruct Hx as (Ex & Px). split.
    - intros y Hy. eexists. apply (apply_exact Vertex_tag n); auto. apply (ray_orbit x y Ex Px Hy).
    - intros y z w Hy Hz E E'. destruct (ray_orbit x y Ex Px Hy) as (Ey & Py). destruct (ray_orbit x z Ex Px Hz) as (Ez & Pz).
      destruct (ray_apply m y w (proj1 (proj1 Ey)) Hm E) as (-> & _). destruct (ray_apply m z _ (proj1 (proj1 Ez)) Hm E') as (E1 & _).
      apply (ray_injective m); auto; [apply Ey|apply Ez].
  Qed.
  Lemma orbit_rays x y : In x F -> orb x y -> In y F.
  Proof. intros Hx Hy. apply HF. apply HF in Hx. apply (ray_orbit x); tauto. Qed.
  Lemma rays_reversible x : In x F -> reversible EXACT Vertex_tag maps x.
  Proof. intros Hx. apply (injective_reversible EXACT Vertex_tag maps x F); [apply rays_injective; auto|]. intros y. apply orbit_rays; auto. Qed.
  Lemma rays_back x y : In x F -> orb x y -> orb y x.
  Proof. intros Hx Hy. apply (rays_reversible x Hx x y); auto. constructor. Qed.

  (** The rows selected from [F]. *)
  Lemma selected_rays t fuel R : t <> INT16 -> rows_representable t F -> m_classes_of (arith t) fuel Vertex_tag maps F = Ok (Some R) ->
    incl R F /\ NoDup R /\ (forall f, In f F -> exists r, In r R /\ orb f r) /\ (forall r x, In r R -> In x R -> orb r x -> x = r).
  Proof.
    intros Ht RF EC. assert (DF : dims n F) by (apply Forall_forall; intros f Hf; apply HF in Hf; apply Hf). assert (MF : Forall (map_in n) maps) by (apply Forall_forall; auto).
    destruct (classes_exact t Vertex_tag maps n Ht MF fuel F R DF RF EC) as (C1 & C2).
    assert (InF : incl R F) by (intros r Hr; destruct (C1 r Hr) as (_ & _ & f & Hf & L); apply (orbit_rays f); auto; apply L).
    assert (Lr : forall r, In r R -> largest EXACT Vertex_tag maps r r).
    { intros r Hr. destruct (C1 r Hr) as (_ & _ & f & Hf & L). apply (largest_orbit EXACT Vertex_tag maps f r r (rays_reversible f Hf) (proj1 L)). auto. }
    split; auto. split; [|split].
    - apply (classes_nodup t Vertex_tag maps n Ht MF fuel F R DF RF); auto. apply rays_reversible.
    - intros f Hf. destruct (C2 f Hf) as (h & x & Hh & Oh & Hx & L). exists x. split; auto. apply (orbit_trans EXACT Vertex_tag maps f h); [apply rays_back; auto|apply L].
    - intros r x Hr Hx Ox. apply (largest_unique EXACT Vertex_tag maps r x r); auto. apply (largest_orbit EXACT Vertex_tag maps r x x (rays_reversible r (InF r Hr)) Ox). auto.
  Qed.
End Rays.
