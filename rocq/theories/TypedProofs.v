(** * TypedProofs: the programs of method_double_description.cpp print the same with corresponding integer types. *)
From Coq Require Import List ZArith Arith Bool Lia Ascii String Permutation.
From Verif Require Import Base Spec ListUtil ArithModel MatrixModel FmeModel SafeIntModel IntTypes ClassesModel MapModel StreamModel OutputModel Param TypedModel.
Import ListNotations.
Open Scope nat_scope.

Definition image_fits (im : image) : Prop := Forall (fun tm : term => fits 32 (snd tm) = true) im.
Definition map_fits (m : lmap) : Prop := Forall image_fits m.
Definition maps_fit (maps : list lmap) : Prop := Forall map_fits maps.

(** A result with a property that both computations give. *)
Definition same_with {X} (P : X -> Prop) (m m' : res X) : Prop := sim (fun x y => x = y /\ P x) m m'.
Lemma same_with_intro {X} (P : X -> Prop) m : (forall x, m = Ok x -> P x) -> same_with P m m.
Proof. intros H. unfold same_with. destruct m; cbn [sim]; auto. eexists. split; [reflexivity|]. split; auto. Qed.

(** ** simplify keeps the range of the factors *)
Lemma term_insert_fits x l : fits 32 (snd x) = true -> image_fits l -> image_fits (term_insert x l).
Proof. intros Hx H. induction H as [|y l Hy Hl IH]; cbn [term_insert]; [repeat constructor; auto|]. destruct (term_le x y); repeat constructor; auto. Qed.
Lemma term_sort_fits l : image_fits l -> image_fits (term_sort l).
Proof. induction 1 as [|x l Hx _ IH]; cbn [term_sort fold_right]; [constructor|]. apply term_insert_fits; auto. Qed.
Lemma upd_fits (im : image) i x : image_fits im -> fits 32 (snd x) = true -> image_fits (upd im i x).
Proof. intros H Hx. revert i. induction H as [|y l Hy Hl IH]; intros [|i]; cbn [upd]; constructor; auto. apply IH. Qed.
Lemma erase_fits (im : image) i : image_fits im -> image_fits (erase i im).
Proof. intros H. revert i. induction H as [|y l Hy Hl IH]; intros [|i]; cbn; auto; [constructor|constructor|]. constructor; auto. apply IH. Qed.
Lemma set_z_fits im i x im' : image_fits im -> fits 32 (snd x) = true -> set_z im i x = Ok im' -> image_fits im'.
Proof. intros H Hx. unfold set_z, set. destruct (_ <? _)%Z; [|discriminate]. destruct (_ <? _); [|discriminate]. intros E. injection E as <-. apply upd_fits; auto. Qed.
Lemma erase_z_fits im i im' : image_fits im -> erase_z im i = Ok im' -> image_fits im'.
Proof. intros H. unfold erase_z, eraseM. destruct (_ <? _)%Z; [|discriminate]. destruct (_ <? _); [|discriminate]. intros E. injection E as <-. apply erase_fits; auto. Qed.
Lemma bind_ok {X Y} (m : res X) (f : X -> res Y) y : bind m f = Ok y -> exists x, m = Ok x /\ f x = Ok y.
Proof. destruct m; cbn [bind]; try discriminate. eauto. Qed.
Lemma ck_fits w z r : ck w z = Ok r -> fits w r = true.
Proof. unfold ck. destruct (fits w z) eqn:E; [|discriminate]. intros H. injection H as <-. exact E. Qed.
Lemma simplify_loop_fits k : forall i im im', image_fits im -> m_simplify_loop k i im = Ok im' -> image_fits im'.
Proof.
  induction k as [|k IH]; intros i im im' H; cbn [m_simplify_loop]; destruct (_ <? _)%Z; try discriminate; try (intros E; injection E as <-; exact H).
  intros E. apply bind_ok in E. destruct E as (a & _ & E). apply bind_ok in E. destruct E as (b & _ & E). destruct (fst a =? fst b); [|apply IH in E; auto].
  apply bind_ok in E. destruct E as (s & Es & E). apply ck_fits in Es. apply bind_ok in E. destruct E as (im1 & E1 & E). apply bind_ok in E. destruct E as (im2 & E2 & E).
  apply set_z_fits in E1; auto. apply erase_z_fits in E2; auto. destruct (s =? 0)%Z; [|apply IH in E; auto]. apply bind_ok in E. destruct E as (im3 & E3 & E). apply erase_z_fits in E3; auto. apply IH in E; auto.
Qed.
Lemma mapM_forall {X Y} (P : X -> Prop) (Q : Y -> Prop) (f : X -> res Y) l l' : (forall x y, P x -> f x = Ok y -> Q y) -> Forall P l -> mapM f l = Ok l' -> Forall Q l'.
Proof.
  intros K H. revert l'. induction H as [|x l Hx _ IH]; intros l'; cbn [mapM]; [intros E; injection E as <-; constructor|]. intros E. apply bind_ok in E. destruct E as (y & Ey & E). apply bind_ok in E. destruct E as (ys & Eys & E). injection E as <-.
  constructor; eauto.
Qed.
Lemma simplify_fits m m' : map_fits m -> m_simplify m = Ok m' -> map_fits m'.
Proof. intros H. apply (mapM_forall image_fits image_fits); auto. intros im im' Him. apply simplify_loop_fits. apply term_sort_fits; auto. Qed.
Lemma eliminate_fits m ix : forall m', map_fits m -> m_eliminate m ix = Ok m' -> map_fits m'.
Proof.
  revert m. unfold m_eliminate. induction ix as [|i ix IH]; intros m m' H; cbn [foldM]; [intros E; injection E as <-; exact H|]. intros E. apply bind_ok in E. destruct E as (m1 & E1 & E). apply IH in E; auto.
  unfold set in E1. destruct (_ <? _); [|discriminate]. injection E1 as <-. clear -H. revert i. induction H as [|y l Hy Hl IH]; intros [|i]; cbn [upd]; constructor; auto; [constructor|]. apply IH.
Qed.

Section Two.
  Variables (A B : Arith) (C : corresponds A B).
  Notation R := (c_rel C).
  Notation Rr := (Forall2 (c_rel C)).
  Notation Rm := (Forall2 (Forall2 (c_rel C))).

  (** ** Classes *)
  Lemma p_apply_term t r r' acc acc' i tm : fits 32 (snd tm) = true -> Rr r r' -> Rr acc acc' -> sim Rr (m_apply_term A t r acc i tm) (m_apply_term B t r' acc' i tm).
  Proof.
    intros Hf Hr Hacc. unfold m_apply_term. destruct (match t with Facet_tag => (i, fst tm) | Vertex_tag => (fst tm, i) end) as [s g]. eapply sim_bind; [apply sim_get; exact Hr|]. intros x y Hx.
    eapply sim_bind; [apply (c_mul A B C); [apply (c_lit A B C); exact Hf|exact Hx]|]. intros p q Hp. eapply sim_bind; [apply sim_get; exact Hacc|]. intros u v Hu. eapply sim_bind; [apply (c_add A B C); eassumption|].
    intros w w' Hw. apply sim_set; auto.
  Qed.
  Lemma p_apply t m r r' : map_fits m -> Rr r r' -> sim Rr (m_apply A t m r) (m_apply B t m r').
  Proof.
    intros Hm Hr. unfold m_apply. eapply sim_bind; [|intros; apply p_row_reduce; eassumption]. unfold m_apply_raw. rewrite <- (f2_length _ _ _ Hr). apply (sim_foldM_same Rr).
    - intros acc acc' i Hacc. destruct (get m i) as [im| |] eqn:E0; cbn [bind]; [|apply sim_throw|apply sim_ub]. unfold get in E0. destruct (nth_error m i) as [im0|] eqn:E; [|discriminate]. injection E0 as ->. apply nth_error_In in E. assert (Hi := proj1 (Forall_forall _ _) Hm im E). clear E Hm.
      revert acc acc' Hacc. induction Hi as [|tm im Htm _ IH]; intros acc acc' Hacc; cbn [foldM]; [apply sim_ok; auto|]. eapply sim_bind; [apply p_apply_term; eassumption|]. intros a a' Ha. apply IH; auto.
    - apply f2_repeat, (c_lit A B C). reflexivity.
  Qed.
  Lemma p_lex a : forall a' b b', Rr a a' -> Rr b b' -> m_lex_lt A a b = m_lex_lt B a' b'.
  Proof.
    induction a as [|x a IH]; intros a' b b' Ha Hb; inversion Ha; subst; destruct Hb as [|u v b b' Hu Hb]; cbn [m_lex_lt]; auto.
    rewrite <- (c_gt A B C u x v y), <- (c_gt A B C x u y v) by auto. rewrite (IH l' b b') by auto. reflexivity.
  Qed.
  Lemma p_insert x x' s s' : Rr x x' -> Rm s s' -> Rm (fst (m_set_insert A x s)) (fst (m_set_insert B x' s')) /\ snd (m_set_insert A x s) = snd (m_set_insert B x' s').
  Proof.
    intros Hx. induction 1 as [|y y' s s' Hy Hs IH]; cbn [m_set_insert]; [cbn; split; auto|]. rewrite <- (p_lex x x' y y'), <- (p_lex y y' x x') by auto.
    destruct (m_lex_lt A x y); [cbn [fst snd]; split; auto|]. destruct (m_lex_lt A y x); cbn [fst snd]; [destruct IH; split; auto|split; auto].
  Qed.
  Lemma p_set_erase x x' s s' : Rr x x' -> Rm s s' -> Rm (m_set_erase A x s) (m_set_erase B x' s').
  Proof.
    intros Hx. induction 1 as [|y y' s s' Hy Hs IH]; cbn [m_set_erase]; [constructor|]. rewrite <- (p_lex x x' y y'), <- (p_lex y y' x x') by auto.
    destruct (m_lex_lt A x y); [auto|]. destruct (m_lex_lt A y x); auto.
  Qed.
  Lemma p_set_of M M' : Rm M M' -> Rm (m_set_of A M) (m_set_of B M').
  Proof.
    intros H. unfold m_set_of. assert (G : forall s s', Rm s s' -> Rm (fold_left (fun s r => fst (m_set_insert A r s)) M s) (fold_left (fun s r => fst (m_set_insert B r s)) M' s')); [|apply G; constructor].
    induction H as [|r r' M M' Hr _ IH]; intros s s' K; cbn [fold_left]; auto. apply IH. apply p_insert; auto.
  Qed.
  Definition both_related (p : list (list (num A)) * list (list (num A))) (q : list (list (num B)) * list (list (num B))) : Prop := Rm (fst p) (fst q) /\ Rm (snd p) (snd q).
  Lemma p_class_row t maps r r' s s' : maps_fit maps -> Rr r r' -> both_related s s' -> sim both_related (m_class_row A t maps r s) (m_class_row B t maps r' s').
  Proof.
    intros Hm Hr Hs. unfold m_class_row. revert s s' Hs. induction Hm as [|m maps Hm _ IH]; intros s s' (H1 & H2); cbn [foldM]; [apply sim_ok; split; auto|].
    apply (sim_bind both_related); [|intros; apply IH; auto]. eapply sim_bind; [apply p_apply; eassumption|]. intros x y Hx. apply sim_ok. destruct (p_insert x y (fst s) (fst s') Hx H1) as (K1 & K2). rewrite <- K2.
    split; cbn [fst snd]; [exact K1|]. destruct (snd (m_set_insert A x (fst s))); [constructor; [exact Hx|exact H2]|exact H2].
  Qed.
  Definition option_related {X Y} (Q : X -> Y -> Prop) (x : option X) (y : option Y) : Prop := match x, y with Some u, Some v => Q u v | None, None => True | _, _ => False end.
  Lemma p_class_loop k : forall t maps rows rows' stack stack', maps_fit maps -> Rm rows rows' -> Rm stack stack' -> sim (option_related Rm) (m_class_loop A k t maps rows stack) (m_class_loop B k t maps rows' stack').
  Proof.
    induction k as [|k IH]; intros t maps rows rows' stack stack' Hm H Hs; destruct Hs as [|x y stack stack' Hx Hs]; cbn [m_class_loop]; try (apply sim_ok; cbn; auto; fail).
    eapply sim_bind; [apply p_class_row; [exact Hm|exact Hx|split; [exact H|exact Hs]]|]. intros s s' (K1 & K2). apply IH; auto.
  Qed.
  Lemma p_get_class k t maps r r' : maps_fit maps -> Rr r r' -> sim (option_related Rm) (m_get_class A k t maps r) (m_get_class B k t maps r').
  Proof. intros Hm Hr. apply p_class_loop; auto. Qed.
  Lemma p_erase_all cl cl' : Rm cl cl' -> forall rows rows', Rm rows rows' -> Rm (fold_left (fun s r => m_set_erase A r s) cl rows) (fold_left (fun s r => m_set_erase B r s) cl' rows').
  Proof. induction 1 as [|x y cl cl' Hx _ IH]; intros rows rows' H; cbn [fold_left]; auto. apply IH. apply p_set_erase; auto. Qed.
  Lemma p_classes_loop n : forall k t maps rows rows', maps_fit maps -> Rm rows rows' -> sim (option_related Rm) (m_classes_loop A n k t maps rows) (m_classes_loop B n k t maps rows').
  Proof.
    induction n as [|n IH]; intros k t maps rows rows' Hm H; destruct H as [|x y rows rows' Hx H]; cbn [m_classes_loop]; try (apply sim_ok; cbn; auto; fail).
    eapply sim_bind; [apply p_get_class; eassumption|]. intros [cl|] [cl'|] Hcl; cbn [option_related] in Hcl; try contradiction; [|apply sim_ok; exact I].
    eapply sim_bind; [apply sim_back; exact Hcl|]. intros u v Hu. eapply sim_bind; [apply IH; [exact Hm|apply p_erase_all; [exact Hcl|constructor; eassumption]]|].
    intros [o|] [o'|] Ho; cbn [option_related] in Ho; try contradiction; apply sim_ok; cbn [option_related]; auto.
  Qed.
  Lemma p_classes_of k t maps M M' : maps_fit maps -> Rm M M' -> sim (option_related Rm) (m_classes_of A k t maps M) (m_classes_of B k t maps M').
  Proof. intros Hm H. unfold m_classes_of, m_classes. assert (K := p_set_of M M' H). rewrite <- (f2_length _ _ _ K). apply p_classes_loop; auto. Qed.

  (** ** The programs *)
  Variables (toA : num A -> res Z) (toB : num B -> res Z) (factorA : Z -> num A -> res Z) (factorB : Z -> num B -> res Z).
  Hypothesis Hto : forall x y, R x y -> sim eq (toA x) (toB y).
  Hypothesis Hfactor : forall c x y, fits 32 c = true -> R x y -> same_with (fun f => fits 32 f = true) (factorA c x) (factorB c y).
  Lemma p_expand c : fits 32 c = true -> forall e e' j, Rr e e' -> same_with image_fits (g_expand A factorA c j e) (g_expand B factorB c j e').
  Proof.
    intros Hc e e' j H. revert j. induction H as [|x y e e' Hx _ IH]; intros j; cbn [g_expand]; [apply sim_ok; split; constructor|]. rewrite <- (c_eqi A B C x y 0 Hx) by auto. destruct (negb _); [|apply IH].
    eapply sim_bind; [apply Hfactor; eassumption|]. intros f f' (<- & Hf). eapply sim_bind; [apply IH|]. intros im im' (<- & Him). apply sim_ok. split; auto. constructor; auto.
  Qed.
  Lemma p_subtract_image i e e' im : Rr e e' -> image_fits im -> same_with image_fits (g_subtract_image A factorA i e im) (g_subtract_image B factorB i e' im).
  Proof.
    intros He Him. unfold g_subtract_image. destruct Him as [|tm im Htm Him]; [apply sim_ok; split; constructor|]. eapply sim_bind with (R := fun x y => x = y /\ image_fits x).
    - destruct (fst tm =? i); [apply p_expand; auto; apply f2_skipn; auto|]. apply sim_ok. split; auto. repeat constructor; auto.
    - intros n n' (<- & Hn). destruct im; [apply sim_ok; auto|apply sim_ub].
  Qed.
  Lemma p_subtract_all E E' : Rm E E' -> forall m, map_fits m -> same_with map_fits (g_subtract_all A factorA m E) (g_subtract_all B factorB m E').
  Proof.
    unfold g_subtract_all. induction 1 as [|e e' E E' He _ IH]; intros m Hm; cbn [foldM]; [apply sim_ok; auto|]. rewrite <- (p_first_nonzero A B C e e' He).
    eapply sim_bind with (R := fun x y => x = y /\ map_fits x); [|intros x y (<- & Hx); apply IH; auto].
    clear IH. induction Hm as [|im m Him _ IHm]; cbn [mapM]; [apply sim_ok; split; constructor|]. eapply sim_bind; [apply p_subtract_image; eassumption|]. intros i i' (<- & Hi). eapply sim_bind; [exact IHm|].
    intros l l' (<- & Hl). apply sim_ok. split; auto. constructor; auto.
  Qed.
  Lemma p_normalize_map E E' m : Rm E E' -> map_fits m -> same_with map_fits (g_normalize_map A factorA E m) (g_normalize_map B factorB E' m).
  Proof.
    intros HE Hm. unfold g_normalize_map. assert (K : map (m_first_nonzero A) E = map (m_first_nonzero B) E').
    { clear -HE. induction HE as [|e e' E E' He _ IH]; cbn [map]; auto. rewrite (p_first_nonzero A B C e e' He), IH. reflexivity. }
    rewrite <- K. eapply sim_bind; [apply (same_with_intro map_fits); intros x; apply eliminate_fits; exact Hm|]. intros m1 ? (<- & H1). eapply sim_bind; [apply p_subtract_all; eassumption|]. intros m2 ? (<- & H2).
    apply (same_with_intro map_fits). intros x. apply simplify_fits; auto.
  Qed.
  Lemma p_normalize_maps E E' maps : Rm E E' -> maps_fit maps -> same_with maps_fit (mapM (g_normalize_map A factorA E) maps) (mapM (g_normalize_map B factorB E') maps).
  Proof.
    intros HE. induction 1 as [|m maps Hm _ IH]; cbn [mapM]; [apply sim_ok; split; constructor|]. eapply sim_bind; [apply p_normalize_map; eassumption|]. intros x ? (<- & Hx). eapply sim_bind; [exact IH|].
    intros l ? (<- & Hl). apply sim_ok. split; auto. constructor; auto.
  Qed.

  (** If the first ends normally, the second prints the same and ends normally. *)
  Definition psim (p q : prints) : Prop := match snd p with Ok _ => q = p | _ => True end.
  Lemma psim_refl p : psim p p.
  Proof. unfold psim. destruct (snd p); auto. Qed.
  Lemma psim_calc {X Y} (Q : X -> Y -> Prop) m m' f f' : sim Q m m' -> (forall x y, Q x y -> psim (f x) (f' y)) -> psim (calc m f) (calc m' f').
  Proof. intros H K. destruct m as [x| |]; cbn [sim] in H; unfold calc at 1; [|exact I|exact I]. destruct H as (y & -> & H). cbn [calc]. apply K; auto. Qed.
  Lemma psim_then p p' q q' : psim p p' -> psim q q' -> psim (p ;; q) (p' ;; q').
  Proof.
    unfold psim. intros H K. destruct p as [u [x| |]]; cbn [snd andthen] in *; auto. subst p'. cbn [snd andthen]. destruct q as [v [y| |]]; cbn [snd fst] in *; auto. subst q'. reflexivity.
  Qed.
  Lemma psim_all {X Y} (Q : X -> Y -> Prop) f f' l l' : (forall x y, Q x y -> psim (f x) (f' y)) -> Forall2 Q l l' -> psim (for_all f l) (for_all f' l').
  Proof. intros K. induction 1 as [|x y l l' H _ IH]; cbn [for_all]; [apply psim_refl|]. apply psim_then; auto. Qed.
  Lemma p_to_ints r r' : Rr r r' -> sim eq (mapM toA r) (mapM toB r').
  Proof. intros H. eapply sim_impl; [eapply (sim_mapM R eq); [exact Hto|exact H]|]. intros x y. apply forall2_eq_inv. Qed.
  Lemma p_pretty names rel M M' : Rm M M' -> psim (g_pretty_matrix A toA names rel M) (g_pretty_matrix B toB names rel M').
  Proof. intros H. unfold g_pretty_matrix. eapply psim_all; [|exact H]. intros r r' Hr. eapply psim_calc; [apply p_to_ints; exact Hr|]. intros x y <-. apply psim_refl. Qed.
  Lemma p_split M M' : Rm M M' -> sim both_related (g_split A M) (g_split B M').
  Proof.
    intros H. unfold g_split. eapply (sim_foldM Rr both_related); [|exact H|split; constructor]. intros s s' r r' (H1 & H2) Hr. eapply sim_bind; [apply sim_back; exact Hr|]. intros x y Hx. rewrite <- (c_eqi A B C x y 0 Hx) by auto.
    apply sim_ok. destruct (negb _); split; cbn [fst snd]; auto; apply f2_app; auto.
  Qed.
  Lemma f2_removelast {X Y} (Q : X -> Y -> Prop) l l' : Forall2 Q l l' -> Forall2 Q (removelast l) (removelast l').
  Proof. induction 1 as [|x y l l' H Hl IH]; cbn [removelast]; auto. destruct Hl; auto. Qed.
  Lemma p_print_vertices M M' b : Rm M M' -> psim (g_print_vertices A toA M b) (g_print_vertices B toB M' b).
  Proof.
    intros H. unfold g_print_vertices. eapply psim_calc; [apply p_split; exact H|]. intros [conv cone] [conv' cone'] (H1 & H2). cbn [fst snd] in H1, H2. apply psim_then.
    - destruct H1 as [|x y l l' Hx Hl]; [apply psim_refl|]. apply psim_then; [apply psim_refl|]. eapply psim_all; [|constructor; eassumption]. intros r r' Hr. eapply psim_calc; [apply p_to_ints; exact Hr|]. intros ? ? <-. apply psim_refl.
    - destruct H2 as [|x y l l' Hx Hl]; [apply psim_refl|]. apply psim_then; [apply psim_refl|]. eapply psim_all; [|constructor; eassumption]. intros r r' Hr. eapply psim_calc; [apply p_to_ints, f2_removelast; exact Hr|]. intros ? ? <-. apply psim_refl.
  Qed.
  Definition calls_alike (p q : option prints) : Prop := forall out, p = Some (out, Ok tt) -> q = Some (out, Ok tt).
  Lemma psim_calls p q : psim p q -> calls_alike (Some p) (Some q).
  Proof. intros H out E. injection E as ->. unfold psim in H. cbn in H. subst. reflexivity. Qed.
  Theorem p_facet_call order fuel V V' names maps : Rm V V' -> maps_fit maps -> calls_alike (g_facet_call A toA factorA order fuel V names maps) (g_facet_call B toB factorB order fuel V' names maps).
  Proof.
    intros H Hm. unfold g_facet_call. assert (PE := p_extract A B C V V' H). destruct (m_extract_equations A V) as [E| |]; try (intros out K; discriminate). destruct PE as (E' & -> & HE).
    assert (PM := p_normalize_maps E E' maps HE Hm). destruct (mapM (g_normalize_map A factorA E) maps) as [red| |]; try (intros out K; discriminate). destruct PM as (red' & -> & (<- & Hred)).
    set (p1 := match E with [] => say [] | _ => say (lit "Equations:" ++ end_line) ;; g_pretty_matrix A toA names "=" E ;; say end_line end).
    set (p2 := match E' with [] => say [] | _ => say (lit "Equations:" ++ end_line) ;; g_pretty_matrix B toB names "=" E' ;; say end_line end).
    assert (P1 : psim p1 p2).
    { subst p1 p2. destruct HE as [|e e' E E' He HE]; [apply psim_refl|]. apply psim_then; [apply psim_refl|]. apply psim_then; [apply p_pretty; constructor; auto|apply psim_refl]. }
    clearbody p1 p2. assert (PF : sim (option_related Rm) (bind (m_fme A order V) (m_classes_of A fuel Facet_tag red)) (bind (m_fme B order V') (m_classes_of B fuel Facet_tag red))).
    { eapply sim_bind; [apply (p_fme A B C); exact H|]. intros F F' HF. apply p_classes_of; auto. }
    destruct (bind (m_fme A order V) _) as [[F|]| |].
    - destruct PF as (F' & -> & HF). destruct F' as [F'|]; cbn [option_related] in HF; [|contradiction]. apply psim_calls. apply psim_then; auto. apply psim_then; [apply psim_refl|]. apply p_pretty; auto.
    - intros out K. destruct p1 as [u [x| |]]; discriminate.
    - intros out K. destruct p1 as [u [x| |]]; cbn [andthen] in K; discriminate.
    - intros out K. destruct p1 as [u [x| |]]; cbn [andthen] in K; discriminate.
  Qed.
  Theorem p_vertex_call order fuel V V' maps : Rm V V' -> maps_fit maps -> calls_alike (g_vertex_call A toA order fuel V maps) (g_vertex_call B toB order fuel V' maps).
  Proof.
    intros H Hm. unfold g_vertex_call. assert (PF : sim (option_related Rm) (bind (m_fme A order V) (m_classes_of A fuel Vertex_tag maps)) (bind (m_fme B order V') (m_classes_of B fuel Vertex_tag maps))).
    { eapply sim_bind; [apply (p_fme A B C); exact H|]. intros F F' HF. apply p_classes_of; auto. }
    destruct (bind (m_fme A order V) _) as [[F|]| |]; try (intros out K; discriminate). destruct PF as (F' & -> & HF). destruct F' as [F'|]; cbn [option_related] in HF; [|contradiction]. apply psim_calls. apply p_print_vertices; auto.
  Qed.
End Two.
