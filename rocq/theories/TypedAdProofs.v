(** * TypedAdProofs: adjacency decomposition over two integer types (see Param and TypedProofs). *)
From Coq Require Import List ZArith Arith Bool Lia String.
From Verif Require Import Base Spec ListUtil ArithModel MatrixModel FmeModel SafeIntModel IntTypes ClassesModel MapModel StreamModel OutputModel FileModel RotationModel ListModel ListRuns AdModel VertexAdModel TypedModel TypedAdModel Param TypedProofs.
Import ListNotations.
Open Scope nat_scope.
Open Scope list_scope.

Section Rotation.
  Variables (A B : Arith) (C : corresponds A B).
  Notation R := (c_rel C).
  Notation Rr := (Forall2 (c_rel C)).
  Notation Rm := (Forall2 (Forall2 (c_rel C))).

  Lemma p_distance f f' v v' : Rr f f' -> Rr v v' -> sim R (m_distance A f v) (m_distance B f' v').
  Proof. intros Hf Hv. unfold m_distance. eapply sim_bind; [apply (p_dot A B C); eauto|]. intros x y Hx. apply (c_neg A B C); auto. Qed.
  Lemma p_extremal better better' f f' : (forall x y x' y', R x x' -> R y y' -> better x y = better' x' y') -> Rr f f' ->
    forall vs vs', Rm vs vs' -> forall b b' e e', Rr b b' -> R e e' -> sim Rr (m_extremal A better f b e vs) (m_extremal B better' f' b' e' vs').
  Proof.
    intros Hb Hf. induction 1 as [|v v' vs vs' Hv _ IH]; intros b b' e e' Hbb He; cbn [m_extremal]; [apply sim_ok; auto|].
    eapply sim_bind; [apply p_distance; eauto|]. intros d d' Hd. rewrite (Hb d e d' e' Hd He). destruct (better' d' e'); apply IH; auto.
  Qed.
  Lemma p_extremal_vertex better better' vs vs' f f' : (forall x y x' y', R x x' -> R y y' -> better x y = better' x' y') -> Rm vs vs' -> Rr f f' -> sim Rr (m_extremal_vertex A better vs f) (m_extremal_vertex B better' vs' f').
  Proof. intros Hb H Hf. destruct H as [|v v' vs vs' Hv H]; [apply sim_ub|]. cbn [m_extremal_vertex]. eapply sim_bind; [apply p_distance; eauto|]. intros d d' Hd. eapply p_extremal; eauto. Qed.
  Lemma p_furthest vs vs' f f' : Rm vs vs' -> Rr f f' -> sim Rr (m_furthest A vs f) (m_furthest B vs' f').
  Proof. intros. apply p_extremal_vertex; auto. intros. apply (c_gt A B C); auto. Qed.
  Lemma p_nearest vs vs' f f' : Rm vs vs' -> Rr f f' -> sim Rr (m_nearest A vs f) (m_nearest B vs' f').
  Proof. intros. apply p_extremal_vertex; auto. intros. apply (c_gt A B C); auto. Qed.
  Definition body_related (p : list (num A) * num A * num A) (q : list (num B) * num B * num B) : Prop := Rr (fst (fst p)) (fst (fst q)) /\ R (snd (fst p)) (snd (fst q)) /\ R (snd p) (snd q).
  Lemma p_rotate_body V V' f f' r r' a a' b b' : Rm V V' -> Rr f f' -> Rr r r' -> R a a' -> R b b' -> sim body_related (m_rotate_body A V f r a b) (m_rotate_body B V' f' r' a' b').
  Proof.
    intros HV Hf Hr Ha Hb. unfold m_rotate_body. eapply sim_bind; [apply (p_gcd A B C); eauto|]. intros g g' Hg.
    eapply (sim_bind (fun p q => R (fst p) (fst q) /\ R (snd p) (snd q))).
    { rewrite (c_gti A B C g g' Hg). destruct (a_gti B g' 1); [|apply sim_ok; auto]. eapply sim_bind; [apply (c_div A B C); eauto|]. intros x x' Hx. eapply sim_bind; [apply (c_div A B C); eauto|]. intros y y' Hy. apply sim_ok. auto. }
    intros d d' (H1 & H2). eapply sim_bind; [apply (p_row_mul A B C); eauto|]. intros r1 r1' K1. eapply sim_bind; [apply (p_row_mul A B C); eauto|]. intros r2 r2' K2.
    eapply sim_bind; [apply (p_row_sub A B C); eauto|]. intros r3 r3' K3. eapply sim_bind; [apply (p_row_reduce A B C); eauto|]. intros r4 r4' K4.
    eapply sim_bind; [apply p_nearest; eauto|]. intros v v' Hv. eapply sim_bind; [apply p_distance; eauto|]. intros e e' He. eapply sim_bind; [apply p_distance; eauto|]. intros h h' Hh.
    apply sim_ok. repeat split; auto.
  Qed.
  Lemma p_rotate_loop V V' f f' : Rm V V' -> Rr f f' -> forall k r r' a a' b b', Rr r r' -> R a a' -> R b b' -> sim Rr (m_rotate_loop A k V f r a b) (m_rotate_loop B k V' f' r' a' b').
  Proof.
    intros HV Hf. induction k as [|k IH]; intros r r' a a' b b' Hr Ha Hb; cbn [m_rotate_loop]; [apply sim_ub|].
    eapply sim_bind; [apply p_rotate_body; eauto|]. intros [[x y] z] [[x' y'] z'] (H1 & H2 & H3). cbn [fst snd] in *.
    rewrite (c_eqi A B C z z' 0 H3) by auto. destruct (negb _); [apply IH; auto|apply sim_ok; auto].
  Qed.
  Lemma p_rotate V V' v v' f f' r r' : Rm V V' -> Rr v v' -> Rr f f' -> Rr r r' -> sim Rr (m_rotate A V v f r) (m_rotate B V' v' f' r').
  Proof.
    intros HV Hv Hf Hr. unfold m_rotate. eapply sim_bind; [apply p_distance; eauto|]. intros a a' Ha. eapply sim_bind; [apply p_distance; eauto|]. intros b b' Hb.
    rewrite <- (f2_length _ _ _ HV). apply p_rotate_loop; auto.
  Qed.
  Lemma p_on_facet V V' f f' : Rm V V' -> Rr f f' -> sim Rm (m_on_facet A V f) (m_on_facet B V' f').
  Proof.
    intros H Hf. induction H as [|v v' V V' Hv _ IH]; cbn [m_on_facet]; [apply sim_ok; constructor|]. eapply sim_bind; [apply p_distance; eauto|]. intros d d' Hd. eapply sim_bind; [exact IH|]. intros M M' HM.
    rewrite (c_eqi A B C d d' 0 Hd) by auto. apply sim_ok. destruct (a_eqi B d' 0); auto.
  Qed.
  Lemma p_rotated order V V' f f' : Rm V V' -> Rr f f' -> sim Rm (m_rotated A order V f) (m_rotated B order V' f').
  Proof.
    intros HV Hf. unfold m_rotated. eapply sim_bind; [apply p_furthest; eauto|]. intros u u' Hu. eapply (sim_bind Rm).
    { unfold m_ridges. eapply sim_bind; [apply p_on_facet; eauto|]. intros M M' HM. apply (p_fme A B C); auto. }
    intros M M' HM. eapply (sim_mapM Rr Rr); [|exact HM]. intros x y Hx. apply p_rotate; auto.
  Qed.
  Lemma p_rotation order fuel V V' f f' maps t : Rm V V' -> Rr f f' -> maps_fit maps -> sim (option_related Rm) (m_rotation A order fuel V f maps t) (m_rotation B order fuel V' f' maps t).
  Proof.
    intros HV Hf Hm. unfold m_rotation. eapply sim_bind; [apply p_rotated; eauto|]. intros M M' HM. apply (p_classes_of A B C fuel t maps M M' Hm HM).
  Qed.
  Lemma p_representative k t maps r r' : maps_fit maps -> Rr r r' -> sim (option_related Rr) (m_representative A k t maps r) (m_representative B k t maps r').
  Proof.
    intros Hm Hr. unfold m_representative. eapply sim_bind; [apply (p_get_class A B C); eauto|]. intros [c|] [c'|] Hc; cbn [option_related] in Hc; try contradiction; [|apply sim_ok; exact I].
    eapply sim_bind; [apply sim_back; exact Hc|]. intros x y Hx. apply sim_ok. exact Hx.
  Qed.
  Lemma p_representatives k t maps M M' : maps_fit maps -> Rm M M' -> sim (option_related Rm) (g_representatives A t k maps M) (g_representatives B t k maps M').
  Proof.
    intros Hm. induction 1 as [|r r' M M' Hr _ IH]; cbn [g_representatives]; [apply sim_ok; constructor|].
    eapply sim_bind; [apply p_representative; eauto|]. intros [x|] [x'|] Hx; cbn [option_related] in Hx; try contradiction; [|apply sim_ok; exact I].
    eapply sim_bind; [exact IH|]. intros [xs|] [xs'|] Hxs; cbn [option_related] in Hxs; try contradiction; [|apply sim_ok; exact I]. apply sim_ok. constructor; auto.
  Qed.
  Lemma p_known k t E E' maps M M' : maps_fit maps -> Rm E E' -> Rm M M' -> sim (option_related Rm) (g_ad_known A t k E maps M) (g_ad_known B t k E' maps M').
  Proof.
    intros Hm HE HM. unfold g_ad_known. eapply sim_bind; [eapply (sim_mapM Rr Rr); [|exact HM]; intros x y Hx; apply (p_normalize A B C); auto|]. intros X X' HX. apply p_representatives; auto.
  Qed.
  Lemma p_start k t order V V' E E' maps M M' : maps_fit maps -> Rm V V' -> Rm E E' -> Rm M M' -> sim (option_related Rm) (g_ad_start A t order k V E maps M) (g_ad_start B t order k V' E' maps M').
  Proof.
    intros Hm HV HE HM. unfold g_ad_start. destruct HM as [|r r' M M' Hr HM]; [|apply p_known; auto]. eapply sim_bind; [apply (p_fme_heuristic A B C); eauto|]. intros X X' HX. apply p_representatives; auto.
  Qed.
End Rotation.

(** ** Whole calls without known rows *)
Section Calls.
  Variables (A B : Arith) (C : corresponds A B).
  Notation Rr := (Forall2 (c_rel C)).
  Notation Rm := (Forall2 (Forall2 (c_rel C))).
  Variables (toA : num A -> res Z) (toB : num B -> res Z) (factorA : Z -> num A -> res Z) (factorB : Z -> num B -> res Z).
  Hypothesis Hto : forall x y, c_rel C x y -> sim eq (toA x) (toB y).
  Hypothesis Hfactor : forall c x y, fits 32 c = true -> c_rel C x y -> same_with (fun f => fits 32 f = true) (factorA c x) (factorB c y).
  Variables (inA : vec -> list (num A)) (insA : list vec -> list (list (num A))) (outsA : list (list (num A)) -> list vec).
  Variables (inB : vec -> list (num B)) (insB : list vec -> list (list (num B))) (outsB : list (list (num B)) -> list vec).
  (** The two rows with given values correspond. *)
  Definition good (r : vec) : Prop := Rr (inA r) (inB r).
  Hypothesis HnilA : outsA [] = [].
  Hypothesis HnilB : outsB [] = [].
  Hypothesis HinA : forall L, insA L = map inA L.
  Hypothesis HinB : forall L, insB L = map inB L.
  Hypothesis Hout : forall M M', Rm M M' -> outsA M = outsB M' /\ Forall good (outsA M).

  Lemma good_rows L : Forall good L -> Rm (insA L) (insB L).
  Proof. rewrite HinA, HinB. induction 1; cbn [map]; constructor; auto. Qed.

  Section Core.
    Variables (t : tag) (order : list nat -> list nat) (fuel threads : nat) (V : list (list (num A))) (V' : list (list (num B))) (maps : list lmap).
    Variables (start : list (list (num A))) (start' : list (list (num B))) (fA : list (num A) -> prints) (fB : list (num B) -> prints).
    Hypothesis HV : Rm V V'.
    Hypothesis Hm : maps_fit maps.
    Hypothesis Hs : Rm start start'.
    Hypothesis Hf : forall r r', Rr r r' -> psim (fA r) (fB r').
    Notation nbA := (g_ad_neighbours A inA outsA t order fuel V maps).
    Notation nbB := (g_ad_neighbours B inB outsB t order fuel V' maps).
    Notation s0A := (initial (outsA start) (outsA []) threads 0).
    Notation s0B := (initial (outsB start') (outsB []) threads 0).
    Lemma same_initial : s0A = s0B.
    Proof. rewrite (proj1 (Hout start start' Hs)), HnilA, HnilB. reflexivity. Qed.
    Lemma nb_good r : good r -> Forall good (nbA r).
    Proof.
      intros H. unfold g_ad_neighbours. assert (P := p_rotation A B C order fuel V V' (inA r) (inB r) maps t HV H Hm). destruct (m_rotation A order fuel V (inA r) maps t) as [[l|]| |]; try constructor.
      destruct P as ([l'|] & _ & P); cbn in P; [|contradiction]. apply (Hout l l' P).
    Qed.
    Lemma nb_same r x : good r -> m_rotation A order fuel V (inA r) maps t = Ok x -> nbA r = nbB r.
    Proof.
      intros H E. unfold g_ad_neighbours. assert (P := p_rotation A B C order fuel V V' (inA r) (inB r) maps t HV H Hm). rewrite E in *. destruct P as (x' & -> & P).
      destruct x as [l|], x' as [l'|]; cbn in P; try contradiction; auto. apply (Hout l l' P).
    Qed.
    Lemma run_good ls s : ListModel.run nbA s0A ls s -> Forall good (printed (sh s)) /\ Forall good (handed (sh s)).
    Proof. apply (run_have nbA good nb_good); [apply (Hout start start' Hs)|rewrite HnilA; constructor]. Qed.

    Lemma core_forward ls s : ListModel.run nbA s0A ls s -> (forall r, In r (handed (sh s)) -> g_ad_processed A inA t order fuel V maps r) ->
      ListModel.run nbB s0B ls s /\ (forall r, In r (handed (sh s)) -> g_ad_processed B inB t order fuel V' maps r).
    Proof.
      intros H K. destruct (run_good ls s H) as (G1 & G2). rewrite Forall_forall in G2. split.
      - rewrite <- same_initial. apply (run_transfer nbA nbB); auto; [apply working_initial|]. intros r Hr. destruct (K r Hr) as (l & E). apply (nb_same r (Some l)); auto.
      - intros r Hr. destruct (K r Hr) as (l & E). assert (P := p_rotation A B C order fuel V V' (inA r) (inB r) maps t HV (G2 r Hr) Hm). rewrite E in P. destruct P as ([l'|] & E' & P); cbn in P; [|contradiction]. exists l'. exact E'.
    Qed.
    Lemma core_lines L lines : Forall good L -> for_all fA (insA L) = say lines -> for_all fB (insB L) = say lines.
    Proof. intros G E. assert (P : psim (for_all fA (insA L)) (for_all fB (insB L))) by (eapply psim_all; [exact Hf|apply good_rows; auto]). unfold psim in P. rewrite E in P. exact P. Qed.

    (** Nothing fails over the first type. *)
    Hypothesis Hrot : forall ls s r, ListModel.run nbA s0A ls s -> In r (handed (sh s)) -> exists x, m_rotation A order fuel V (inA r) maps t = Ok x.
    Hypothesis Hline : forall ls s r, ListModel.run nbA s0A ls s -> In r (printed (sh s)) -> snd (fA (inA r)) = Ok tt.
    Lemma core_back ls s : ListModel.run nbB s0B ls s -> ListModel.run nbA s0A ls s.
    Proof.
      rewrite <- same_initial. apply (run_back nbB nbA); [apply working_initial|]. intros ls' s' r H Hr. destruct (Hrot ls' s' r H Hr) as (x & E). destruct (run_good ls' s' H) as (_ & G). rewrite Forall_forall in G.
      symmetry. apply (nb_same r x); auto.
    Qed.
    Lemma core_rotation ls s r : ListModel.run nbB s0B ls s -> In r (handed (sh s)) -> exists x x', m_rotation A order fuel V (inA r) maps t = Ok x /\ m_rotation B order fuel V' (inB r) maps t = Ok x' /\ option_related Rm x x'.
    Proof.
      intros H Hr. apply core_back in H. destruct (Hrot ls s r H Hr) as (x & E). destruct (run_good ls s H) as (_ & G). rewrite Forall_forall in G.
      assert (P := p_rotation A B C order fuel V V' (inA r) (inB r) maps t HV (G r Hr) Hm). rewrite E in P. destruct P as (x' & E' & P). exists x, x'. auto.
    Qed.
    Lemma core_processed ls s : ListModel.run nbB s0B ls s -> (forall r, In r (handed (sh s)) -> g_ad_processed B inB t order fuel V' maps r) -> forall r, In r (handed (sh s)) -> g_ad_processed A inA t order fuel V maps r.
    Proof.
      intros H K r Hr. destruct (core_rotation ls s r H Hr) as (x & x' & E & E' & P). destruct (K r Hr) as (l & El). rewrite E' in El. injection El as ->. destruct x as [x|]; cbn in P; [|contradiction]. exists x. exact E.
    Qed.
    Lemma core_line ls s r : ListModel.run nbB s0B ls s -> In r (printed (sh s)) -> snd (fB (inB r)) = Ok tt.
    Proof.
      intros H Hr. apply core_back in H. destruct (run_good ls s H) as (G & _). rewrite Forall_forall in G. assert (P := Hf _ _ (G r Hr)). unfold psim in P. rewrite (Hline ls s r H Hr) in P. rewrite P. apply (Hline ls s r H Hr).
    Qed.
    Lemma all_say (f : list (num A) -> prints) L : (forall r, In r L -> snd (f (inA r)) = Ok tt) -> exists lines, for_all f (map inA L) = say lines.
    Proof.
      induction L as [|r L IH]; intros K; cbn [map for_all]; [exists []; reflexivity|]. destruct (IH (fun x Hx => K x (or_intror Hx))) as (lines & ->). specialize (K r (or_introl eq_refl)).
      destruct (f (inA r)) as [u q]. cbn [snd] in K. subst q. cbn. eexists. reflexivity.
    Qed.
    Lemma core_lines_back ls s lines : ListModel.run nbB s0B ls s -> for_all fB (insB (printed (sh s))) = say lines -> for_all fA (insA (printed (sh s))) = say lines.
    Proof.
      intros H E. apply core_back in H. destruct (run_good ls s H) as (G & _). destruct (all_say fA (printed (sh s))) as (lines' & E'); [intros r Hr; apply (Hline ls s r H Hr)|]. rewrite <- HinA in E'.
      assert (K := core_lines (printed (sh s)) lines' G E'). rewrite E in K. injection K as ->. exact E'.
    Qed.
  End Core.

  Lemma new_rows_all rows : forall r, In r (m_new_rows rows) <-> In r rows.
  Proof.
    assert (K : forall rows seen r, In r (fold_left (fun seen r => if in_dec (list_eq_dec Z.eq_dec) r seen then seen else seen ++ [r]) rows seen) <-> In r seen \/ In r rows).
    { clear. induction rows as [|x rows IH]; intros seen r; cbn [fold_left]; [cbn; tauto|]. rewrite IH. destruct (in_dec (list_eq_dec Z.eq_dec) x seen); cbn [In].
      - split; [intros [H|H]; auto|]. intros [H|[<-|H]]; auto.
      - rewrite in_app_iff. cbn [In]. tauto. }
    intros r. unfold m_new_rows. rewrite K. cbn. tauto.
  Qed.
  Lemma all_fine {X} (f : X -> prints) L : snd (for_all f L) = Ok tt -> forall r, In r L -> snd (f r) = Ok tt.
  Proof.
    induction L as [|x L IH]; cbn [for_all]; intros E r; [intros []|]. destruct (f x) as [u [[]| |]] eqn:Ex; cbn [andthen snd] in E; try discriminate. intros [<-|Hr]; [rewrite Ex; reflexivity|]. apply IH; auto.
  Qed.
  Lemma one_line {X} (f : X -> prints) x : snd (for_all f [x]) = snd (f x).
  Proof. cbn [for_all]. destruct (f x) as [u [[]| |]]; reflexivity. Qed.
  Lemma fine_or (q : res unit) : q = Ok tt \/ q = Throw \/ q = UB.
  Proof. destruct q as [[]| |]; auto. Qed.

  Section Facets.
    Variables (order : list nat -> list nat) (fuel threads : nat) (V : list (list (num A))) (V' : list (list (num B))) (names : list text) (maps : list lmap).
    Hypothesis HV : Rm V V'.
    Hypothesis Hm : maps_fit maps.
    Notation callA := (g_facet_ad_call A toA factorA inA insA outsA order fuel threads V names maps []).
    Notation callB := (g_facet_ad_call B toB factorB inB insB outsB order fuel threads V' names maps []).
    Let fA (r : list (num A)) : prints := calc (mapM toA r) (fun r => calc (m_pretty r names "<=") (fun l => say (l ++ end_line))).
    Let fB (r : list (num B)) : prints := calc (mapM toB r) (fun r => calc (m_pretty r names "<=") (fun l => say (l ++ end_line))).
    Lemma line_sim r r' : Rr r r' -> psim (fA r) (fB r').
    Proof. intros Hr. eapply psim_calc; [apply (p_to_ints A B C toA toB Hto); exact Hr|]. intros x y <-. apply psim_refl. Qed.
    Lemma p_reduce : sim (fun p q => Rm (fst p) (fst q) /\ snd p = snd q /\ maps_fit (snd p)) (g_ad_reduce A factorA V maps) (g_ad_reduce B factorB V' maps).
    Proof.
      unfold g_ad_reduce. eapply sim_bind; [apply (p_extract A B C); exact HV|]. intros E E' HE. destruct HE as [|e e' E E' He HE]; [apply sim_ok; cbn; auto|].
      eapply sim_bind; [apply (p_normalize_maps A B C factorA factorB Hfactor); [constructor; eassumption|exact Hm]|]. intros x y (<- & Hx). apply sim_ok. cbn [fst snd]. split; [constructor; auto|auto].
    Qed.
    Lemma p_equations E E' : Rm E E' -> psim (g_ad_equations A toA names E) (g_ad_equations B toB names E').
    Proof. intros HE. unfold g_ad_equations. destruct HE as [|e e' E E' He HE]; [apply psim_refl|]. apply psim_then; [apply psim_refl|]. apply psim_then; [apply (p_pretty A B C toA toB Hto); constructor; auto|apply psim_refl]. Qed.
    Lemma no_added t E ms M : g_ad_added A t fuel E ms [] M -> M = [].
    Proof. intros (k & H & _). rewrite firstn_nil in H. cbn in H. injection H as <-. reflexivity. Qed.
    Lemma no_added' t E ms M : g_ad_added B t fuel E ms [] M -> M = [].
    Proof. intros (k & H & _). rewrite firstn_nil in H. cbn in H. injection H as <-. reflexivity. Qed.
    Lemma none_added t E ms : g_ad_added A t fuel E ms [] [].
    Proof. exists 0. split; [reflexivity|left; cbn; lia]. Qed.
    Lemma none_added' t E ms : g_ad_added B t fuel E ms [] [].
    Proof. exists 0. split; [reflexivity|left; cbn; lia]. Qed.
    Lemma psim_say p q l : psim p q -> p = say l -> q = say l.
    Proof. intros H ->. exact H. Qed.

    Theorem facets_forward out : callA out (Status 0) -> callB out (Status 0).
    Proof.
      intros [(_ & s & E & red & start & added & ls & head & lines & H1 & H2 & H3 & H4 & H5 & H6 & H7 & H8 & H9)|[H|H]].
      - left. split; [reflexivity|]. exists s. apply no_added in H3. subst added.
        assert (P1 := p_reduce). rewrite H1 in P1. destruct P1 as ((E' & red') & Q1 & HE & R1 & Hred). cbn [fst snd] in HE, R1, Hred. subst red'.
        assert (P2 := p_start A B C fuel Facet_tag order V V' E E' red [] [] Hred HV HE (Forall2_nil _)). rewrite H2 in P2. destruct P2 as ([start'|] & Q2 & Hs); cbn [option_related] in Hs; [|contradiction].
        destruct (core_forward Facet_tag order fuel threads V V' red start start' HV Hred Hs ls s H4 H6) as (K1 & K2). destruct (run_good Facet_tag order fuel threads V V' red start start' HV Hred Hs ls s H4) as (G & _).
        exists E', red, start', [], ls, head, lines. split; [exact Q1|]. split; [exact Q2|]. split; [apply none_added'|]. split; [exact K1|]. split; [exact H5|]. split; [exact K2|].
        split; [apply (psim_say _ _ _ (p_equations E E' HE) H7)|]. split; [|exact H9]. apply (core_lines fA fB line_sim); auto.
      - exfalso. unfold g_ad_stops in H. destruct (m_extract_equations A V) as [E| |]; [|destruct H; discriminate|discriminate]. destruct (g_ad_equations A toA names E) as [head [[]| |]]; cbn [m_caught] in H; [|destruct H; discriminate|destruct H; discriminate].
        destruct (g_ad_reduce A factorA V maps) as [[E1 red]| |]; [|destruct H; discriminate|discriminate]. destruct (g_ad_start A Facet_tag order fuel V E red []) as [[start|]| |]; [|contradiction|destruct H; discriminate|discriminate].
        destruct H as (lines & q & _ & N & _ & K). destruct q as [[]| |]; cbn in K; try discriminate. congruence.
      - exfalso. destruct H as [(E & red & start & k & _ & _ & _ & H)|(E & red & start & added & ls & s & r & _ & _ & _ & _ & [(_ & [(_ & H)|(_ & H)])|(_ & _ & _ & [(_ & H)|(_ & H)])])]; discriminate.
    Qed.
    (** If nothing can fail over the first type, the two programs do the same. *)
    Hypothesis HN : forall out e, callA out e -> e = Status 0.
    Lemma sound_reduce : exists E E' red head, g_ad_reduce A factorA V maps = Ok (E, red) /\ g_ad_reduce B factorB V' maps = Ok (E', red) /\ m_extract_equations A V = Ok E /\ m_extract_equations B V' = Ok E' /\ Rm E E' /\ maps_fit red /\
      g_ad_equations A toA names E = say head /\ g_ad_equations B toB names E' = say head.
    Proof.
      assert (ST : forall out e, g_ad_stops A toA factorA insA outsA order fuel V names maps [] out e -> e = Status 0) by (intros out e H; apply (HN out e); right; left; exact H).
      assert (PE := p_extract A B C V V' HV). assert (PR := p_reduce). unfold g_ad_stops in ST.
      destruct (m_extract_equations A V) as [E| |] eqn:E1; [|specialize (ST [] (Status 1) (conj eq_refl eq_refl)); discriminate|specialize (ST [] Undefined eq_refl); discriminate].
      destruct PE as (E' & E1' & HE). assert (PP := p_equations E E' HE). destruct (g_ad_equations A toA names E) as [head q] eqn:E2.
      assert (q = Ok tt) as ->. { destruct q as [[]| |]; auto; cbn [m_caught] in ST; specialize (ST head _ (conj eq_refl eq_refl)); discriminate. }
      destruct (g_ad_reduce A factorA V maps) as [[E0 red]| |] eqn:E3; [|specialize (ST head (Status 1) (conj eq_refl eq_refl)); discriminate|specialize (ST [] Undefined eq_refl); discriminate].
      assert (E0 = E) as ->. { unfold g_ad_reduce in E3. rewrite E1 in E3. cbn [bind] in E3. destruct E; [inversion E3; auto|]. destruct (mapM _ _); inversion E3; auto. }
      destruct PR as ((E0' & red') & E3' & HE0 & R1 & Hred). cbn [fst snd] in *. subst red'.
      assert (E0' = E') as ->. { unfold g_ad_reduce in E3'. rewrite E1' in E3'. cbn [bind] in E3'. destruct E'; [inversion E3'; auto|]. destruct (mapM _ _); inversion E3'; auto. }
      exists E, E', red, head. unfold psim in PP. cbn [snd] in PP. repeat (split; [auto|]). auto.
    Qed.
    Theorem facets_back out e : callB out e -> callA out e.
    Proof.
      destruct sound_reduce as (E & E' & red & head & X1 & X2 & X3 & X4 & HE & Hred & X5 & X6).
      assert (ST : forall out e, g_ad_stops A toA factorA insA outsA order fuel V names maps [] out e -> e = Status 0) by (intros o x H; apply (HN o x); right; left; exact H).
      assert (FL : forall e, g_ad_fails A toA factorA inA outsA order fuel threads V names maps [] e -> e = Status 0) by (intros x H; apply (HN [] x); right; right; exact H).
      assert (P2 := p_start A B C fuel Facet_tag order V V' E E' red [] [] Hred HV HE (Forall2_nil _)). unfold g_ad_stops in ST. rewrite X3, X5, X1 in ST. unfold say at 1 in ST.
      destruct (g_ad_start A Facet_tag order fuel V E red []) as [[start|]| |] eqn:E2; [| |specialize (ST _ (Status 1) (conj eq_refl eq_refl)); discriminate|specialize (ST [] Undefined eq_refl); discriminate].
      - destruct P2 as ([start'|] & E2' & Hs); cbn [option_related] in Hs; [|contradiction].
        assert (NL : snd (for_all fA (insA (m_new_rows (outsA start)))) = Ok tt).
        { destruct (for_all fA (insA (m_new_rows (outsA start)))) as [lines q] eqn:EL. cbn [snd]. destruct q as [[]| |]; auto; exfalso.
          - assert (K : Status 1 = Status 0); [|discriminate]. apply (ST (head ++ g_ad_title red ++ lines)). exists lines, Throw. split; [exact EL|]. split; [discriminate|]. split; reflexivity.
          - assert (K : Undefined = Status 0); [|discriminate]. apply (ST (head ++ g_ad_title red ++ lines)). exists lines, UB. split; [exact EL|]. split; [discriminate|]. split; reflexivity. }
        assert (HR : forall ls s r, ListModel.run (g_ad_neighbours A inA outsA Facet_tag order fuel V red) (initial (outsA start) (outsA []) threads 0) ls s -> In r (handed (sh s)) -> exists x, m_rotation A order fuel V (inA r) red Facet_tag = Ok x).
        { intros ls s r H Hr. destruct (m_rotation A order fuel V (inA r) red Facet_tag) as [x| |] eqn:Er; [eauto| |]; exfalso.
          - assert (K : Terminated = Status 0) by (apply FL; right; exists E, red, start, [], ls, s, r; split; [exact X1|]; split; [exact E2|]; split; [apply none_added|]; split; [exact H|]; left; split; [exact Hr|]; left; auto). discriminate.
          - assert (K : Undefined = Status 0) by (apply FL; right; exists E, red, start, [], ls, s, r; split; [exact X1|]; split; [exact E2|]; split; [apply none_added|]; split; [exact H|]; left; split; [exact Hr|]; right; auto). discriminate. }
        assert (HL : forall ls s r, ListModel.run (g_ad_neighbours A inA outsA Facet_tag order fuel V red) (initial (outsA start) (outsA []) threads 0) ls s -> In r (printed (sh s)) -> snd (fA (inA r)) = Ok tt).
        { intros ls s r H Hr. destruct (in_dec (list_eq_dec Z.eq_dec) r (outsA start)) as [I|I].
          - rewrite HinA in NL. apply (all_fine fA _ NL). apply in_map. apply new_rows_all. exact I.
          - destruct (fine_or (snd (fA (inA r)))) as [K|[K|K]]; auto; exfalso.
            + assert (Q : Terminated = Status 0) by (apply FL; right; exists E, red, start, [], ls, s, r; split; [exact X1|]; split; [exact E2|]; split; [apply none_added|]; split; [exact H|]; right; split; [exact Hr|]; split; [exact I|]; split; [rewrite HnilA; intros []|]; left; split; [|reflexivity]; exact (eq_trans (one_line fA (inA r)) K)). discriminate.
            + assert (Q : Undefined = Status 0) by (apply FL; right; exists E, red, start, [], ls, s, r; split; [exact X1|]; split; [exact E2|]; split; [apply none_added|]; split; [exact H|]; right; split; [exact Hr|]; split; [exact I|]; split; [rewrite HnilA; intros []|]; right; split; [|reflexivity]; exact (eq_trans (one_line fA (inA r)) K)). discriminate. }
        intros [(-> & s & E0 & red0 & start0 & added & ls & head0 & lines & H1 & H2 & H3 & H4 & H5 & H6 & H7 & H8 & H9)|[H|H]].
        + left. split; [reflexivity|]. exists s. apply no_added' in H3. subst added. rewrite X2 in H1. injection H1 as <- <-. rewrite E2' in H2. injection H2 as <-.
          exists E, red, start, [], ls, head, lines. split; [exact X1|]. split; [exact E2|]. split; [apply none_added|].
          split; [apply (core_back Facet_tag order fuel threads V V' red start start' HV Hred Hs HR ls s H4)|]. split; [exact H5|].
          split; [apply (core_processed Facet_tag order fuel threads V V' red start start' HV Hred Hs HR ls s H4 H6)|]. split; [exact X5|].
          split; [apply (core_lines_back Facet_tag order fuel threads V V' red start start' fA fB HV Hred Hs line_sim HR HL ls s lines H4 H8)|]. rewrite X6 in H7. injection H7 as ->. exact H9.
        + exfalso. unfold g_ad_stops in H. rewrite X4, X6, X2, E2' in H. unfold say at 1 in H. destruct H as (lines & q & K1 & K2 & _). apply K2.
          assert (G : Forall good (m_new_rows (outsA start))) by (destruct (Hout start start' Hs) as (_ & G0); rewrite Forall_forall in G0; apply Forall_forall; intros r Hr; apply G0; apply new_rows_all; exact Hr).
          assert (P : psim (for_all fA (insA (m_new_rows (outsA start)))) (for_all fB (insB (m_new_rows (outsB start'))))) by (rewrite <- (proj1 (Hout start start' Hs)); eapply psim_all; [exact line_sim|apply good_rows; exact G]).
          unfold psim in P. rewrite NL in P. assert (K3 : snd (for_all fB (insB (m_new_rows (outsB start')))) = Ok tt) by (rewrite P; exact NL). assert (K4 : snd (for_all fB (insB (m_new_rows (outsB start')))) = q) by exact (f_equal snd K1). congruence.
        + exfalso. destruct H as [(E0 & red0 & start0 & k & _ & _ & H & _)|(E0 & red0 & start0 & added & ls & s & r & H1 & H2 & H3 & H4 & H5)].
          * rewrite firstn_nil in H. cbn in H. discriminate.
          * apply no_added' in H3. subst added. rewrite X2 in H1. injection H1 as <- <-. rewrite E2' in H2. injection H2 as <-. destruct H5 as [(Hr & H5)|(Hr & _ & _ & H5)].
            -- destruct (core_rotation Facet_tag order fuel threads V V' red start start' HV Hred Hs HR ls s r H4 Hr) as (x & x' & _ & Ex & _). rewrite Ex in H5. destruct H5 as [(H5 & _)|(H5 & _)]; discriminate.
            -- assert (K := core_line Facet_tag order fuel threads V V' red start start' fA fB HV Hred Hs line_sim HR HL ls s r H4 Hr). rewrite <- (one_line fB (inB r)) in K. destruct H5 as [(H5 & _)|(H5 & _)]; assert (Q := eq_trans (eq_sym K) H5); discriminate.
      - destruct P2 as ([start'|] & E2' & Hs); cbn [option_related] in Hs; [contradiction|].
        intros [(-> & s & E0 & red0 & start0 & added & ls & head0 & lines & H1 & H2 & _)|[H|H]]; exfalso.
        + rewrite X2 in H1. injection H1 as <- <-. rewrite E2' in H2. discriminate.
        + unfold g_ad_stops in H. rewrite X4, X6, X2, E2' in H. exact H.
        + destruct H as [(E0 & red0 & start0 & k & H1 & H2 & _)|(E0 & red0 & start0 & added & ls & s & r & H1 & H2 & _)]; rewrite X2 in H1; injection H1 as <- <-; rewrite E2' in H2; discriminate.
    Qed.
  End Facets.

  Section Vertices.
    Variables (order : list nat -> list nat) (fuel threads : nat) (V : list (list (num A))) (V' : list (list (num B))) (maps : list lmap).
    Hypothesis HV : Rm V V'.
    Hypothesis Hm : maps_fit maps.
    Notation callA := (g_vertex_ad_call A toA inA insA outsA order fuel threads V maps []).
    Notation callB := (g_vertex_ad_call B toB inB insB outsB order fuel threads V' maps []).
    Let fA (v : list (num A)) : prints := calc (mapM toA v) (fun r => say (m_print_row r ++ end_line)).
    Let fB (v : list (num B)) : prints := calc (mapM toB v) (fun r => say (m_print_row r ++ end_line)).
    Lemma raw_sim r r' : Rr r r' -> psim (fA r) (fB r').
    Proof. intros Hr. eapply psim_calc; [apply (p_to_ints A B C toA toB Hto); exact Hr|]. intros x y <-. apply psim_refl. Qed.
    Theorem vertices_forward out : callA out (Status 0) -> callB out (Status 0).
    Proof.
      intros [(_ & s & start & added & ls & lines & H2 & H3 & H4 & H5 & H6 & H8 & H9)|[H|H]].
      - left. split; [reflexivity|]. exists s. apply no_added in H3. subst added.
        assert (P2 := p_start A B C fuel Vertex_tag order V V' [] [] maps [] [] Hm HV (Forall2_nil _) (Forall2_nil _)). rewrite H2 in P2. destruct P2 as ([start'|] & Q2 & Hs); cbn [option_related] in Hs; [|contradiction].
        destruct (core_forward Vertex_tag order fuel threads V V' maps start start' HV Hm Hs ls s H4 H6) as (K1 & K2). destruct (run_good Vertex_tag order fuel threads V V' maps start start' HV Hm Hs ls s H4) as (G & _).
        exists start', [], ls, lines. split; [exact Q2|]. split; [apply none_added'|]. split; [exact K1|]. split; [exact H5|]. split; [exact K2|].
        split; [|exact H9]. apply (core_lines fA fB raw_sim); auto.
      - exfalso. unfold g_vad_stops in H. destruct (g_ad_start A Vertex_tag order fuel V [] maps []) as [[start|]| |]; [|contradiction|destruct H; discriminate|discriminate].
        destruct H as (lines & q & _ & N & _ & K). destruct q as [[]| |]; cbn in K; try discriminate. congruence.
      - exfalso. destruct H as [(start & k & _ & _ & H)|(start & added & ls & s & r & _ & _ & _ & [(_ & [(_ & H)|(_ & H)])|(_ & _ & _ & [(_ & H)|(_ & H)])])]; discriminate.
    Qed.
    Hypothesis HN : forall out e, callA out e -> e = Status 0.
    Theorem vertices_back out e : callB out e -> callA out e.
    Proof.
      assert (ST : forall out e, g_vad_stops A toA insA outsA order fuel V maps [] out e -> e = Status 0) by (intros o x H; apply (HN o x); right; left; exact H).
      assert (FL : forall e, g_vad_fails A toA inA outsA order fuel threads V maps [] e -> e = Status 0) by (intros x H; apply (HN [] x); right; right; exact H).
      assert (P2 := p_start A B C fuel Vertex_tag order V V' [] [] maps [] [] Hm HV (Forall2_nil _) (Forall2_nil _)). unfold g_vad_stops in ST.
      destruct (g_ad_start A Vertex_tag order fuel V [] maps []) as [[start|]| |] eqn:E2; [| |specialize (ST _ (Status 1) (conj eq_refl eq_refl)); discriminate|specialize (ST [] Undefined eq_refl); discriminate].
      - destruct P2 as ([start'|] & E2' & Hs); cbn [option_related] in Hs; [|contradiction].
        assert (NL : snd (for_all fA (insA (m_new_rows (outsA start)))) = Ok tt).
        { destruct (for_all fA (insA (m_new_rows (outsA start)))) as [lines q] eqn:EL. cbn [snd]. destruct q as [[]| |]; auto; exfalso.
          - assert (K : Status 1 = Status 0); [|discriminate]. apply (ST (m_vad_title maps ++ lines)). exists lines, Throw. split; [exact EL|]. split; [discriminate|]. split; reflexivity.
          - assert (K : Undefined = Status 0); [|discriminate]. apply (ST (m_vad_title maps ++ lines)). exists lines, UB. split; [exact EL|]. split; [discriminate|]. split; reflexivity. }
        assert (HR : forall ls s r, ListModel.run (g_ad_neighbours A inA outsA Vertex_tag order fuel V maps) (initial (outsA start) (outsA []) threads 0) ls s -> In r (handed (sh s)) -> exists x, m_rotation A order fuel V (inA r) maps Vertex_tag = Ok x).
        { intros ls s r H Hr. destruct (m_rotation A order fuel V (inA r) maps Vertex_tag) as [x| |] eqn:Er; [eauto| |]; exfalso.
          - assert (K : Terminated = Status 0) by (apply FL; right; exists start, [], ls, s, r; split; [exact E2|]; split; [apply none_added|]; split; [exact H|]; left; split; [exact Hr|]; left; auto). discriminate.
          - assert (K : Undefined = Status 0) by (apply FL; right; exists start, [], ls, s, r; split; [exact E2|]; split; [apply none_added|]; split; [exact H|]; left; split; [exact Hr|]; right; auto). discriminate. }
        assert (HL : forall ls s r, ListModel.run (g_ad_neighbours A inA outsA Vertex_tag order fuel V maps) (initial (outsA start) (outsA []) threads 0) ls s -> In r (printed (sh s)) -> snd (fA (inA r)) = Ok tt).
        { intros ls s r H Hr. destruct (in_dec (list_eq_dec Z.eq_dec) r (outsA start)) as [I|I].
          - rewrite HinA in NL. apply (all_fine fA _ NL). apply in_map. apply new_rows_all. exact I.
          - destruct (fine_or (snd (fA (inA r)))) as [K|[K|K]]; auto; exfalso.
            + assert (Q : Terminated = Status 0) by (apply FL; right; exists start, [], ls, s, r; split; [exact E2|]; split; [apply none_added|]; split; [exact H|]; right; split; [exact Hr|]; split; [exact I|]; split; [rewrite HnilA; intros []|]; left; split; [|reflexivity]; exact (eq_trans (one_line fA (inA r)) K)). discriminate.
            + assert (Q : Undefined = Status 0) by (apply FL; right; exists start, [], ls, s, r; split; [exact E2|]; split; [apply none_added|]; split; [exact H|]; right; split; [exact Hr|]; split; [exact I|]; split; [rewrite HnilA; intros []|]; right; split; [|reflexivity]; exact (eq_trans (one_line fA (inA r)) K)). discriminate. }
        intros [(-> & s & start0 & added & ls & lines & H2 & H3 & H4 & H5 & H6 & H8 & H9)|[H|H]].
        + left. split; [reflexivity|]. exists s. apply no_added' in H3. subst added. rewrite E2' in H2. injection H2 as <-.
          exists start, [], ls, lines. split; [exact E2|]. split; [apply none_added|].
          split; [apply (core_back Vertex_tag order fuel threads V V' maps start start' HV Hm Hs HR ls s H4)|]. split; [exact H5|].
          split; [apply (core_processed Vertex_tag order fuel threads V V' maps start start' HV Hm Hs HR ls s H4 H6)|].
          split; [apply (core_lines_back Vertex_tag order fuel threads V V' maps start start' fA fB HV Hm Hs raw_sim HR HL ls s lines H4 H8)|]. exact H9.
        + exfalso. unfold g_vad_stops in H. rewrite E2' in H. destruct H as (lines & q & K1 & K2 & _). apply K2.
          assert (G : Forall good (m_new_rows (outsA start))) by (destruct (Hout start start' Hs) as (_ & G0); rewrite Forall_forall in G0; apply Forall_forall; intros r Hr; apply G0; apply new_rows_all; exact Hr).
          assert (P : psim (for_all fA (insA (m_new_rows (outsA start)))) (for_all fB (insB (m_new_rows (outsB start'))))) by (rewrite <- (proj1 (Hout start start' Hs)); eapply psim_all; [exact raw_sim|apply good_rows; exact G]).
          unfold psim in P. rewrite NL in P. assert (K3 : snd (for_all fB (insB (m_new_rows (outsB start')))) = Ok tt) by (rewrite P; exact NL). assert (K4 : snd (for_all fB (insB (m_new_rows (outsB start')))) = q) by exact (f_equal snd K1). congruence.
        + exfalso. destruct H as [(start0 & k & _ & H & _)|(start0 & added & ls & s & r & H2 & H3 & H4 & H5)].
          * rewrite firstn_nil in H. cbn in H. discriminate.
          * apply no_added' in H3. subst added. rewrite E2' in H2. injection H2 as <-. destruct H5 as [(Hr & H5)|(Hr & _ & _ & H5)].
            -- destruct (core_rotation Vertex_tag order fuel threads V V' maps start start' HV Hm Hs HR ls s r H4 Hr) as (x & x' & _ & Ex & _). rewrite Ex in H5. destruct H5 as [(H5 & _)|(H5 & _)]; discriminate.
            -- assert (K := core_line Vertex_tag order fuel threads V V' maps start start' fA fB HV Hm Hs raw_sim HR HL ls s r H4 Hr). rewrite <- (one_line fB (inB r)) in K. destruct H5 as [(H5 & _)|(H5 & _)]; assert (Q := eq_trans (eq_sym K) H5); discriminate.
      - destruct P2 as ([start'|] & E2' & Hs); cbn [option_related] in Hs; [contradiction|].
        intros [(-> & s & start0 & added & ls & lines & H2 & _)|[H|H]]; exfalso.
        + rewrite E2' in H2. discriminate.
        + unfold g_vad_stops in H. rewrite E2' in H. exact H.
        + destruct H as [(start0 & k & H2 & _)|(start0 & added & ls & s & r & H2 & _)]; rewrite E2' in H2; discriminate.
    Qed.
  End Vertices.
End Calls.
