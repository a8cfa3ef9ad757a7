(** * Param: the algorithms do the same over two integer types whose operations correspond: whenever the run over the first returns, the run over the second returns a corresponding result. *)
From Coq Require Import List ZArith Arith Lia Bool.
From Verif Require Import Base Spec ListUtil ArithModel SafeIntModel BitsetModel MatrixModel FmeModel.
Import ListNotations.
Open Scope nat_scope.

(** If the first computation returns, the second returns, too, and the results are related. *)
Definition sim {X Y} (R : X -> Y -> Prop) (m : res X) (m' : res Y) : Prop := match m with Ok x => exists y, m' = Ok y /\ R x y | _ => True end.
Lemma sim_bind {X Y X' Y'} (R : X -> Y -> Prop) (Q : X' -> Y' -> Prop) m m' f f' : sim R m m' -> (forall x y, R x y -> sim Q (f x) (f' y)) -> sim Q (bind m f) (bind m' f').
Proof. intros H K. destruct m as [x| |]; cbn [bind sim] in *; auto. destruct H as (y & -> & H). cbn [bind]. apply K; auto. Qed.
Lemma sim_ok {X Y} (R : X -> Y -> Prop) x y : R x y -> sim R (Ok x) (Ok y).
Proof. intros H. exists y. auto. Qed.
Lemma sim_ub {X Y} (R : X -> Y -> Prop) m : sim R UB m.
Proof. exact I. Qed.
Lemma sim_throw {X Y} (R : X -> Y -> Prop) m : sim R Throw m.
Proof. exact I. Qed.
Lemma sim_impl {X Y} (R Q : X -> Y -> Prop) m m' : sim R m m' -> (forall x y, R x y -> Q x y) -> sim Q m m'.
Proof. destruct m as [x| |]; cbn [sim]; auto. intros (y & E & H) K. exists y. auto. Qed.
Lemma sim_same {X} (m : res X) : sim eq m m.
Proof. destruct m; cbn [sim]; auto. eauto. Qed.
Lemma sim_mapM {X Y X' Y'} (R : X -> Y -> Prop) (Q : X' -> Y' -> Prop) f f' l l' : (forall x y, R x y -> sim Q (f x) (f' y)) -> Forall2 R l l' -> sim (Forall2 Q) (mapM f l) (mapM f' l').
Proof.
  intros K. induction 1 as [|x y l l' H _ IH]; cbn [mapM]; [apply sim_ok; constructor|]. eapply sim_bind; [apply K; exact H|]. intros u v Huv. eapply sim_bind; [exact IH|]. intros us vs Hus. apply sim_ok. constructor; auto.
Qed.
Lemma sim_mapM_same {X X' Y'} (Q : X' -> Y' -> Prop) (f : X -> res X') f' l : (forall x, In x l -> sim Q (f x) (f' x)) -> sim (Forall2 Q) (mapM f l) (mapM f' l).
Proof.
  induction l as [|x l IH]; intros K; cbn [mapM]; [apply sim_ok; constructor|]. eapply sim_bind; [apply K; left; auto|]. intros u v Huv. eapply sim_bind; [apply IH; intros; apply K; right; auto|].
  intros us vs Hus. apply sim_ok. constructor; auto.
Qed.
Lemma sim_foldM {X Y S S'} (RX : X -> Y -> Prop) (R : S -> S' -> Prop) f f' l l' s s' : (forall t t' x y, R t t' -> RX x y -> sim R (f t x) (f' t' y)) -> Forall2 RX l l' -> R s s' -> sim R (foldM f s l) (foldM f' s' l').
Proof.
  intros K H. revert s s'. induction H as [|x y l l' H _ IH]; intros s s' Hs; cbn [foldM]; [apply sim_ok; auto|]. eapply sim_bind; [apply K; [exact Hs|exact H]|]. intros t t' Ht. apply IH; auto.
Qed.
Lemma forall2_eq {X} (l : list X) : Forall2 eq l l.
Proof. induction l; constructor; auto. Qed.
Lemma forall2_eq_inv {X} (l l' : list X) : Forall2 eq l l' -> l = l'.
Proof. induction 1; subst; auto. Qed.
Lemma sim_foldM_same {X S S'} (R : S -> S' -> Prop) (f : S -> X -> res S) f' l s s' : (forall t t' x, R t t' -> sim R (f t x) (f' t' x)) -> R s s' -> sim R (foldM f s l) (foldM f' s' l).
Proof. intros K Hs. apply (sim_foldM eq); auto using forall2_eq. intros t t' x y Ht <-. auto. Qed.

Lemma f2_length {X Y} (R : X -> Y -> Prop) l l' : Forall2 R l l' -> length l = length l'.
Proof. induction 1; cbn [length]; auto. Qed.
Lemma sim_get {X Y} (R : X -> Y -> Prop) l l' i : Forall2 R l l' -> sim R (get l i) (get l' i).
Proof.
  intros H. unfold get. revert i. induction H as [|x y l l' Hx _ IH]; intros [|i]; cbn [nth_error]; try apply sim_ub; [apply sim_ok; auto|apply IH].
Qed.
Lemma f2_upd {X Y} (R : X -> Y -> Prop) l l' i x y : Forall2 R l l' -> R x y -> Forall2 R (upd l i x) (upd l' i y).
Proof. intros H Hx. revert i. induction H as [|u v l l' Hu Hl IH]; intros [|i]; cbn [upd]; constructor; auto. Qed.
Lemma sim_set {X Y} (R : X -> Y -> Prop) l l' i x y : Forall2 R l l' -> R x y -> sim (Forall2 R) (set l i x) (set l' i y).
Proof. intros H Hx. unfold set. rewrite (f2_length R l l' H). destruct (i <? length l'); [|apply sim_ub]. apply sim_ok. apply f2_upd; auto. Qed.
Lemma f2_last {X Y} (R : X -> Y -> Prop) l l' a b : Forall2 R l l' -> R a b -> R (last l a) (last l' b).
Proof. intros H Hab. induction H as [|x y l l' Hx Hl IH]; cbn [last]; auto. destruct Hl; auto. Qed.
Lemma sim_back {X Y} (R : X -> Y -> Prop) l l' : Forall2 R l l' -> sim R (back l) (back l').
Proof. intros H. destruct H as [|x y l l' Hx Hl]; [apply sim_ub|]. apply sim_ok. apply f2_last; auto. Qed.
Lemma f2_app {X Y} (R : X -> Y -> Prop) a a' b b' : Forall2 R a a' -> Forall2 R b b' -> Forall2 R (a ++ b) (a' ++ b').
Proof. apply Forall2_app. Qed.
Lemma f2_erase {X Y} (R : X -> Y -> Prop) l l' i : Forall2 R l l' -> Forall2 R (erase i l) (erase i l').
Proof. intros H. revert i. induction H as [|x y l l' Hx Hl IH]; intros [|i]; cbn; auto. Qed.
Lemma sim_erase {X Y} (R : X -> Y -> Prop) l l' i : Forall2 R l l' -> sim (Forall2 R) (eraseM l i) (eraseM l' i).
Proof. intros H. unfold eraseM. rewrite (f2_length R l l' H). destruct (i <? length l'); [|apply sim_ub]. apply sim_ok. apply f2_erase; auto. Qed.
Lemma f2_insert {X Y} (R : X -> Y -> Prop) l l' i x y : Forall2 R l l' -> R x y -> Forall2 R (insert_at i x l) (insert_at i y l').
Proof. intros H Hx. revert i. induction H as [|u v l l' Hu Hl IH]; intros [|i]; cbn; auto. Qed.
Lemma sim_insert {X Y} (R : X -> Y -> Prop) l l' i x y : Forall2 R l l' -> R x y -> sim (Forall2 R) (insertM l i x) (insertM l' i y).
Proof. intros H Hx. unfold insertM. rewrite (f2_length R l l' H). destruct (i <=? length l'); [|apply sim_ub]. apply sim_ok. apply f2_insert; auto. Qed.
Lemma sim_for_each {X Y} (R : X -> Y -> Prop) f f' l l' : (forall x y, R x y -> sim R (f x) (f' y)) -> Forall2 R l l' -> sim (Forall2 R) (for_each f l) (for_each f' l').
Proof.
  intros K H. unfold for_each. rewrite (f2_length R l l' H). apply sim_foldM_same; auto. intros t t' j Ht. eapply sim_bind; [apply sim_get; exact Ht|]. intros x y Hx. eapply sim_bind; [apply K; exact Hx|].
  intros u v Hu. apply sim_set; auto.
Qed.
Lemma f2_skipn {X Y} (R : X -> Y -> Prop) l l' k : Forall2 R l l' -> Forall2 R (skipn k l) (skipn k l').
Proof. intros H. revert k. induction H as [|x y l l' Hx Hl IH]; intros [|k]; cbn [skipn]; auto. Qed.
Lemma f2_firstn {X Y} (R : X -> Y -> Prop) l l' k : Forall2 R l l' -> Forall2 R (firstn k l) (firstn k l').
Proof. intros H. revert k. induction H as [|x y l l' Hx Hl IH]; intros [|k]; cbn [firstn]; auto. Qed.
Lemma f2_rev {X Y} (R : X -> Y -> Prop) l l' : Forall2 R l l' -> Forall2 R (rev l) (rev l').
Proof. induction 1; cbn [rev]; auto. apply f2_app; auto. Qed.
Lemma f2_repeat {X Y} (R : X -> Y -> Prop) x y k : R x y -> Forall2 R (repeat x k) (repeat y k).
Proof. intros H. induction k; cbn [repeat]; auto. Qed.

(** Corresponding integer types. *)
Record corresponds (A B : Arith) := mk_corresponds {
  c_rel : num A -> num B -> Prop;
  c_nonneg : num A -> Prop;
  c_lit : forall z, fits 32 z = true -> c_rel (a_lit A z) (a_lit B z);
  c_neg : forall x y, c_rel x y -> sim c_rel (a_neg A x) (a_neg B y);
  c_add : forall x y x' y', c_rel x x' -> c_rel y y' -> sim c_rel (a_add A x y) (a_add B x' y');
  c_sub : forall x y x' y', c_rel x x' -> c_rel y y' -> sim c_rel (a_sub A x y) (a_sub B x' y');
  c_mul : forall x y x' y', c_rel x x' -> c_rel y y' -> sim c_rel (a_mul A x y) (a_mul B x' y');
  c_div : forall x y x' y', c_rel x x' -> c_rel y y' -> sim c_rel (a_div A x y) (a_div B x' y');
  c_mod : forall x y x' y', c_rel x x' -> c_rel y y' -> c_nonneg x -> c_nonneg y -> sim (fun r r' => c_rel r r' /\ c_nonneg r) (a_mod A x y) (a_mod B x' y');
  c_abs : forall x y, c_rel x y -> sim (fun r r' => c_rel r r' /\ c_nonneg r) (a_abs A x) (a_abs B y);
  c_gt : forall x y x' y', c_rel x x' -> c_rel y y' -> a_gt A x y = a_gt B x' y';
  c_eqi : forall x y z, c_rel x y -> z = 0%Z \/ z = 1%Z \/ z = (-1)%Z -> a_eqi A x z = a_eqi B y z;
  c_lti : forall x y, c_rel x y -> a_lti A x 0 = a_lti B y 0;
  c_gti : forall x y, c_rel x y -> a_gti A x 1 = a_gti B y 1;
  c_lei : forall x y, c_rel x y -> a_lei A x 0 = a_lei B y 0;
  c_size : forall x y, c_rel x y -> a_size A x <= a_size B y
}.
Arguments c_rel {A B}.
Arguments c_nonneg {A B}.

Section Two.
  Variables (A B : Arith) (C : corresponds A B).
  Notation R := (c_rel C).
  Notation Rr := (Forall2 (c_rel C)).
  Notation Rm := (Forall2 (Forall2 (c_rel C))).
  Hint Resolve (c_neg A B C) (c_add A B C) (c_sub A B C) (c_mul A B C) (c_div A B C) : sim.
  Hint Resolve sim_ok sim_ub sim_throw sim_get sim_set sim_back sim_erase sim_insert : sim.
  Ltac bind := eapply sim_bind; [eauto with sim|intros].
  Ltac same := match goal with |- sim _ (if ?b then _ else _) (if ?b then _ else _) => destruct b end.

  Lemma p_lit z : fits 32 z = true -> R (a_lit A z) (a_lit B z).
  Proof. apply c_lit. Qed.
  Lemma p_unsigned_gcd k : forall k' a b a' b', k <= k' -> R a a' -> R b b' -> c_nonneg C a -> c_nonneg C b -> sim R (m_unsigned_gcd A k a b) (m_unsigned_gcd B k' a' b').
  Proof.
    induction k as [|k IH]; intros k' a b a' b' Hk Ha Hb Na Nb; [apply sim_ub|]. destruct k' as [|k']; [lia|]. cbn [m_unsigned_gcd].
    rewrite <- (c_eqi A B C a a' 0 Ha), <- (c_eqi A B C b b' 0 Hb), <- (c_gt A B C a b a' b' Ha Hb) by auto.
    destruct (negb (a_eqi A a 0) && negb (a_eqi A b 0)).
    - destruct (a_gt A a b).
      + eapply sim_bind; [apply (c_mod A B C a b a' b'); auto|]. intros x y (Hx & Nx). apply IH; auto. lia.
      + eapply sim_bind; [apply (c_mod A B C b a b' a'); auto|]. intros x y (Hx & Nx). apply IH; auto. lia.
    - apply sim_ok. destruct (a_eqi A a 0); auto.
  Qed.
  Lemma p_abs x y : R x y -> sim R (a_abs A x) (a_abs B y).
  Proof. intros H. eapply sim_impl; [apply (c_abs A B C); exact H|]. cbn. tauto. Qed.
  Lemma p_gcd a b a' b' : R a a' -> R b b' -> sim R (m_gcd A a b) (m_gcd B a' b').
  Proof.
    intros Ha Hb. unfold m_gcd. eapply sim_bind; [apply (c_abs A B C); exact Ha|]. intros x y (Hx & Nx). eapply sim_bind; [apply (c_abs A B C); exact Hb|]. intros u v (Hu & Nu).
    apply p_unsigned_gcd; auto. assert (S1 := c_size A B C x y Hx). assert (S2 := c_size A B C u v Hu). lia.
  Qed.
  Hint Resolve p_abs p_gcd : sim.
  Lemma p_zip f g : (forall x y x' y', R x x' -> R y y' -> sim R (f x y) (g x' y')) -> forall a a' b b', Rr a a' -> Rr b b' -> sim Rr (zipM A f a b) (zipM B g a' b').
  Proof.
    intros K a a' b b' H. revert b b'. induction H as [|x y a a' Hx _ IH]; intros b b' Hb; cbn [zipM]; [apply sim_ok; constructor|]. destruct Hb as [|u v b b' Hu Hb]; [apply sim_ub|].
    eapply sim_bind; [apply K; auto|]. intros r r' Hr. eapply sim_bind; [apply IH; exact Hb|]. intros l l' Hl. apply sim_ok. constructor; auto.
  Qed.
  Lemma p_row_add a a' b b' : Rr a a' -> Rr b b' -> sim Rr (m_row_add A a b) (m_row_add B a' b').
  Proof. apply p_zip. eauto with sim. Qed.
  Lemma p_row_sub a a' b b' : Rr a a' -> Rr b b' -> sim Rr (m_row_sub A a b) (m_row_sub B a' b').
  Proof. apply p_zip. eauto with sim. Qed.
  Lemma p_row_mul a a' f f' : Rr a a' -> R f f' -> sim Rr (m_row_mul A a f) (m_row_mul B a' f').
  Proof.
    intros Ha Hf. unfold m_row_mul. rewrite <- (c_eqi A B C f f' 1 Hf) by auto. same; [apply sim_ok; auto|]. eapply sim_mapM; [|exact Ha]. intros x y Hx. cbv beta. eauto with sim.
  Qed.
  Lemma p_row_div a a' f f' : Rr a a' -> R f f' -> sim Rr (m_row_div A a f) (m_row_div B a' f').
  Proof.
    intros Ha Hf. unfold m_row_div. rewrite <- (c_eqi A B C f f' 0 Hf), <- (c_eqi A B C f f' 1 Hf) by auto. same; [apply sim_throw|]. same; [apply sim_ok; auto|].
    eapply sim_mapM; [|exact Ha]. intros x y Hx. cbv beta. eauto with sim.
  Qed.
  Lemma p_inner a a' b b' acc acc' : Rr a a' -> Rr b b' -> R acc acc' -> sim R (m_inner A acc a b) (m_inner B acc' a' b').
  Proof.
    intros H. revert b b' acc acc'. induction H as [|x y a a' Hx _ IH]; intros b b' acc acc' Hb Hacc; cbn [m_inner]; [apply sim_ok; auto|]. destruct Hb as [|u v b b' Hu Hb]; [apply sim_ub|].
    bind. bind. apply IH; auto.
  Qed.
  Lemma p_dot a a' b b' : Rr a a' -> Rr b b' -> sim R (m_dot A a b) (m_dot B a' b').
  Proof. intros. apply p_inner; auto. apply p_lit. reflexivity. Qed.
  Lemma p_gcd_rest r r' v v' : Rr r r' -> R v v' -> sim R (m_gcd_rest A v r) (m_gcd_rest B v' r').
  Proof.
    intros H. revert v v'. induction H as [|x y r r' Hx _ IH]; intros v v' Hv; cbn [m_gcd_rest]; [apply sim_ok; auto|]. rewrite <- (c_gti A B C v v' Hv). same; [|apply sim_ok; auto]. bind. apply IH; auto.
  Qed.
  Lemma p_row_gcd r r' : Rr r r' -> sim R (m_row_gcd A r) (m_row_gcd B r').
  Proof.
    induction 1 as [|x y r r' Hx Hr IH]; cbn [m_row_gcd]; [apply sim_ok, p_lit; reflexivity|]. rewrite <- (c_eqi A B C x y 0 Hx) by auto. same; [exact IH|]. bind. apply p_gcd_rest; auto.
  Qed.
  Lemma p_row_reduce r r' : Rr r r' -> sim Rr (m_row_reduce A r) (m_row_reduce B r').
  Proof.
    intros H. unfold m_row_reduce. eapply sim_bind; [apply p_row_gcd; exact H|]. intros g g' Hg. rewrite <- (c_gti A B C g g' Hg). same; [|apply sim_ok; auto]. apply p_row_div; auto.
  Qed.
  Lemma p_first_nonzero r r' : Rr r r' -> m_first_nonzero A r = m_first_nonzero B r'.
  Proof. induction 1 as [|x y r r' Hx _ IH]; cbn [m_first_nonzero]; [reflexivity|]. rewrite <- (c_eqi A B C x y 0 Hx), IH by auto. reflexivity. Qed.
  Hint Resolve p_row_add p_row_sub p_row_mul p_row_div p_dot p_row_gcd p_row_reduce : sim.
  Lemma p_normalize r r' E E' : Rr r r' -> Rm E E' -> sim Rr (m_normalize A r E) (m_normalize B r' E').
  Proof.
    intros Hr HE. unfold m_normalize. eapply sim_bind; [|intros; eauto with sim]. eapply sim_foldM; [|exact HE|exact Hr]. clear. intros r r' e e' Hr He. unfold m_normalize_step.
    rewrite <- (p_first_nonzero e e' He). bind. rewrite <- (c_eqi A B C x y 0 H) by auto. same; [|apply sim_ok; auto]. bind. bind. bind. eauto with sim.
  Qed.

  (** ** Matrices *)
  Lemma p_at M M' i j : Rm M M' -> sim R (m_at A M i j) (m_at B M' i j).
  Proof. intros H. unfold m_at. eapply sim_bind; [apply sim_get; exact H|]. intros r r' Hr. apply sim_get; auto. Qed.
  Hint Resolve p_at : sim.
  Lemma p_mat_vec M M' v v' : Rm M M' -> Rr v v' -> sim Rr (m_mat_vec A M v) (m_mat_vec B M' v').
  Proof. intros H Hv. unfold m_mat_vec. eapply sim_mapM; [|exact H]. intros. cbv beta. eauto with sim. Qed.
  Lemma p_transpose M M' : Rm M M' -> sim Rm (m_transpose A M) (m_transpose B M').
  Proof.
    intros H. unfold m_transpose. eapply sim_bind; [apply sim_back; exact H|]. intros b b' Hb. rewrite <- (f2_length _ _ _ Hb), <- (f2_length _ _ _ H).
    apply sim_mapM_same. intros i _. apply sim_mapM_same. intros j _. eauto with sim.
  Qed.
  Lemma p_append M M' : Rm M M' -> sim Rm (m_append_negative_identity A M) (m_append_negative_identity B M').
  Proof.
    intros H. unfold m_append_negative_identity. eapply sim_bind; [apply sim_back; exact H|]. intros b b' Hb. rewrite <- (f2_length _ _ _ Hb). eapply sim_bind.
    - apply sim_mapM_same. intros i _. apply sim_set; [apply f2_repeat|]; apply p_lit; reflexivity.
    - intros l l' Hl. apply sim_ok. apply f2_app; auto.
  Qed.
  Lemma p_normalize_column M M' c : Rm M M' -> sim Rm (m_normalize_column A M c) (m_normalize_column B M' c).
  Proof.
    intros H. unfold m_normalize_column. rewrite <- (f2_length _ _ _ H). eapply sim_bind.
    - apply (sim_foldM_same R); [|apply p_lit; reflexivity]. intros t t' j Ht. bind. eauto with sim.
    - intros g g' Hg. rewrite <- (c_gti A B C g g' Hg). same; [|apply sim_ok; auto]. eapply sim_for_each; [|exact H]. intros r r' Hr. bind. bind. eauto with sim.
  Qed.
  Lemma p_eliminate_column M M' r c e : Rm M M' -> sim Rm (m_eliminate_column A M r c e) (m_eliminate_column B M' r c e).
  Proof.
    intros H. unfold m_eliminate_column. bind. bind. bind. eapply sim_for_each; [|exact H]. intros u v Hu. bind. bind. bind. bind. bind. bind. bind. eauto with sim.
  Qed.
  Lemma p_eliminate_columns M M' r c : Rm M M' -> sim Rm (m_eliminate_columns A M r c) (m_eliminate_columns B M' r c).
  Proof.
    intros H. unfold m_eliminate_columns. eapply sim_bind; [apply sim_back; exact H|]. intros b b' Hb. rewrite <- (f2_length _ _ _ Hb). apply sim_foldM_same; [|exact H]. intros t t' i Ht.
    eapply sim_bind; [apply p_at; exact Ht|]. intros x y Hx. rewrite <- (c_eqi A B C x y 0 Hx) by auto. same; [|apply sim_ok; auto]. eapply sim_bind; [apply p_eliminate_column; exact Ht|]. intros. apply p_normalize_column; auto.
  Qed.
  Lemma p_pivot_col M M' r used cols : Rm M M' -> sim eq (m_pivot_col A M r used cols) (m_pivot_col B M' r used cols).
  Proof.
    intros H. induction cols as [|c cols IH]; cbn [m_pivot_col]; [apply sim_ok; auto|]. eapply sim_bind; [apply p_at; exact H|]. intros x y Hx. rewrite <- (c_eqi A B C x y 0 Hx) by auto. same; [apply sim_ok; auto|exact IH].
  Qed.
  Lemma p_pivot_rows M M' used k rows : Rm M M' -> sim eq (m_pivot_rows A M used k rows) (m_pivot_rows B M' used k rows).
  Proof.
    intros H. induction rows as [|r rows IH]; cbn [m_pivot_rows]; [rewrite (f2_length _ _ _ H); apply sim_ok; auto|]. eapply sim_bind; [apply p_pivot_col; exact H|]. intros c c' <-. destruct c; [apply sim_ok; auto|exact IH].
  Qed.
  Lemma p_pivot M M' i used : Rm M M' -> sim eq (m_pivot A M i used) (m_pivot B M' i used).
  Proof.
    intros H. unfold m_pivot. eapply sim_bind; [apply sim_back; exact H|]. intros b b' Hb. rewrite <- (f2_length _ _ _ Hb), <- (f2_length _ _ _ H). eapply sim_bind; [apply p_pivot_rows; exact H|]. intros p p' <-. apply sim_ok; auto.
  Qed.
  (** Results with a matrix first. *)
  Definition first_related {X} (p : list (list (num A)) * X) (q : list (list (num B)) * X) : Prop := Rm (fst p) (fst q) /\ snd p = snd q.
  Definition outer_related {X Y} (p : list (list (num A)) * X * Y) (q : list (list (num B)) * X * Y) : Prop := first_related (fst p) (fst q) /\ snd p = snd q.
  Lemma p_gauss_loop k t : forall row M M' used L Tr, Rm M M' -> sim outer_related (m_gauss_loop A k t row M used L Tr) (m_gauss_loop B k t row M' used L Tr).
  Proof.
    induction k as [|k IH]; intros row M M' used L Tr H; cbn [m_gauss_loop]; [apply sim_ok; repeat split; auto|]. rewrite <- (f2_length _ _ _ H). same; [|apply sim_ok; repeat split; auto].
    eapply sim_bind; [apply p_pivot; exact H|]. intros q q' <-. destruct q as [[prow col] used']. same; [apply sim_ok; repeat split; auto|]. eapply sim_bind; [apply p_eliminate_columns; exact H|]. intros N N' HN.
    same; apply IH; auto.
  Qed.
  Lemma p_find_nonzero M M' c : Rm M M' -> sim Rr (m_find_nonzero A M c) (m_find_nonzero B M' c).
  Proof.
    induction 1 as [|r r' M M' Hr _ IH]; cbn [m_find_nonzero]; [apply sim_ub|]. bind. rewrite <- (c_eqi A B C x y 0 H) by auto. same; [apply sim_ok; auto|exact IH].
  Qed.
  Lemma p_sign_column M M' c : Rm M M' -> sim Rm (m_sign_column A M c) (m_sign_column B M' c).
  Proof.
    intros H. unfold m_sign_column. eapply sim_bind; [apply p_find_nonzero; exact H|]. intros p p' Hp. bind. rewrite <- (c_lti A B C x y) by auto. same; [|apply sim_ok; auto]. eapply sim_for_each; [|exact H].
    intros r r' Hr. bind. eapply sim_bind; [apply (c_mul A B C); [eassumption|apply p_lit; reflexivity]|]. intros. apply sim_set; auto.
  Qed.
  Lemma p_gauss M M' : Rm M M' -> sim outer_related (m_gaussian_elimination A M) (m_gaussian_elimination B M').
  Proof.
    intros H. unfold m_gaussian_elimination. eapply sim_bind; [apply sim_back; exact H|]. intros b b' Hb. rewrite <- (f2_length _ _ _ Hb), <- (f2_length _ _ _ H). same; [apply sim_ub|].
    eapply sim_bind; [apply p_gauss_loop; exact H|]. intros [[N L] Tr] [[N' L'] Tr'] ((HN & HL) & HT). cbn [fst snd] in *. subst. eapply sim_bind; [apply (sim_foldM_same Rm); [|exact HN]; intros; apply p_sign_column; auto|].
    intros. apply sim_ok. repeat split; auto.
  Qed.
  Lemma p_swap M M' i j : Rm M M' -> sim Rm (swapM M i j) (swapM M' i j).
  Proof.
    intros H. unfold swapM. eapply sim_bind; [apply sim_get; exact H|]. intros. eapply sim_bind; [apply sim_get; exact H|]. intros. eapply sim_bind; [apply sim_set; [exact H|eassumption]|]. intros. apply sim_set; auto.
  Qed.
  Lemma p_extract_at M M' idx : Rm M M' -> sim (fun p q => Rm (fst p) (fst q) /\ Rm (snd p) (snd q)) (m_extract_equations_at A M idx) (m_extract_equations_at B M' idx).
  Proof.
    intros H. unfold m_extract_equations_at. eapply sim_bind.
    - apply (sim_foldM_same Rm); [|exact H]. intros t t' i Ht. eapply sim_bind; [apply sim_same|]. intros k k' <-. rewrite (f2_length _ _ _ Ht). same; [apply sim_ub|]. apply p_swap; auto.
    - intros N N' HN. rewrite <- (f2_length _ _ _ HN). same; [apply sim_ub|]. apply sim_ok. split; cbn [fst snd]; [apply f2_firstn, f2_rev; auto|apply f2_firstn; auto].
  Qed.
  Lemma p_extract M M' : Rm M M' -> sim Rm (m_extract_equations A M) (m_extract_equations B M').
  Proof.
    intros H. unfold m_extract_equations. eapply sim_bind; [apply p_append; exact H|]. intros S1 S2 HS. eapply sim_bind; [apply p_gauss; exact HS|].
    intros [[N L] Tr] [[N' L'] Tr'] ((HN & HL) & HT). cbn [fst snd] in *. subst. rewrite <- (f2_length _ _ _ H). eapply sim_bind; [apply p_transpose; apply f2_skipn; exact HN|]. intros T1 T2 HTT.
    eapply sim_bind; [apply p_extract_at; exact HTT|]. intros p q (Hp & _). apply sim_ok; auto.
  Qed.

  (** ** Elimination *)
  Variable order : list nat -> list nat.
  Lemma p_all {X Y} (RX : X -> Y -> Prop) f f' l l' : (forall x y, RX x y -> sim eq (f x) (f' y)) -> Forall2 RX l l' -> sim eq (allM f l) (allM f' l').
  Proof. intros K. induction 1 as [|x y l l' H _ IH]; cbn [allM]; [apply sim_ok; auto|]. eapply sim_bind; [apply K; exact H|]. intros b b' <-. destruct b; [exact IH|apply sim_ok; auto]. Qed.
  Definition pair_related {X} (p : list (list (num A)) * list (list (num A)) * X) (q : list (list (num B)) * list (list (num B)) * X) : Prop :=
    Rm (fst (fst p)) (fst (fst q)) /\ Rm (snd (fst p)) (snd (fst q)) /\ snd p = snd q.
  Lemma p_zero_columns M M' V V' : Rm M M' -> Rm V V' -> sim pair_related (m_eliminate_zero_columns A M V) (m_eliminate_zero_columns B M' V').
  Proof.
    intros H HV. unfold m_eliminate_zero_columns. eapply sim_bind; [apply sim_back; exact H|]. intros b b' Hb. rewrite <- (f2_length _ _ _ Hb). apply sim_foldM_same; [|repeat split; auto].
    intros [[M1 V1] z1] [[M2 V2] z2] col (H1 & H2 & H3). cbn [fst snd] in *. subst z2. unfold m_zero_column_step. eapply sim_bind.
    - eapply p_all; [|exact H1]. intros r r' Hr. bind. rewrite <- (c_eqi A B C x y 0) by auto. apply sim_ok; auto.
    - intros z z' <-. same; [|apply sim_ok; repeat split; auto]. eapply sim_bind; [eapply sim_mapM; [|exact H1]; intros; apply sim_erase; eassumption|]. intros. eapply sim_bind; [eapply sim_mapM; [|exact H2]; intros; apply sim_erase; eassumption|].
      intros. apply sim_ok. repeat split; auto.
  Qed.
  Lemma p_reinsert M M' zc : Rm M M' -> sim Rm (m_reinsert_zero_columns A M zc) (m_reinsert_zero_columns B M' zc).
  Proof. intros H. unfold m_reinsert_zero_columns. apply sim_foldM_same; [|exact H]. intros t t' c Ht. eapply sim_mapM; [|exact Ht]. intros. apply sim_insert; auto. apply p_lit. reflexivity. Qed.
  Lemma p_take_used V V' used : Rm V V' -> sim Rm (m_take_used A V used) (m_take_used B V' used).
  Proof.
    intros H. unfold m_take_used. eapply sim_bind.
    - apply (sim_foldM_same (fun p q => Rm (fst p) (fst q) /\ Rm (snd p) (snd q))); [|split; [constructor|exact H]]. intros [a b] [a' b'] i (H1 & H2). cbn [fst snd] in *.
      eapply sim_bind; [apply sim_get; exact H2|]. intros. eapply sim_bind; [apply sim_erase; exact H2|]. intros. apply sim_ok. split; cbn [fst snd]; auto. apply f2_app; auto.
    - intros p q (H1 & H2). apply sim_ok. apply f2_app; auto.
  Qed.
  Lemma p_initialize M M' V V' e : Rm M M' -> Rm V V' -> sim eq (m_initialize_R A M V e) (m_initialize_R B M' V' e).
  Proof.
    intros H HV. unfold m_initialize_R. eapply sim_impl; [eapply (sim_mapM Rr eq); [|exact H]|intros; apply forall2_eq_inv; auto]. intros r r' Hr. rewrite (f2_length _ _ _ H).
    apply (sim_foldM_same eq); auto. intros t t' j <-. eapply sim_bind; [apply sim_get; exact HV|]. intros. eapply sim_bind; [apply p_dot; eassumption|]. intros s s' Hs. rewrite <- (c_lti A B C s s') by auto. same; apply sim_same.
  Qed.
  Lemma p_nth_error r r' j : Rr r r' -> (exists x y, nth_error r j = Some x /\ nth_error r' j = Some y /\ R x y) \/ (nth_error r j = None /\ nth_error r' j = None).
  Proof. intros H. revert j. induction H as [|x y r r' Hx _ IH]; intros [|j]; cbn [nth_error]; auto. left. eauto. Qed.
  Lemma p_indices s s' : Rr s s' -> m_indices_neg A s = m_indices_neg B s' /\ m_indices_zero A s = m_indices_zero B s' /\ m_indices_pos A s = m_indices_pos B s'.
  Proof.
    intros H. unfold m_indices_neg, m_indices_zero, m_indices_pos. rewrite (f2_length _ _ _ H).
    split; [|split]; apply filter_ext; intros j; destruct (p_nth_error s s' j H) as [(x & y & -> & -> & Hx)|(-> & ->)]; auto; rewrite ?(c_lti A B C x y Hx), ?(c_eqi A B C x y 0 Hx) by auto; reflexivity.
  Qed.
  Lemma p_combine M M' s s' q : Rm M M' -> Rr s s' -> sim Rr (m_combine A M s q) (m_combine B M' s' q).
  Proof.
    intros H Hs. destruct q as [[a b] w]. unfold m_combine. eapply sim_bind; [apply sim_get; exact Hs|]. intros. eapply sim_bind; [apply sim_get; exact H|]. intros. eapply sim_bind; [apply sim_get; exact Hs|]. intros.
    eapply sim_bind; [apply sim_get; exact H|]. intros. bind. bind. bind. eauto with sim.
  Qed.
  Lemma p_update M M' Rw i negs zeros s s' pnrs : Rm M M' -> Rr s s' -> sim first_related (m_update_system A M Rw i negs zeros s pnrs) (m_update_system B M' Rw i negs zeros s' pnrs).
  Proof.
    intros H Hs. unfold m_update_system. eapply sim_bind; [apply sim_mapM_same; intros; apply sim_get; exact H|]. intros. eapply sim_bind; [apply sim_same|]. intros ? ? <-.
    eapply sim_bind; [apply sim_mapM_same; intros; apply sim_get; exact H|]. intros. eapply sim_bind; [apply sim_same|]. intros ? ? <-.
    eapply sim_bind; [apply sim_mapM_same; intros; apply p_combine; eassumption|]. intros. apply sim_ok. split; cbn [fst snd]; auto. repeat apply f2_app; auto.
  Qed.
  Lemma p_projection M M' Rw v v' i : Rm M M' -> Rr v v' -> sim first_related (m_projection A order M Rw v i) (m_projection B order M' Rw v' i).
  Proof.
    intros H Hv. unfold m_projection. rewrite <- (f2_length _ _ _ Hv). eapply sim_bind; [apply p_mat_vec; eassumption|]. intros s s' Hs. destruct (p_indices s s' Hs) as (<- & <- & <-).
    eapply sim_bind; [apply sim_same|]. intros z z' <-. eapply sim_bind; [apply sim_same|]. intros p p' <-. apply p_update; auto.
  Qed.
  Lemma p_forallb r r' k : Rr r r' -> forallb (fun x => a_eqi A x 0) (firstn k r) = forallb (fun x => a_eqi B x 0) (firstn k r').
  Proof. intros H. revert k. induction H as [|x y r r' Hx _ IH]; intros [|k]; cbn [firstn forallb]; auto. rewrite <- (c_eqi A B C x y 0 Hx), IH by auto. reflexivity. Qed.
  Lemma p_bad_row r r' : Rr r r' -> sim eq (m_bad_row A r) (m_bad_row B r').
  Proof.
    intros H. unfold m_bad_row. rewrite <- (f2_length _ _ _ H), <- (p_forallb r r' _ H). same; [|apply sim_ok; auto]. eapply sim_bind; [apply sim_back; exact H|]. intros x y Hx. rewrite <- (c_eqi A B C x y (-1)) by auto. apply sim_ok; auto.
  Qed.
  Lemma p_detect M M' : Rm M M' -> sim Rm (m_detect_bad_row A M) (m_detect_bad_row B M').
  Proof.
    assert (K : forall k M M', length M <= k -> Rm M M' -> sim Rm (m_detect_bad_row A M) (m_detect_bad_row B M')).
    { induction k as [|k IH]; intros N N' Hk H; destruct H as [|r r' N N' Hr HN]; cbn [length] in Hk; try lia; try (cbn [m_detect_bad_row]; apply sim_ok; constructor).
      cbn [m_detect_bad_row]. eapply sim_bind; [apply p_bad_row; exact Hr|]. intros b b' <-. destruct b.
      - destruct HN as [|u v N N' Hu HN]; [apply sim_ok; constructor|]. cbn [length] in Hk. eapply sim_bind; [apply IH; [lia|exact HN]|]. intros. apply sim_ok. constructor; auto.
      - eapply sim_bind; [apply IH; [lia|exact HN]|]. intros. apply sim_ok. constructor; auto. }
    intros H. apply (K (length M)); auto.
  Qed.
  Lemma p_phase_two M M' V V' e : Rm M M' -> Rm V V' -> sim Rm (m_phase_two A order M V e) (m_phase_two B order M' V' e).
  Proof.
    intros H HV. unfold m_phase_two. eapply sim_bind; [apply sim_back; exact H|]. intros b b' Hb. rewrite <- (f2_length _ _ _ Hb), <- (f2_length _ _ _ HV). eapply sim_bind; [apply p_initialize; eassumption|]. intros Rw Rw' <-.
    apply (sim_bind first_related); [|intros p q (Hp & _); apply p_detect; exact Hp]. apply (sim_foldM_same first_related); [|split; auto]. intros [N w] [N' w'] i (HN & E). cbn [fst snd] in *. subst w'.
    eapply sim_bind; [apply sim_get; exact HV|]. intros. apply p_projection; auto.
  Qed.
  Lemma p_dispatch M M' V V' : Rm M M' -> Rm V V' -> sim Rm (m_phase_two_dispatch A order M V) (m_phase_two_dispatch B order M' V').
  Proof.
    intros H HV. unfold m_phase_two_dispatch. rewrite <- (f2_length _ _ _ HV). eapply sim_bind; [apply sim_same|]. intros k k' <-. destruct (find _ _); [apply p_phase_two; auto|]. eapply sim_bind; [apply sim_same|]. intros e e' <-. apply p_phase_two; auto.
  Qed.
  Lemma p_facets M M' V V' k : Rm M M' -> Rm V V' -> sim Rm (m_extract_facets A M V k) (m_extract_facets B M' V' k).
  Proof.
    intros H HV. unfold m_extract_facets. eapply sim_bind.
    - apply (sim_mapM Rr (fun p q => Rr (fst p) (fst q) /\ snd p = snd q)); [|exact H]. intros r r' Hr. eapply sim_bind.
      + eapply p_all; [|apply f2_skipn; exact HV]. intros v v' Hv. eapply sim_bind; [apply p_dot; eassumption|]. intros s s' Hs. rewrite <- (c_lei A B C s s' Hs). apply sim_ok; auto.
      + intros b b' <-. apply sim_ok. split; auto.
    - intros l l' Hl. apply sim_ok. induction Hl as [|p q l l' Hpq _ IH]; cbn [filter map]; [constructor|]. destruct Hpq as (H1 & H2). rewrite <- H2. destruct (snd p); cbn [map]; auto.
  Qed.
  Lemma p_heuristic_loop V V' is : Rm V V' -> forall M M' Rw, Rm M M' -> sim Rm (m_heuristic_loop A order M V Rw is) (m_heuristic_loop B order M' V' Rw is).
  Proof.
    intros HV. induction is as [|i is IH]; intros M M' Rw H; cbn [m_heuristic_loop]; [apply sim_ok; auto|]. eapply sim_bind; [apply p_facets; eassumption|]. intros. eapply sim_bind; [apply p_detect; eassumption|].
    intros f f' Hf. destruct Hf as [|u v f f' Hu Hf]; [|apply sim_ok; constructor; auto]. eapply sim_bind; [apply sim_get; exact HV|]. intros. eapply sim_bind; [apply p_projection; eassumption|].
    intros [N w] [N' w'] (HN & E). cbn [fst snd] in *. subst w'. apply IH; auto.
  Qed.
  Lemma p_heuristic M M' V V' : Rm M M' -> Rm V V' -> sim Rm (m_phase_two_heuristic A order M V) (m_phase_two_heuristic B order M' V').
  Proof.
    intros H HV. unfold m_phase_two_heuristic. rewrite <- (f2_length _ _ _ HV), <- (f2_length _ _ _ H). eapply sim_bind; [apply sim_same|]. intros e e' <-. eapply sim_bind; [apply p_initialize; eassumption|]. intros Rw Rw' <-.
    apply p_heuristic_loop; auto.
  Qed.
  Lemma p_prepare V V' : Rm V V' -> sim pair_related (m_prepare A V) (m_prepare B V').
  Proof.
    intros H. unfold m_prepare. eapply sim_bind; [apply p_append; exact H|]. intros S1 S2 HS. eapply sim_bind; [apply p_gauss; exact HS|].
    intros [[N L] Tr] [[N' L'] Tr'] ((HN & HL) & HT). cbn [fst snd] in *. subst. rewrite <- (f2_length _ _ _ H). eapply sim_bind; [apply p_transpose; apply f2_skipn; exact HN|]. intros T1 T2 HTT.
    eapply sim_bind; [apply p_extract_at; exact HTT|]. intros p q (_ & Hq). eapply sim_bind; [apply p_zero_columns; eassumption|]. intros [[M1 V1] z1] [[M2 V2] z2] (H1 & H2 & H3). cbn [fst snd] in *. subst z2.
    eapply sim_bind; [apply p_take_used; exact H2|]. intros. apply sim_ok. repeat split; auto.
  Qed.
  Theorem p_fme V V' : Rm V V' -> sim Rm (m_fme A order V) (m_fme B order V').
  Proof.
    intros H. unfold m_fme. eapply sim_bind; [apply p_prepare; exact H|]. intros [[M1 V1] z1] [[M2 V2] z2] (H1 & H2 & H3). cbn [fst snd] in *. subst z2. eapply sim_bind; [apply p_dispatch; eassumption|]. intros. apply p_reinsert; auto.
  Qed.
  Theorem p_fme_heuristic V V' : Rm V V' -> sim Rm (m_fme_heuristic A order V) (m_fme_heuristic B order V').
  Proof.
    intros H. unfold m_fme_heuristic. eapply sim_bind; [apply p_prepare; exact H|]. intros [[M1 V1] z1] [[M2 V2] z2] (H1 & H2 & H3). cbn [fst snd] in *. subst z2. eapply sim_bind; [apply p_heuristic; eassumption|]. intros. apply p_reinsert; auto.
  Qed.
End Two.
