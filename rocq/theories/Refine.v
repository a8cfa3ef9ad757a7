(** * Refine: relating computations over an integer type to exact integer computations. *)
From Coq Require Import List ZArith Arith Lia Bool.
From Verif Require Import Base Spec LinAlg ListUtil FmeCore ArithModel SafeIntModel.
Import ListNotations.
Open Scope Z_scope.

Section Rel.
  (** Which failures are tolerated. *)
  Variables (allowT allowU : bool).

  Definition rel {X Y} (R : X -> Y -> Prop) (m : res X) (y : Y) : Prop :=
    match m with
    | Ok x => R x y
    | Throw => allowT = true
    | UB => allowU = true
    end.

  Lemma rel_bind {X X' Y Y'} (R : X -> Y -> Prop) (Q : X' -> Y' -> Prop) m f y z :
    rel R m y -> (forall x, R x y -> rel Q (f x) z) -> rel Q (bind m f) z.
  Proof. destruct m as [x| |]; cbn [rel bind]; auto. Qed.

  Lemma rel_impl {X Y} (R Q : X -> Y -> Prop) m y : rel R m y -> (forall x, R x y -> Q x y) -> rel Q m y.
  Proof. destruct m as [x| |]; cbn [rel]; auto. Qed.

  Lemma rel_eq {X Y} (R : X -> Y -> Prop) m y y' : rel R m y -> y = y' -> rel R m y'.
  Proof. intros H <-. exact H. Qed.

  Lemma rel_mapM {X Y X' Y'} (Q : X' -> Y' -> Prop) (f : X -> res X') (g : Y -> Y') l l' :
    Forall2 (fun x y => rel Q (f x) (g y)) l l' -> rel (Forall2 Q) (mapM f l) (map g l').
  Proof.
    induction 1 as [|x y l l' H _ IH]; cbn [mapM map]; [constructor|].
    apply (rel_bind Q _ _ _ (g y)); auto. intros u Hu.
    apply (rel_bind (Forall2 Q) _ _ _ (map g l')); auto. intros us Hus. constructor; auto.
  Qed.

  Lemma rel_foldM {X Y S S'} (R : S -> S' -> Prop) (f : S -> X -> res S) (g : S' -> Y -> S') l l' s s' :
    Forall2 (fun x y => forall t t', R t t' -> rel R (f t x) (g t' y)) l l' -> R s s' ->
    rel R (foldM f s l) (fold_left g l' s').
  Proof.
    intros H. revert s s'. induction H as [|x y l l' H _ IH]; intros s s' Hs; cbn [foldM fold_left]; [exact Hs|].
    apply (rel_bind R _ _ _ (g s' y)); auto.
  Qed.

  Lemma Forall2_same {X} (P : X -> X -> Prop) l : (forall x, In x l -> P x x) -> Forall2 P l l.
  Proof. induction l as [|x l IH]; intros H; constructor; [apply H; left; auto|apply IH; intros; apply H; right; auto]. Qed.

  Lemma rel_foldM_same {X S S'} (R : S -> S' -> Prop) (f : S -> X -> res S) (g : S' -> X -> S') l s s' :
    (forall x t t', In x l -> R t t' -> rel R (f t x) (g t' x)) -> R s s' -> rel R (foldM f s l) (fold_left g l s').
  Proof. intros H Hs. apply rel_foldM; auto. apply Forall2_same. intros x Hx t t' Ht. auto. Qed.
End Rel.

(** An integer type is sound (with respect to the tolerated failures) if every operation, when it returns, returns
    the exact result. *)
Record Sound (allowT allowU : bool) (A : Arith) := mk_sound {
  val : num A -> Z;
  good : num A -> Prop;
  s_lit : forall z, fits 32 z = true -> good (a_lit A z) /\ val (a_lit A z) = z;
  s_neg : forall x, good x -> rel allowT allowU (fun r z => good r /\ val r = z) (a_neg A x) (- val x);
  s_add : forall x y, good x -> good y -> rel allowT allowU (fun r z => good r /\ val r = z) (a_add A x y) (val x + val y);
  s_sub : forall x y, good x -> good y -> rel allowT allowU (fun r z => good r /\ val r = z) (a_sub A x y) (val x - val y);
  s_mul : forall x y, good x -> good y -> rel allowT allowU (fun r z => good r /\ val r = z) (a_mul A x y) (val x * val y);
  s_div : forall x y, good x -> good y -> val y <> 0 ->
    rel allowT allowU (fun r z => good r /\ val r = z) (a_div A x y) (Z.quot (val x) (val y));
  s_mod : forall x y, good x -> good y -> 0 <= val x -> 0 < val y ->
    rel allowT allowU (fun r z => good r /\ val r = z) (a_mod A x y) (val x mod val y);
  s_abs : forall x, good x -> rel allowT allowU (fun r z => good r /\ val r = z) (a_abs A x) (Z.abs (val x));
  s_gt : forall x y, good x -> good y -> a_gt A x y = (val x >? val y);
  s_eqi : forall x z, good x -> z = 0 \/ z = 1 \/ z = -1 -> a_eqi A x z = (val x =? z);
  s_lti : forall x, good x -> a_lti A x 0 = (val x <? 0);
  s_gti : forall x, good x -> a_gti A x 1 = (val x >? 1);
  s_lei : forall x, good x -> a_lei A x 0 = (val x <=? 0);
  s_size : forall x, good x -> (Z.to_nat (Z.log2 (Z.abs (val x)) + 1) <= a_size A x)%nat
}.
Arguments val {allowT allowU A}.
Arguments good {allowT allowU A}.

(** ** Container accesses *)
Lemma Forall2_length {X Y} {R : X -> Y -> Prop} {l l'} : Forall2 R l l' -> length l = length l'.
Proof. induction 1; cbn [length]; auto. Qed.

Lemma get_ok {X Y} (R : X -> Y -> Prop) l l' i d : Forall2 R l l' -> (i < length l')%nat ->
  exists x, get l i = Ok x /\ R x (nth i l' d).
Proof.
  intros H. revert i. induction H as [|x y l l' Hx _ IH]; intros [|i] Hi; cbn [length] in *; try lia.
  - exists x. split; auto.
  - destruct (IH i) as (z & E & Hz); [lia|]. exists z. split; auto.
Qed.

Lemma Forall2_upd {X Y} (R : X -> Y -> Prop) l l' i x y : Forall2 R l l' -> R x y -> Forall2 R (upd l i x) (upd l' i y).
Proof.
  intros H Hx. revert i. induction H as [|u v l l' Hu Hl IH]; intros [|i]; cbn [upd]; constructor; auto.
Qed.

Lemma set_ok {X Y} (R : X -> Y -> Prop) l l' i x y : Forall2 R l l' -> (i < length l')%nat -> R x y ->
  exists r, set l i x = Ok r /\ Forall2 R r (upd l' i y).
Proof.
  intros H Hi Hx. unfold set. rewrite (Forall2_length H). destruct (Nat.ltb_spec i (length l')); [|lia].
  eexists; split; [reflexivity|]. apply Forall2_upd; auto.
Qed.

Lemma last_indep {X} (q : list X) a b : q <> [] -> last q a = last q b.
Proof.
  induction q as [|x q IH]; [congruence|]. intros _. destruct q as [|y q]; auto.
  change (last (y :: q) a = last (y :: q) b). apply IH. discriminate.
Qed.

Lemma back_ok {X Y} (R : X -> Y -> Prop) l l' d : Forall2 R l l' -> l' <> [] ->
  exists x, back l = Ok x /\ R x (last l' d).
Proof.
  intros H Hne. destruct H as [|x y l l' Hx Hl]; [congruence|]. cbn [back]. eexists; split; [reflexivity|].
  assert (G : forall u, R (last (x :: l) u) (last (y :: l') d)); [|apply G]. clear Hne.
  revert x y Hx. induction Hl as [|z v l l' Hz Hl IH]; intros x y Hx u; auto.
  change (R (last (z :: l) u) (last (v :: l') d)). apply IH; auto.
Qed.

Lemma for_each_mapM {X} (f : X -> res X) l : for_each f l = mapM f l.
Proof.
  unfold for_each.
  assert (H : forall (l2 l1 : list X),
    foldM (fun l j => do x <- get l j; do y <- f x; set l j y) (l1 ++ l2) (seq (length l1) (length l2)) =
    (do r <- mapM f l2; Ok (l1 ++ r))).
  { induction l2 as [|x l2 IH]; intros l1; cbn [length seq foldM mapM bind]; auto.
    assert (G : get (l1 ++ x :: l2) (length l1) = Ok x).
    { unfold get. rewrite nth_error_app2, Nat.sub_diag by lia. reflexivity. }
    rewrite G. cbn [bind].
    destruct (f x) as [y| |]; cbn [bind]; auto.
    assert (G2 : set (l1 ++ x :: l2) (length l1) y = Ok (upd (l1 ++ x :: l2) (length l1) y)).
    { unfold set. rewrite app_length. cbn [length]. destruct (Nat.ltb_spec (length l1) (length l1 + S (length l2))); [reflexivity|lia]. }
    rewrite G2. cbn [bind].
    assert (E : upd (l1 ++ x :: l2) (length l1) y = (l1 ++ [y]) ++ l2).
    { clear. induction l1 as [|z l1 IH]; cbn [app length upd]; auto. f_equal. auto. }
    rewrite E. specialize (IH (l1 ++ [y])). rewrite app_length in IH. cbn [length] in IH.
    replace (S (length l1)) with (length l1 + 1)%nat by lia. rewrite IH.
    destruct (mapM f l2); cbn [bind]; auto. rewrite <- app_assoc. reflexivity. }
  specialize (H l []). cbn [app length] in H. rewrite H. apply bind_ok_r.
Qed.

(** ** Rows *)
Section Ops.
  Variables (allowT allowU : bool) (A : Arith) (S : Sound allowT allowU A).
  Notation rl := (rel allowT allowU).

  Definition vr (x : num A) (z : Z) : Prop := good S x /\ val S x = z.
  Definition rowr : list (num A) -> vec -> Prop := Forall2 vr.
  Definition matr : list (list (num A)) -> list vec -> Prop := Forall2 rowr.

  Lemma vr_lit z : z = 0 \/ z = 1 \/ z = -1 -> vr (a_lit A z) z.
  Proof. intros H. apply (s_lit _ _ _ S). destruct H as [->|[->| ->]]; reflexivity. Qed.
  Lemma vr_int z : fits 32 z = true -> vr (a_lit A z) z.
  Proof. apply (s_lit _ _ _ S). Qed.
  Lemma vr_neg x a : vr x a -> rl vr (a_neg A x) (- a).
  Proof. intros (Hx & <-). apply (s_neg _ _ _ S); auto. Qed.
  Lemma vr_add x y a b : vr x a -> vr y b -> rl vr (a_add A x y) (a + b).
  Proof. intros (Hx & <-) (Hy & <-). apply (s_add _ _ _ S); auto. Qed.
  Lemma vr_sub x y a b : vr x a -> vr y b -> rl vr (a_sub A x y) (a - b).
  Proof. intros (Hx & <-) (Hy & <-). apply (s_sub _ _ _ S); auto. Qed.
  Lemma vr_mul x y a b : vr x a -> vr y b -> rl vr (a_mul A x y) (a * b).
  Proof. intros (Hx & <-) (Hy & <-). apply (s_mul _ _ _ S); auto. Qed.
  Lemma vr_div x y a b : vr x a -> vr y b -> b <> 0 -> rl vr (a_div A x y) (Z.quot a b).
  Proof. intros (Hx & <-) (Hy & <-) Hb. apply (s_div _ _ _ S); auto. Qed.
  Lemma vr_mod x y a b : vr x a -> vr y b -> 0 <= a -> 0 < b -> rl vr (a_mod A x y) (a mod b).
  Proof. intros (Hx & <-) (Hy & <-) Ha Hb. apply (s_mod _ _ _ S); auto. Qed.
  Lemma vr_abs x a : vr x a -> rl vr (a_abs A x) (Z.abs a).
  Proof. intros (Hx & <-). apply (s_abs _ _ _ S); auto. Qed.
  Lemma vr_gt x y a b : vr x a -> vr y b -> a_gt A x y = (a >? b).
  Proof. intros (Hx & <-) (Hy & <-). apply (s_gt _ _ _ S); auto. Qed.
  Lemma vr_eqi x a z : vr x a -> z = 0 \/ z = 1 \/ z = -1 -> a_eqi A x z = (a =? z).
  Proof. intros (Hx & <-) Hz. apply (s_eqi _ _ _ S); auto. Qed.
  Lemma vr_lti x a : vr x a -> a_lti A x 0 = (a <? 0).
  Proof. intros (Hx & <-). apply (s_lti _ _ _ S); auto. Qed.
  Lemma vr_gti x a : vr x a -> a_gti A x 1 = (a >? 1).
  Proof. intros (Hx & <-). apply (s_gti _ _ _ S); auto. Qed.
  Lemma vr_lei x a : vr x a -> a_lei A x 0 = (a <=? 0).
  Proof. intros (Hx & <-). apply (s_lei _ _ _ S); auto. Qed.

  Definition mu (a : Z) : Z := if a =? 0 then 0 else Z.log2 a + 1.
  Lemma mu_mod a b : 0 < b <= a -> mu (a mod b) < mu a.
  Proof.
    intros H. unfold mu. destruct (Z.eqb_spec a 0); [lia|].
    assert (Hm := Z.mod_pos_bound a b ltac:(lia)). assert (0 <= Z.log2 a) by apply Z.log2_nonneg.
    destruct (Z.eqb_spec (a mod b) 0); [lia|].
    assert (Hd := Z.div_mod a b ltac:(lia)). assert (1 <= a / b) by (apply Z.div_le_lower_bound; lia).
    assert (2 * (a mod b) <= a) by nia.
    assert (Hlog : Z.log2 (2 * (a mod b)) <= Z.log2 a) by (apply Z.log2_le_mono; lia).
    rewrite Z.log2_double in Hlog by lia. lia.
  Qed.
  Lemma mu_nonneg a : 0 <= mu a.
  Proof. unfold mu. destruct (Z.eqb_spec a 0); [lia|]. assert (0 <= Z.log2 a) by apply Z.log2_nonneg. lia. Qed.

  Lemma unsigned_gcd_rel fuel x y a b : vr x a -> vr y b -> 0 <= a -> 0 <= b -> mu a + mu b < Z.of_nat fuel ->
    rl vr (m_unsigned_gcd A fuel x y) (Z.gcd a b).
  Proof.
    revert x y a b. induction fuel as [|fuel IH]; intros x y a b Hx Hy Ha Hb Hf.
    - assert (P1 := mu_nonneg a). assert (P2 := mu_nonneg b). lia.
    - cbn [m_unsigned_gcd]. rewrite (vr_eqi x a 0 Hx), (vr_eqi y b 0 Hy) by auto.
      destruct (Z.eqb_spec a 0) as [->|Hna]; cbn [negb andb].
      { rewrite Z.gcd_0_l, Z.abs_eq by lia. exact Hy. }
      destruct (Z.eqb_spec b 0) as [->|Hnb]; cbn [negb].
      { rewrite Z.gcd_0_r, Z.abs_eq by lia. exact Hx. }
      rewrite (vr_gt x y a b) by auto. destruct (a >? b) eqn:G.
      + apply Z.gtb_lt in G. apply (rel_bind _ _ vr _ _ _ (a mod b)); [apply vr_mod; auto; lia|]. intros x' Hx'.
        apply (rel_eq _ _ _ _ (Z.gcd (a mod b) b)); [|rewrite Z.gcd_mod by lia; apply Z.gcd_comm].
        assert (Hm := mu_mod a b ltac:(lia)).
        assert (0 <= a mod b) by (apply Z.mod_pos_bound; lia). apply IH; auto; lia.
      + assert (a <= b) by (destruct (Z.gtb_spec a b); [discriminate|lia]).
        apply (rel_bind _ _ vr _ _ _ (b mod a)); [apply vr_mod; auto; lia|]. intros y' Hy'.
        apply (rel_eq _ _ _ _ (Z.gcd a (b mod a))); [|rewrite Z.gcd_comm, Z.gcd_mod by lia; reflexivity].
        assert (Hm := mu_mod b a ltac:(lia)).
        assert (0 <= b mod a) by (apply Z.mod_pos_bound; lia). apply IH; auto; lia.
  Qed.

  Lemma gcd_rel x y a b : vr x a -> vr y b -> rl vr (m_gcd A x y) (Z.gcd a b).
  Proof.
    intros Hx Hy. unfold m_gcd.
    apply (rel_bind _ _ vr _ _ _ (Z.abs a)); [apply vr_abs; auto|]. intros x' Hx'.
    apply (rel_bind _ _ vr _ _ _ (Z.abs b)); [apply vr_abs; auto|]. intros y' Hy'.
    apply (rel_eq _ _ _ _ (Z.gcd (Z.abs a) (Z.abs b))); [|rewrite Z.gcd_abs_l, Z.gcd_abs_r; reflexivity].
    apply unsigned_gcd_rel; auto; try lia.
    destruct Hx' as (Gx & Ex), Hy' as (Gy & Ey).
    assert (Sx := s_size _ _ _ S x' Gx). assert (Sy := s_size _ _ _ S y' Gy). rewrite Ex in Sx. rewrite Ey in Sy.
    rewrite Z.abs_involutive in Sx, Sy.
    assert (L1 : 0 <= Z.log2 (Z.abs a)) by apply Z.log2_nonneg. assert (L2 : 0 <= Z.log2 (Z.abs b)) by apply Z.log2_nonneg.
    assert (M1 : mu (Z.abs a) <= Z.log2 (Z.abs a) + 1) by (unfold mu; destruct (_ =? _); lia).
    assert (M2 : mu (Z.abs b) <= Z.log2 (Z.abs b) + 1) by (unfold mu; destruct (_ =? _); lia).
    lia.
  Qed.

  Lemma lcm_rel x y a b : vr x a -> vr y b -> a <> 0 \/ b <> 0 -> rl vr (m_lcm A x y) (Z.lcm a b).
  Proof.
    intros Hx Hy Hne. unfold m_lcm.
    apply (rel_bind _ _ vr _ _ _ (Z.gcd a b)); [apply gcd_rel; auto|]. intros g Hg.
    apply (rel_bind _ _ vr _ _ _ (Z.abs a)); [apply vr_abs; auto|]. intros x' Hx'.
    apply (rel_bind _ _ vr _ _ _ (Z.abs b)); [apply vr_abs; auto|]. intros y' Hy'.
    assert (Hg0 : Z.gcd a b <> 0) by (rewrite Z.gcd_eq_0; tauto).
    apply (rel_bind _ _ vr _ _ _ (Z.quot (Z.abs b) (Z.gcd a b))); [apply vr_div; auto|]. intros q Hq.
    apply (rel_eq _ _ _ _ (Z.abs a * Z.quot (Z.abs b) (Z.gcd a b))); [apply vr_mul; auto|].
    assert (Hgp : 0 < Z.gcd a b) by (assert (H := Z.gcd_nonneg a b); lia).
    rewrite Z.quot_div_nonneg by lia. unfold Z.lcm. rewrite Z.abs_mul. f_equal.
    destruct (Z.gcd_divide_r a b) as (k & Hk). rewrite Hk at 1 3. rewrite Z.abs_mul, (Z.abs_eq (Z.gcd a b)) by lia.
    rewrite !Z.div_mul by auto. reflexivity.
  Qed.

  Lemma rowr_len r r' : rowr r r' -> length r = length r'.
  Proof. apply Forall2_length. Qed.

  Lemma zipM_rel (f : num A -> num A -> res (num A)) (g : Z -> Z -> Z) r r' s s' :
    (forall x y a b, vr x a -> vr y b -> rl vr (f x y) (g a b)) ->
    rowr r r' -> rowr s s' -> length r' = length s' -> rl rowr (zipM A f r s) (map (fun p => g (fst p) (snd p)) (combine r' s')).
  Proof.
    intros Hf Hr. revert s s'. induction Hr as [|x a r r' Hx Hr IH]; intros s s' Hs Hl.
    - cbn [zipM combine map]. constructor.
    - destruct Hs as [|y b s s' Hy Hs]; [discriminate|]. cbn [zipM combine map length fst snd] in *.
      apply (rel_bind _ _ vr _ _ _ (g a b)); auto. intros z Hz.
      apply (rel_bind _ _ rowr _ _ _ (map (fun p => g (fst p) (snd p)) (combine r' s'))); [apply IH; auto|].
      intros zs Hzs. constructor; auto.
  Qed.

  Lemma row_add_rel r r' s s' : rowr r r' -> rowr s s' -> length r' = length s' -> rl rowr (m_row_add A r s) (vadd r' s').
  Proof.
    intros Hr Hs Hl. apply (rel_eq _ _ _ _ (map (fun p => Z.add (fst p) (snd p)) (combine r' s'))).
    - apply zipM_rel; auto. intros; apply vr_add; auto.
    - clear. revert s'. induction r' as [|x r' IH]; intros [|y s']; cbn [combine map vadd fst snd]; auto. f_equal. auto.
  Qed.

  Lemma row_sub_rel r r' s s' : rowr r r' -> rowr s s' -> length r' = length s' ->
    rl rowr (m_row_sub A r s) (vadd r' (vscale (-1) s')).
  Proof.
    intros Hr Hs Hl. apply (rel_eq _ _ _ _ (map (fun p => Z.sub (fst p) (snd p)) (combine r' s'))).
    - apply zipM_rel; auto. intros; apply vr_sub; auto.
    - clear. revert s'. induction r' as [|x r' IH]; intros [|y s']; cbn [combine map vadd vscale fst snd]; auto.
      replace (x + (-1) * y) with (x - y) by lia. f_equal. apply IH.
  Qed.

  Lemma row_mul_rel r r' x a : rowr r r' -> vr x a -> rl rowr (m_row_mul A r x) (vscale a r').
  Proof.
    intros Hr Hx. unfold m_row_mul. rewrite (vr_eqi x a 1 Hx) by auto. destruct (Z.eqb_spec a 1) as [->|Hne].
    - rewrite vscale_1. exact Hr.
    - apply (rel_eq _ _ _ _ (map (fun e => e * a) r')); [|apply map_ext; intros; lia].
      apply rel_mapM. clear - Hr Hx S. induction Hr as [|y b r r' Hy Hr IH]; constructor; auto. apply vr_mul; auto.
  Qed.

  Lemma row_div_rel r r' x a : rowr r r' -> vr x a -> a <> 0 -> a <> 1 ->
    rl rowr (m_row_div A r x) (map (fun e => Z.quot e a) r').
  Proof.
    intros Hr Hx Ha0 Ha1. unfold m_row_div. rewrite (vr_eqi x a 0 Hx), (vr_eqi x a 1 Hx) by auto.
    destruct (Z.eqb_spec a 0); [lia|]. destruct (Z.eqb_spec a 1); [lia|].
    apply rel_mapM. clear - Hr Hx Ha0. induction Hr as [|y b r r' Hy Hr IH]; constructor; auto. apply vr_div; auto.
  Qed.

  Lemma inner_rel r r' s s' x a : rowr r r' -> rowr s s' -> length r' = length s' -> vr x a ->
    rl vr (m_inner A x r s) (a + dot r' s').
  Proof.
    intros Hr. revert s s' x a. induction Hr as [|y b r r' Hy Hr IH]; intros s s' x a Hs Hl Hx.
    - cbn [m_inner dot]. rewrite Z.add_0_r. exact Hx.
    - destruct Hs as [|z c s s' Hz Hs]; [discriminate|]. cbn [m_inner dot length] in *.
      apply (rel_bind _ _ vr _ _ _ (b * c)); [apply vr_mul; auto|]. intros p Hp.
      apply (rel_bind _ _ vr _ _ _ (a + b * c)); [apply vr_add; auto|]. intros q Hq.
      apply (rel_eq _ _ _ _ (a + b * c + dot r' s')); [apply IH; auto|lia].
  Qed.

  Lemma dot_rel r r' s s' : rowr r r' -> rowr s s' -> length r' = length s' -> rl vr (m_dot A r s) (dot r' s').
  Proof.
    intros Hr Hs Hl. unfold m_dot. apply (rel_eq _ _ _ _ (0 + dot r' s')); [|lia].
    apply inner_rel; auto. apply vr_lit; auto.
  Qed.

  Lemma gcd_rest_rel r r' x a : rowr r r' -> vr x a -> 1 <= a -> rl vr (m_gcd_rest A x r) (Z.gcd a (rgcd r')).
  Proof.
    intros Hr. revert x a. induction Hr as [|y b r r' Hy Hr IH]; intros x a Hx Ha; cbn [m_gcd_rest rgcd fold_right].
    - rewrite Z.gcd_0_r, Z.abs_eq by lia. exact Hx.
    - fold (rgcd r'). rewrite (vr_gti x a Hx). destruct (a >? 1) eqn:G.
      + apply (rel_bind _ _ vr _ _ _ (Z.gcd b a)); [apply gcd_rel; auto|]. intros g Hg.
        apply (rel_eq _ _ _ _ (Z.gcd (Z.gcd b a) (rgcd r'))); [apply IH; auto|].
        * assert (Z.gcd b a <> 0) by (rewrite Z.gcd_eq_0; apply Z.gtb_lt in G; lia). assert (H0 := Z.gcd_nonneg b a). lia.
        * rewrite (Z.gcd_comm b a), <- Z.gcd_assoc. reflexivity.
      + assert (a = 1) as -> by (destruct (Z.gtb_spec a 1); [discriminate|lia]). rewrite Z.gcd_1_l. exact Hx.
  Qed.

  Lemma row_gcd_rel r r' : rowr r r' -> rl vr (m_row_gcd A r) (rgcd r').
  Proof.
    induction 1 as [|x a r r' Hx Hr IH]; cbn [m_row_gcd rgcd fold_right]; [apply vr_lit; auto|].
    fold (rgcd r'). rewrite (vr_eqi x a 0 Hx) by auto. destruct (Z.eqb_spec a 0) as [->|Hne].
    - rewrite Z.gcd_0_l, Z.abs_eq by apply rgcd_nonneg. exact IH.
    - apply (rel_bind _ _ vr _ _ _ (Z.abs a)); [apply vr_abs; auto|]. intros y Hy.
      apply (rel_eq _ _ _ _ (Z.gcd (Z.abs a) (rgcd r'))); [|apply Z.gcd_abs_l]. apply gcd_rest_rel; auto. lia.
  Qed.

  Lemma row_reduce_rel r r' : rowr r r' -> rl rowr (m_row_reduce A r) (rnorm r').
  Proof.
    intros Hr. unfold m_row_reduce. apply (rel_bind _ _ vr _ _ _ (rgcd r')); [apply row_gcd_rel; auto|]. intros g Hg.
    rewrite (vr_gti g _ Hg). unfold rnorm. rewrite Z.gtb_ltb. destruct (Z.ltb_spec 1 (rgcd r')); [|exact Hr].
    apply row_div_rel; auto; lia.
  Qed.

  Lemma get_row r r' i : rowr r r' -> (i < length r')%nat -> exists x, get r i = Ok x /\ vr x (nth i r' 0).
  Proof. intros H Hi. apply (get_ok vr r r' i 0); auto. Qed.
  Lemma get_mat M M' i : matr M M' -> (i < length M')%nat -> exists r, get M i = Ok r /\ rowr r (nth i M' []).
  Proof. intros H Hi. apply (get_ok rowr M M' i []); auto. Qed.

  Lemma matr_in M M' r : matr M M' -> In r M -> exists r', In r' M' /\ rowr r r'.
  Proof.
    induction 1 as [|x y M M' Hx _ IH]; [intros []|]. intros [->|Hr].
    - exists y. split; auto. left; auto.
    - destruct (IH Hr) as (r' & H1 & H2). exists r'. split; auto. right; auto.
  Qed.

  Lemma distance_rel r r' v v' : rowr r r' -> rowr v v' -> length r' = length v' -> rl vr (m_distance A r v) (- dot r' v').
  Proof.
    intros Hr Hv Hl. unfold m_distance. apply (rel_bind _ _ vr _ _ _ (dot r' v')).
    - rewrite dot_comm. apply dot_rel; auto.
    - intros x Hx. apply vr_neg; auto.
  Qed.
End Ops.

Arguments vr {allowT allowU A} S.
Arguments rowr {allowT allowU A} S.
Arguments matr {allowT allowU A} S.
