(** * Expand: the images of the rows of a reduced section. *)
From Coq Require Import List ZArith Arith Bool Ascii String Lia Sorted.
From Verif Require Import Base Spec LinAlg ListUtil FmeCore ArithModel SafeIntModel Refine IntTypes FmeTheorems ClassesModel ClassesProofs ApplyTheorems OrbitTheorems StreamModel StreamProofs IntLcm InputModel FileModel.
Import ListNotations.
Open Scope Z_scope.

(** ** Specification *)
(** [y] is [x] divided by the greatest common divisor of its entries. *)
Definition lowest_terms (x y : vec) : Prop := exists g, 0 < g /\ vscale g y = x /\ (primitive y \/ y = vzero (length y)).
(** The row of a point or of a ray under a map: the images of the map are evaluated and common factors are removed. *)
Definition image_step (m : lmap) (x y : vec) : Prop := lowest_terms (substitute m x) y.
(** The row of an inequality [a x <= 0] under a map: the inequality that [x] satisfies if its image satisfies [a]. *)
Definition facet_step (m : lmap) (a b : vec) : Prop :=
  length b = length a /\ (primitive b \/ b = vzero (length b)) /\ exists g, 0 < g /\ forall x, length x = length a -> g * dot b x = dot a (substitute m x).
(** What can be reached from [r] by the maps. *)
Inductive reached (step : lmap -> vec -> vec -> Prop) (maps : list lmap) (r : vec) : vec -> Prop :=
| reached_start : reached step maps r r
| reached_step m x y : reached step maps r x -> In m maps -> step m x y -> reached step maps r y.
(** The sum of the absolute values that are added up for the entry [k] of the image. *)
Definition image_load (m : lmap) (x : vec) (k : nat) : Z := sumf (fun tm : term => Z.abs (snd tm * nth (fst tm) x 0)) (nth k m []).
Definition facet_load (m : lmap) (a : vec) (k : nat) : Z :=
  sumf (fun i => sumf (fun tm : term => if (fst tm =? k)%nat then Z.abs (snd tm * nth i a 0) else 0) (nth i m [])) (seq 0 (length m)).
(** The class of a row: all the rows that are reached, each of them once, in lexicographic order; all that is added up on the way is of type [int]. *)
Definition class_of (step : lmap -> vec -> vec -> Prop) (load : lmap -> vec -> nat -> Z) (maps : list lmap) (r : vec) (rows : list vec) : Prop :=
  Forall (map_in (length r)) maps /\ Forall int_range r /\ StronglySorted lex_lt rows /\ (forall x, In x rows <-> reached step maps r x) /\
  (forall x m k, reached step maps r x -> In m maps -> load m x k <= int_max).

(** ** Lowest terms *)
Lemma rnorm_zero n : rnorm (vzero n) = vzero n.
Proof. unfold rnorm. assert (rgcd (vzero n) = 0) by (apply rgcd_0; rewrite vzero_length; auto). rewrite H. reflexivity. Qed.
Lemma lowest_rnorm x : lowest_terms x (rnorm x).
Proof.
  exists (rfac x). split; [apply rfac_pos|]. split; [apply rnorm_spec|]. destruct (list_eq_dec Z.eq_dec x (vzero (length x))) as [E|N]; [right; rewrite rnorm_length, E, rnorm_zero, vzero_length; auto|left; apply rnorm_primitive; auto].
Qed.
Lemma lowest_unique x y : lowest_terms x y -> y = rnorm x.
Proof.
  intros (g & Hg & <- & [HP| ->]).
  - apply primitive_rgcd in HP. unfold rnorm. rewrite rgcd_vscale, HP, Z.mul_1_r by lia. destruct (Z.ltb_spec 1 g).
    + unfold vscale. rewrite map_map. symmetry. rewrite <- (map_id y) at 2. apply map_ext. intros z. rewrite Z.mul_comm. apply Z.quot_mul. lia.
    + replace g with 1 by lia. unfold vscale. symmetry. rewrite <- (map_id y) at 2. apply map_ext. intros z. lia.
  - assert (E : vscale g (vzero (length y)) = vzero (length y)) by (unfold vscale, vzero; induction (length y) as [|k IH]; cbn [repeat map]; [reflexivity|rewrite IH; f_equal; lia]). rewrite E, rnorm_zero. reflexivity.
Qed.
Lemma image_step_iff m x y : image_step m x y <-> y = rnorm (substitute m x).
Proof. split; [apply lowest_unique|intros ->; apply lowest_rnorm]. Qed.
Lemma facet_step_iff m a b : map_in (length a) m -> facet_step m a b <-> b = rnorm (praw Facet_tag m a).
Proof.
  intros Hm. assert (L : length (praw Facet_tag m a) = length a) by apply praw_length. split.
  - intros (Lb & HP & g & Hg & H). apply lowest_unique. exists g. split; auto. split; auto. apply (dot_ext (length a)); auto; [rewrite vscale_length; auto|].
    intros x Hx. rewrite dot_vscale_l, (facet_dot (length a)) by auto. auto.
  - intros ->. destruct (lowest_rnorm (praw Facet_tag m a)) as (g & Hg & E & HP). split; [rewrite rnorm_length; auto|]. split; auto. exists g. split; auto.
    intros x Hx. rewrite <- dot_vscale_l, E. apply (facet_dot (length a)); auto.
Qed.

(** ** Arithmetic with [int] *)
Lemma row_gcd_int (r : vec) : Forall small r -> m_row_gcd (arith INT32) r = Ok (rgcd r).
Proof.
  induction 1 as [|x r Hx Hr IH]; [reflexivity|]. cbn [m_row_gcd rgcd fold_right]. fold (rgcd r). change (a_eqi (arith INT32) x 0) with (x =? 0). destruct (Z.eqb_spec x 0) as [->|N].
  - rewrite Z.gcd_0_l, Z.abs_eq by apply rgcd_nonneg. exact IH.
  - change (a_abs (arith INT32) x) with (ck 32 (Z.abs x)). rewrite ck_int by exact Hx. cbn [bind]. clear IH.
    assert (G : forall (l : vec) v, Forall small l -> small v -> 0 < v -> m_gcd_rest (arith INT32) v l = Ok (Z.gcd v (rgcd l))).
    { induction l as [|y l IH]; intros v Hl Hv Pv; cbn [m_gcd_rest rgcd fold_right]; [rewrite Z.gcd_0_r, Z.abs_eq by lia; reflexivity|]. fold (rgcd l).
      apply Forall_cons_iff in Hl as [Hy Hl]. change (a_gti (arith INT32) v 1) with (v >? 1). rewrite Z.gtb_ltb. destruct (Z.ltb_spec 1 v).
      - rewrite gcd_int by auto. cbn [bind]. assert (P : 0 < Z.gcd y v). { assert (0 <= Z.gcd y v) by apply Z.gcd_nonneg. assert (Z.gcd y v <> 0) by (intros E; apply Z.gcd_eq_0_r in E; lia). lia. }
        rewrite IH; auto.
        + rewrite Z.gcd_assoc, (Z.gcd_comm v y). reflexivity.
        + unfold small in *. rewrite Z.abs_eq by lia. assert (Z.gcd y v <= v) by (apply Z.divide_pos_le; auto; apply Z.gcd_divide_r). rewrite Z.abs_eq in Hv by lia. unfold int_range, int_min, int_max in *. lia.
      - replace v with 1 by lia. rewrite Z.gcd_1_l. reflexivity. }
    rewrite G; auto; [|unfold small in *; rewrite Z.abs_eq by lia; auto|lia]. rewrite Z.gcd_abs_l. reflexivity.
Qed.
Lemma row_reduce_int (r : vec) : Forall small r -> m_row_reduce (arith INT32) r = Ok (rnorm r).
Proof.
  intros Hr. unfold m_row_reduce. rewrite row_gcd_int by auto. cbn [bind]. change (a_gti (arith INT32) (rgcd r) 1) with (rgcd r >? 1). rewrite Z.gtb_ltb. unfold rnorm. destruct (Z.ltb_spec 1 (rgcd r)); [|reflexivity].
  set (g := rgcd r) in *. unfold m_row_div. change (a_eqi (arith INT32) g 0) with (g =? 0). change (a_eqi (arith INT32) g 1) with (g =? 1). destruct (Z.eqb_spec g 0); [lia|]. destruct (Z.eqb_spec g 1); [lia|].
  clearbody g. induction Hr as [|x r Hx _ IH]; [reflexivity|]. cbn [mapM map].
  assert (E : a_div (arith INT32) x g = Ok (Z.quot x g)).
  { change (a_div (arith INT32) x g) with (i_div 32 x g). unfold i_div. destruct (Z.eqb_spec g 0); [lia|]. apply ck_int. assert (Q : Z.abs (Z.quot x g) <= Z.abs x) by (rewrite <- Z.quot_abs by lia; apply Z.quot_le_upper_bound; nia).
    unfold small, int_range, int_min, int_max in *. lia. }
  change (num (arith INT32)) with Z in *. rewrite E. cbn [bind]. rewrite IH. reflexivity.
Qed.
Lemma rnorm_small r : Forall small r -> Forall small (rnorm r).
Proof.
  intros H. unfold rnorm. destruct (Z.ltb_spec 1 (rgcd r)); auto. apply Forall_map. eapply Forall_impl; [|exact H]. intros x Hx. cbn beta in *. set (g := rgcd r) in *.
  assert (Q : Z.abs (Z.quot x g) <= Z.abs x) by (rewrite <- Z.quot_abs by lia; apply Z.quot_le_upper_bound; nia). unfold small, int_range, int_min, int_max in *. lia.
Qed.

(** ** Applying a map *)
Definition source (tg : tag) (i : nat) (tm : term) : nat := match tg with Facet_tag => i | Vertex_tag => fst tm end.
Definition target (tg : tag) (i : nat) (tm : term) : nat := match tg with Facet_tag => fst tm | Vertex_tag => i end.
Definition step_load (tg : tag) (r : vec) (i k : nat) (tm : term) : Z := if (target tg i tm =? k)%nat then Z.abs (snd tm * nth (source tg i tm) r 0) else 0.
Definition load (tg : tag) (m : lmap) (r : vec) (k : nat) : Z := sumf (fun i => sumf (step_load tg r i k) (nth i m [])) (seq 0 (length m)).
Lemma sumf_nonneg {X} (f : X -> Z) l : (forall x, 0 <= f x) -> 0 <= sumf f l.
Proof. intros H. induction l as [|x l IH]; cbn [sumf fold_right]; [lia|]. fold (sumf f l). specialize (H x). lia. Qed.
Lemma step_load_nonneg tg r i k tm : 0 <= step_load tg r i k tm.
Proof. unfold step_load. destruct (_ =? _)%nat; lia. Qed.
Lemma vertex_load m r k : (k < length m)%nat -> load Vertex_tag m r k = image_load m r k.
Proof.
  intros Hk. unfold load, image_load.
  assert (G : forall l, NoDup l -> In k l -> sumf (fun i => sumf (step_load Vertex_tag r i k) (nth i m [])) l = sumf (fun tm : term => Z.abs (snd tm * nth (fst tm) r 0)) (nth k m [])).
  { assert (Z0 : forall i, i <> k -> sumf (step_load Vertex_tag r i k) (nth i m []) = 0).
    { intros i Hi. induction (nth i m []) as [|tm im IH]; [reflexivity|]. cbn [sumf fold_right]. fold (sumf (step_load Vertex_tag r i k) im). rewrite IH. unfold step_load. cbn [target]. destruct (Nat.eqb_spec i k); [congruence|reflexivity]. }
    assert (Zk : sumf (step_load Vertex_tag r k k) (nth k m []) = sumf (fun tm : term => Z.abs (snd tm * nth (fst tm) r 0)) (nth k m [])).
    { apply sumf_ext. intros tm _. unfold step_load. cbn [target source]. rewrite Nat.eqb_refl. reflexivity. }
    induction l as [|i l IH]; intros HN Hin; [destruct Hin|]. apply NoDup_cons_iff in HN as [N1 N2]. cbn [sumf fold_right]. fold (sumf (fun i => sumf (step_load Vertex_tag r i k) (nth i m [])) l).
    destruct (Nat.eq_dec i k) as [->|Hi].
    - rewrite Zk. assert (E : sumf (fun i => sumf (step_load Vertex_tag r i k) (nth i m [])) l = 0); [|lia]. clear - N1 Z0. induction l as [|j l IH]; [reflexivity|]. cbn [sumf fold_right].
      fold (sumf (fun i => sumf (step_load Vertex_tag r i k) (nth i m [])) l). rewrite IH by (intros K; apply N1; right; auto). rewrite Z0; [reflexivity|]. intros ->. apply N1. left. auto.
    - rewrite Z0 by auto. destruct Hin as [|Hin]; [congruence|]. rewrite IH by auto. lia. }
  apply G; [apply seq_NoDup|apply in_seq; lia].
Qed.
Lemma facet_load_eq m r k : load Facet_tag m r k = facet_load m r k.
Proof. unfold load, facet_load. apply sumf_ext. intros i _. apply sumf_ext. intros tm _. reflexivity. Qed.
Lemma apply_term_int tg (r acc : vec) i tm n : length r = n -> length acc = n -> (i < n)%nat -> (fst tm < n)%nat -> Forall int_range r -> fits 32 (snd tm) = true ->
  (forall k, (k < n)%nat -> Z.abs (nth k acc 0) + step_load tg r i k tm <= int_max) ->
  m_apply_term (arith INT32) tg r acc i tm = Ok (pstep tg r i acc tm) /\ forall k, Z.abs (nth k (pstep tg r i acc tm) 0) <= Z.abs (nth k acc 0) + step_load tg r i k tm.
Proof.
  intros Lr La Hi Ht Hr Hf HL. unfold m_apply_term, pstep, step_load in *. set (s := source tg i tm) in *. set (d := target tg i tm) in *.
  assert (ES : (match tg with Facet_tag => (i, fst tm) | Vertex_tag => (fst tm, i) end) = (s, d)) by (unfold s, d; destruct tg; reflexivity). rewrite ES.
  assert (Hs : (s < n)%nat) by (unfold s; destruct tg; auto). assert (Hd : (d < n)%nat) by (unfold d; destruct tg; auto).
  assert (G1 : get r s = Ok (nth s r 0)) by (unfold get; rewrite (nth_error_nth' r 0) by lia; reflexivity).
  assert (G2 : get acc d = Ok (nth d acc 0)) by (unfold get; rewrite (nth_error_nth' acc 0) by lia; reflexivity).
  assert (B := HL d Hd). rewrite Nat.eqb_refl in B. assert (int_max = 2147483647) by reflexivity.
  change (num (arith INT32)) with Z in *. rewrite G1. cbn [bind]. change (a_lit (arith INT32) (snd tm)) with (snd tm).
  change (a_mul (arith INT32) (snd tm) (nth s r 0)) with (ck 32 (snd tm * nth s r 0)). rewrite ck_int by (unfold int_range, int_min, int_max; lia). cbn [bind]. rewrite G2. cbn [bind].
  change (a_add (arith INT32) (nth d acc 0) (snd tm * nth s r 0)) with (ck 32 (nth d acc 0 + snd tm * nth s r 0)). rewrite ck_int by (unfold int_range, int_min, int_max; lia). cbn [bind]. split.
  - unfold set. destruct (Nat.ltb_spec d (length acc)); [reflexivity|lia].
  - intros k. rewrite nth_upd. rewrite (Nat.eqb_sym d k). destruct (Nat.eqb_spec k d) as [->|N]; cbn [andb]; [|lia]. destruct (_ <? _)%nat; lia.
Qed.
Lemma apply_image_int tg (r : vec) i n : length r = n -> (i < n)%nat -> Forall int_range r -> forall (im : image) acc, (forall tm, In tm im -> (fst tm < n)%nat /\ fits 32 (snd tm) = true) -> length acc = n ->
  (forall k, (k < n)%nat -> Z.abs (nth k acc 0) + sumf (step_load tg r i k) im <= int_max) ->
  foldM (fun acc' tm => m_apply_term (arith INT32) tg r acc' i tm) acc im = Ok (fold_left (pstep tg r i) im acc) /\
  forall k, Z.abs (nth k (fold_left (pstep tg r i) im acc) 0) <= Z.abs (nth k acc 0) + sumf (step_load tg r i k) im.
Proof.
  intros Lr Hi Hr. induction im as [|tm im IH]; intros acc Hin La HL; cbn [foldM fold_left sumf fold_right] in *; [split; [reflexivity|intros k; lia]|].
  destruct (Hin tm (or_introl eq_refl)) as [H1 H2]. destruct (apply_term_int tg r acc i tm n Lr La Hi H1 Hr H2) as [E B].
  { intros k Hk. specialize (HL k Hk). fold (sumf (step_load tg r i k) im) in HL. assert (0 <= sumf (step_load tg r i k) im) by (apply sumf_nonneg; intros; apply step_load_nonneg). lia. }
  change (num (arith INT32)) with Z in *. rewrite E. cbn [bind]. destruct (IH (pstep tg r i acc tm)) as [E2 B2]; auto; [intros; apply Hin; right; auto|rewrite pstep_length; auto| |].
  - intros k Hk. specialize (HL k Hk). specialize (B k). fold (sumf (step_load tg r i k) im) in HL. lia.
  - split; [exact E2|]. intros k. specialize (B k). specialize (B2 k). fold (sumf (step_load tg r i k) im). lia.
Qed.
Lemma apply_int tg n m (r : vec) : map_in n m -> length r = n -> Forall int_range r -> (forall k, (k < n)%nat -> load tg m r k <= int_max) ->
  m_apply (arith INT32) tg m r = Ok (rnorm (praw tg m r)) /\ Forall small (rnorm (praw tg m r)).
Proof.
  intros Hm Lr Hr HL. assert (Lm := proj1 Hm).
  assert (G : forall l acc, (forall i, In i l -> (i < n)%nat) -> length acc = n -> (forall k, (k < n)%nat -> Z.abs (nth k acc 0) + sumf (fun i => sumf (step_load tg r i k) (nth i m [])) l <= int_max) ->
    foldM (fun acc i => do entry <- get m i; foldM (fun acc' tm => m_apply_term (arith INT32) tg r acc' i tm) acc entry) acc l = Ok (fold_left (fun acc i => fold_left (pstep tg r i) (nth i m []) acc) l acc) /\
    forall k, (k < n)%nat -> Z.abs (nth k (fold_left (fun acc i => fold_left (pstep tg r i) (nth i m []) acc) l acc) 0) <= int_max).
  { induction l as [|i l IH]; intros acc Hl La HB; cbn [foldM fold_left sumf fold_right] in *; [split; [reflexivity|intros k Hk; specialize (HB k Hk); lia]|].
    assert (Hi := Hl i (or_introl eq_refl)). assert (E : get m i = Ok (nth i m [])) by (unfold get; rewrite (nth_error_nth' m []) by lia; reflexivity). rewrite E. cbn [bind].
    destruct (apply_image_int tg r i n Lr Hi Hr (nth i m []) acc) as [E1 B1]; auto; [intros tm Htm; apply (map_terms n m Hm i tm Htm)| |].
    - intros k Hk. specialize (HB k Hk). fold (sumf (fun i => sumf (step_load tg r i k) (nth i m [])) l) in HB.
      assert (0 <= sumf (fun i => sumf (step_load tg r i k) (nth i m [])) l) by (apply sumf_nonneg; intros; apply sumf_nonneg; intros; apply step_load_nonneg). lia.
    - change (num (arith INT32)) with Z in *. rewrite E1. cbn [bind]. apply IH; [intros; apply Hl; right; auto|rewrite pfold_length; auto|].
      intros k Hk. specialize (HB k Hk). specialize (B1 k). fold (sumf (fun i => sumf (step_load tg r i k) (nth i m [])) l) in HB. lia. }
  destruct (G (seq 0 (length m)) (vzero n)) as [E B]; [intros i Hi; apply in_seq in Hi; lia|apply vzero_length|intros k Hk; rewrite nth_vzero; cbn [Z.abs]; apply HL; auto|].
  assert (SM : Forall small (praw tg m r)).
  { apply Forall_forall. intros z Hz. apply (In_nth _ _ 0) in Hz as (k & Hk & <-). rewrite praw_length in Hk. unfold praw. rewrite Lr in *. specialize (B k Hk). unfold small, int_range, int_min, int_max in *. lia. }
  split; [|apply rnorm_small; auto]. unfold m_apply, m_apply_raw. change (repeat (a_lit (arith INT32) 0) (length r)) with (vzero (length r)). rewrite Lr. change (num (arith INT32)) with Z in *. rewrite E. cbn [bind].
  replace (fold_left _ _ (vzero n)) with (praw tg m r) by (unfold praw; rewrite Lr; reflexivity). apply row_reduce_int; auto.
Qed.

(** ** Classes *)
Definition step_of (tg : tag) : lmap -> vec -> vec -> Prop := match tg with Facet_tag => facet_step | Vertex_tag => image_step end.
Definition load_of (tg : tag) : lmap -> vec -> nat -> Z := match tg with Facet_tag => facet_load | Vertex_tag => image_load end.
Lemma step_of_iff tg n m x y : map_in n m -> length x = n -> step_of tg m x y <-> y = rnorm (praw tg m x).
Proof. intros Hm <-. destruct tg; cbn [step_of]; [apply facet_step_iff; auto|]. rewrite (vertex_raw (length x)) by auto. apply image_step_iff. Qed.
Lemma load_of_eq tg m x k : (k < length m)%nat -> load tg m x k = load_of tg m x k.
Proof. intros Hk. destruct tg; cbn [load_of]; [apply facet_load_eq|apply vertex_load; auto]. Qed.
Section Class.
  Variables (tg : tag) (maps : list lmap) (r : vec) (rows : list vec).
  Hypothesis HC : class_of (step_of tg) (load_of tg) maps r rows.
  Let n := length r.

  Lemma reached_facts x : reached (step_of tg) maps r x -> length x = n /\ Forall int_range x.
  Proof.
    destruct HC as (Hm & Hr & _ & _ & HL). rewrite Forall_forall in Hm. induction 1 as [|m x y Hx [L I] Hin Hs]; auto. apply (step_of_iff tg n) in Hs; auto. subst y. split; [rewrite rnorm_length, praw_length; auto|].
    destruct (apply_int tg n m x) as [_ K]; auto; [intros k Hk; rewrite load_of_eq by (rewrite (proj1 (Hm m Hin)); auto); apply HL; auto|]. eapply Forall_impl; [|exact K]. intros z Hz. unfold small, int_range, int_min, int_max in *. lia.
  Qed.
  Lemma class_int : Forall (fun row => length row = n /\ Forall int_range row) rows.
  Proof. destruct HC as (_ & _ & _ & HI & _). apply Forall_forall. intros x Hx. apply reached_facts, HI; auto. Qed.
  Lemma reached_apply x m : reached (step_of tg) maps r x -> In m maps -> m_apply (arith INT32) tg m x = Ok (rnorm (praw tg m x)).
  Proof.
    intros Hx Hin. destruct (reached_facts x Hx) as [L I]. destruct HC as (Hm & Hr & _ & _ & HL). rewrite Forall_forall in Hm.
    apply (apply_int tg n m x); auto; try apply Hm; auto. intros k Hk. rewrite load_of_eq by (rewrite (proj1 (Hm m Hin)); auto). apply HL; auto.
  Qed.
  Lemma reached_orbit x : orbit INT32 tg maps r x <-> reached (step_of tg) maps r x.
  Proof.
    assert (Hm := proj1 HC). rewrite Forall_forall in Hm. split.
    - induction 1 as [|x m y _ IH Hin E]; [constructor|]. rewrite (reached_apply x m IH Hin) in E. injection E as <-. apply (reached_step _ _ _ m x); auto. destruct (reached_facts x IH). apply (step_of_iff tg n); auto.
    - induction 1 as [|m x y Hx IH Hin Hs]; [constructor|]. apply (orbit_apply INT32 tg maps r x m); auto. destruct (reached_facts x Hx). apply (step_of_iff tg n) in Hs; auto. subst y. apply reached_apply; auto.
  Qed.
  Lemma class_ok fuel : (length rows <= fuel)%nat -> m_get_class (arith INT32) fuel tg maps r = Ok (Some rows).
  Proof.
    intros Hf. destruct HC as (_ & _ & HS & HI & _). destruct (get_class_total INT32 tg maps r rows fuel) as (R & E); auto.
    { intros x Hx. apply reached_orbit in Hx. split; [apply HI; auto|]. intros m Hin. eexists. apply reached_apply; auto. }
    destruct (get_class_spec INT32 tg maps r fuel R E) as [SR IR]. rewrite E. do 2 f_equal. apply (sorted_unique INT32); auto.
    - unfold sorted_rows. clear - HS. induction HS as [|a s _ IH H]; constructor; auto. eapply Forall_impl; [|exact H]. intros b. apply lt_iff.
    - intros x. rewrite IR, reached_orbit. symmetry. apply HI.
  Qed.
End Class.
Lemma expand_ok tg maps rows : forall classes, maps <> [] -> Forall2 (class_of (step_of tg) (load_of tg) maps) rows classes -> exists fuel0, forall fuel, (fuel0 <= fuel)%nat ->
  m_expand fuel tg maps rows = Ok (Some (concat classes)).
Proof.
  intros classes Hne H. assert (G : exists fuel0, forall fuel, (fuel0 <= fuel)%nat -> expand_loop fuel tg maps rows = Ok (Some (concat classes))).
  { induction H as [|r c rows classes Hc _ (f0 & IH)]; [exists 0%nat; intros; reflexivity|]. exists (length c + f0)%nat. intros fuel Hf. cbn [expand_loop concat]. rewrite (class_ok tg maps r c Hc) by lia. cbn [bindo bind]. rewrite IH by lia. reflexivity. }
  destruct G as (f0 & G). exists f0. intros fuel Hf. unfold m_expand. destruct maps; [congruence|]. cbn [is_empty]. apply G; auto.
Qed.
