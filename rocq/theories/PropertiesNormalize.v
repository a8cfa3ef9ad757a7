(** * PropertiesNormalize: normalising maps (C28) and simplifying images (C29). *)
From Coq Require Import List ZArith Znumtheory Arith Lia Bool Permutation Sorted.
From Verif Require Import Base Spec LinAlg ListUtil FmeCore ArithModel SafeIntModel Refine IntTypes MatrixModel FmeModel DimTheorems NormTheorems FmeTheorems Samples
  ClassesModel ClassesProofs ApplyTheorems OrbitTheorems MapModel MapProofs MapNormalize PropertiesMaps.
Import ListNotations.
Open Scope Z_scope.

(** ** C28: normalize(maps, equations) *)
(** [m_normalize_map t E m] is the map that [normalize(maps, equations)] produces for [m]; [m_apply (arith t) Facet_tag m a] is
    [apply(m, a, tag::facet{})] and [m_normalize (arith t) c E] is [normalize(c, equations)]. *)

(** The leading coordinate of an equation: its first non-zero one. *)
Definition leading (e : vec) (z : nat) : Prop := (z < length e)%nat /\ nth z e 0 <> 0 /\ forall c, (c < z)%nat -> nth c e 0 = 0.
(** Equations that can be solved for their leading coordinates, which no other equation contains; the leading coefficients are 1. *)
Definition solved_equations (n : nat) (E : list vec) : Prop :=
  dims n E /\ forall i, (i < length E)%nat -> exists z, leading (nth i E []) z /\
    nth z (nth i E []) 0 = 1 /\ forall j, (j < length E)%nat -> j <> i -> nth z (nth j E []) 0 = 0.
(** Every vector of terms that fits into memory has fewer than 2^64 elements. *)
Definition in_memory (n : nat) (m : lmap) : Prop := Z.of_nat n < 2 ^ 64 /\ Forall (fun im : image => Z.of_nat (length im) < 2 ^ 64) m.

Lemma solved_leads n E : solved_equations n E -> leads_ok n E /\
  forall e, In e E -> (first_nz e < n)%nat /\ nth (first_nz e) e 0 = 1.
Proof.
  intros (HE & H).
  assert (G : forall i, (i < length E)%nat -> (first_nz (nth i E []) < n)%nat /\ nth (first_nz (nth i E [])) (nth i E []) 0 = 1 /\
    forall j, (j < length E)%nat -> j <> i -> nth (first_nz (nth i E [])) (nth j E []) 0 = 0).
  { intros i Hi. destruct (H i Hi) as (z & (L1 & L2 & L3) & H1 & H2). rewrite (first_nz_unique _ z L2 L3).
    assert (Hl := dims_in n E _ HE (nth_In E [] Hi)). split; [lia|auto]. }
  split.
  - split; auto. intros i Hi. cbn zeta. destruct (G i Hi) as (G1 & G2 & G3). split; auto. split; auto. lia.
  - intros e He. destruct (In_nth E e [] He) as (i & Hi & <-). destruct (G i Hi) as (G1 & G2 & _). auto.
Qed.

(** If a map is produced at all then it acts on normalised rows like the original map followed by normalisation -- for equations with
    leading coefficient 1 (the general claim is false, see below) and types other than int16_t and int64_t. *)
Theorem C28_action_partial : forall t n (E : list vec) m m' (a b c d : vec),
  t <> INT16 -> t <> INT64 -> solved_equations n E -> rows_representable t (a :: E) ->
  map_in n m -> in_memory n m -> m_normalize_map t E m = Ok m' ->
  length a = n -> (forall e z, In e E -> leading e z -> nth z a 0 = 0) ->
  m_apply (arith t) Facet_tag m' a = Ok b ->
  m_apply (arith t) Facet_tag m a = Ok c -> m_normalize (arith t) c E = Ok d ->
  b = d.
Proof.
  intros t n E m m' a b c d Ht16 Ht64 HE HR Hm (Hn64 & Hmem) Em Ha Hz Hb Hc Hd.
  destruct (solved_leads n E HE) as (HL & Hlead).
  inversion HR as [|? ? HRa HRE]; subst.
  assert (Hsm : small (length a) m).
  { apply Forall_forall. intros im Him. destruct Hm as (_ & Hm). rewrite Forall_forall in Hm, Hmem. split; [apply Hm; auto|apply Hmem; auto]. }
  destruct (normalized_action t (length a) E m m' a Ht64 Hn64 (proj1 HE) Hlead (proj1 Hm) Hsm Em eq_refl) as (Hm' & Heq).
  { intros e He. apply (Hz e); auto. destruct (Hlead e He) as (H1 & H2). assert (Hl := dims_in _ E e (proj1 HE) He).
    destruct (first_nz_spec e) as (H3 & H4); [lia|]. split; [lia|]. auto. }
  destruct (apply_result t Facet_tag (length a) m' a b Ht16 Hm' eq_refl HRa Hb) as (-> & _).
  destruct (apply_result t Facet_tag (length a) m a c Ht16 Hm eq_refl HRa Hc) as (Ec & Hcr).
  assert (H := normalize_rel _ _ _ (sound_type t Ht16) (length a) c c E E (vec_rel t Ht16 c Hcr) (rows_rel t Ht16 E HRE)).
  rewrite Hd in H. cbn [rel] in H. assert (Lc : length c = length a) by (rewrite Ec, rnorm_length, praw_length; auto).
  specialize (H Lc HL). apply rel_vec in H. destruct H as (Hd' & _). change (num (arith t)) with Z in *. rewrite Heq, <- Ec. symmetry. exact Hd'.
Qed.
Print Assumptions C28_action_partial.

Example C28_example :
  let E := [[1; 1; 1; -3]] in let swap := [[(1%nat, 1)]; [(0%nat, 1)]; [(2%nat, 1)]; [(3%nat, 1)]] in
  solved_equations 4 E /\ map_in 4 swap /\
  m_normalize_map INT32 E swap = Ok [[]; [(1%nat, -1); (2%nat, -1); (3%nat, 3)]; [(2%nat, 1)]; [(3%nat, 1)]] /\
  m_apply (arith INT32) Facet_tag [[]; [(1%nat, -1); (2%nat, -1); (3%nat, 3)]; [(2%nat, 1)]; [(3%nat, 1)]] [0; 2; 1; -4] = Ok [0; -2; -1; 2] /\
  m_apply (arith INT32) Facet_tag swap [0; 2; 1; -4] = Ok [2; 0; 1; -4] /\
  m_normalize (arith INT32) [2; 0; 1; -4] E = Ok [0; -2; -1; 2].
Proof.
  cbn zeta. split; [|split; [|repeat split; reflexivity]].
  - split; [repeat constructor|]. intros [|i] Hi; cbn [length] in Hi; [|lia]. exists 0%nat. cbn [nth]. split; [|split; [reflexivity|]].
    + split; [cbn; lia|]. split; [discriminate|]. intros c Hc. lia.
    + intros [|j] Hj Hne; cbn [length] in Hj; lia.
  - split; auto. repeat constructor.
Qed.

(** *** The general claim is false *)
(** A triangle in the plane [2x + 2y + z = 1] and the symmetry that exchanges [x] and [y]. *)
Definition triangle : list vec := [[0; 0; 1; 1]; [1; 0; -1; 1]; [0; 1; -1; 1]].
Definition exchange : lmap := [[(1%nat, 1)]; [(0%nat, 1)]; [(2%nat, 1)]; [(3%nat, 1)]].
Definition exchange_normalised : lmap := [[]; [(1%nat, -2); (2%nat, -1); (3%nat, 1)]; [(2%nat, 1)]; [(3%nat, 1)]].

(** The normalised symmetry maps a facet of the triangle to a row that a vertex of the triangle violates. *)
Theorem C28_leading_coefficient_breaks : exists (V E F : list vec) m m' (f b v : vec),
  Permutation (map (substitute m) V) V /\
  m_extract_equations (arith INT32) V = Ok E /\ m_fme (arith INT32) sorted_order V = Ok F /\
  m_normalize_map INT32 E m = Ok m' /\ In f F /\ m_apply (arith INT32) Facet_tag m' f = Ok b /\
  In v V /\ dot b v > 0.
Proof.
  exists triangle, [[2; 2; 1; -1]], [[0; 2; 1; -1]; [0; -1; 0; 0]; [0; 0; -1; -1]], exchange, exchange_normalised, [0; 2; 1; -1], [0; -4; -1; 1], [1; 0; -1; 1].
  split; [cbn; apply perm_skip, perm_swap|].
  split; [reflexivity|]. split; [reflexivity|]. split; [reflexivity|]. split; [left; reflexivity|]. split; [reflexivity|].
  split; [right; left; reflexivity|]. reflexivity.
Qed.
Print Assumptions C28_leading_coefficient_breaks.

(** The class of that facet under the normalised symmetry is infinite: with unbounded integers its computation never returns, with
    [int] it overflows.  (The class under the symmetry itself has two rows.) *)
Lemma exchange_in : map_in 4 exchange_normalised.
Proof. split; [reflexivity|]. unfold exchange_normalised. repeat (apply Forall_cons || apply Forall_nil); (split; [cbn; lia|reflexivity]). Qed.
Lemma spiral k : exists b c, orbit EXACT Facet_tag [exchange_normalised] [0; 2; 1; -1] [0; b; c; - c] /\ Z.abs b = 2 ^ (Z.of_nat k + 1) /\ Z.odd c = true.
Proof.
  induction k as [|k (b & c & Ho & Hb & Hc)]; [exists 2, 1; split; [constructor|auto]|].
  exists (-2 * b), (c - b).
  assert (Heven : exists q, b = 2 * q).
  { rewrite Z.add_1_r, Z.pow_succ_r in Hb by lia. destruct (Z.abs_spec b) as [(_ & E)|(_ & E)]; rewrite E in Hb; [exists (2 ^ Z.of_nat k); lia|exists (- 2 ^ Z.of_nat k); lia]. }
  destruct Heven as (q & Hq).
  assert (Hodd : Z.odd (c - b) = true) by (rewrite Hq; rewrite Z.odd_sub, Hc, Z.odd_mul; reflexivity).
  split; [|split; auto].
  - apply (orbit_apply EXACT Facet_tag _ _ [0; b; c; - c] exchange_normalised); [auto|left; auto|].
    rewrite (apply_exact Facet_tag 4) by (auto; apply exchange_in).
    f_equal. assert (Ep : praw Facet_tag exchange_normalised [0; b; c; - c] = [0; -2 * b; c - b; - (c - b)]).
    { apply (dot_ext 4); auto. intros x Hx. rewrite (facet_dot 4) by (auto; apply exchange_in).
      destruct x as [|x0 [|x1 [|x2 [|x3 [|]]]]]; try discriminate. unfold substitute, exchange_normalised; cbn [map image_value fold_right fst snd nth dot]; ring. }
    rewrite Ep. assert (Hg : rgcd [0; -2 * b; c - b; - (c - b)] = 1).
    { set (g := rgcd _). assert (Hg0 : 0 <= g) by apply rgcd_nonneg.
      assert (D1 : (g | -2 * b)) by (apply rgcd_divide; right; left; auto).
      assert (D2 : (g | c - b)) by (apply rgcd_divide; right; right; left; auto).
      assert (Hpow : (g | 2 ^ (Z.of_nat k + 2))).
      { replace (2 ^ (Z.of_nat k + 2)) with (Z.abs (-2 * b)); [apply Z.divide_abs_r; auto|].
        rewrite Z.abs_mul, Hb. change (Z.abs (-2)) with 2. rewrite <- Z.pow_succ_r by lia. f_equal. lia. }
      assert (Hrel : Z.gcd (2 ^ (Z.of_nat k + 2)) (c - b) = 1).
      { assert (G : forall j, Z.gcd (2 ^ Z.of_nat j) (c - b) = 1).
        { induction j as [|j IHj]; [apply Z.gcd_1_l|]. rewrite Nat2Z.inj_succ, Z.pow_succ_r by lia.
          apply Zgcd_1_rel_prime. apply rel_prime_sym. apply rel_prime_mult; apply rel_prime_sym; [|apply Zgcd_1_rel_prime; auto].
          apply Zgcd_1_rel_prime. rewrite Z.odd_spec in Hodd. destruct Hodd as (w & Hw). rewrite Hw. replace (2 * w + 1) with (1 + w * 2) by lia.
          rewrite Z.gcd_add_mult_diag_r. reflexivity. }
        replace (Z.of_nat k + 2) with (Z.of_nat (S (S k))) by lia. apply G. }
      assert (D := Z.gcd_greatest _ _ _ Hpow D2). rewrite Hrel in D. apply Z.divide_1_r_nonneg in D; auto. }
    unfold rnorm. rewrite Hg. reflexivity.
  - rewrite Z.abs_mul, Hb. change (Z.abs (-2)) with 2. rewrite <- Z.pow_succ_r by lia. f_equal. lia.
Qed.

Theorem C28_class_never_returns :
  (forall fuel S, m_get_class (arith EXACT) fuel Facet_tag [exchange_normalised] [0; 2; 1; -1] <> Ok (Some S)) /\
  (exists fuel, m_get_class (arith INT32) fuel Facet_tag [exchange_normalised] [0; 2; 1; -1] = UB) /\
  m_get_class (arith EXACT) 2 Facet_tag [exchange] [2; 0; 1; -1] = Ok (Some [[0; 2; 1; -1]; [2; 0; 1; -1]]).
Proof.
  split; [|split; [exists 100%nat; vm_compute; reflexivity|vm_compute; reflexivity]].
  intros fuel S E. destruct (C26_class_is_orbit _ _ _ _ _ _ E) as (_ & HS).
  assert (Hbound : exists B, forall x : vec, In x S -> Z.abs (nth 1 x 0) <= B).
  { clear. change (num (arith EXACT)) with Z in *. unfold vec. induction S as [|y S (B & HB)]; [exists 0; intros ? []|]. exists (Z.max (Z.abs (nth 1 y 0)) B). intros x [<-|Hx]; [lia|]. specialize (HB x Hx). lia. }
  destruct Hbound as (B & HB). destruct (spiral (Z.to_nat B)) as (b & c & Ho & Hb & _). apply HS in Ho. specialize (HB _ Ho). cbn [nth] in HB.
  rewrite Hb in HB. assert (H0 : 0 <= B) by (assert (0 <= 2 ^ (Z.of_nat (Z.to_nat B) + 1)) by (apply Z.pow_nonneg; lia); lia).
  rewrite Z2Nat.id in HB by auto. assert (H := Z.pow_gt_lin_r 2 (B + 1) ltac:(lia) ltac:(lia)). lia.
Qed.
Print Assumptions C28_class_never_returns.

(** An image with two terms that is not cleared makes the normalisation read a vector after assigning it: it never ends well. *)
Theorem C28_two_terms_undefined : forall t (e : vec) (E : list vec) m m' i,
  (2 <= length (nth i m []))%nat -> (forall e', In e' (e :: E) -> first_nz e' <> i) ->
  m_normalize_map t (e :: E) m <> Ok m'.
Proof.
  intros t e E m m' i Hi Hne Eq. unfold m_normalize_map in Eq.
  match type of Eq with (bind ?m _ = _) => destruct m as [m1| |] eqn:E1 end; cbn [bind] in Eq; try discriminate.
  assert (Hkeep : nth i m1 [] = nth i m []).
  { assert (Hout : ~ In i (m_indices t (e :: E))).
    { intros Hin. unfold m_indices in Hin. apply in_map_iff in Hin. destruct Hin as (e' & Ee & He'). rewrite (first_nonzero_z t e') in Ee. exact (Hne e' He' Ee). }
    clear -E1 Hout. revert m E1. induction (m_indices t (e :: E)) as [|z zs IH]; intros m E1; unfold m_eliminate in E1; cbn [foldM] in E1.
    - injection E1 as ->; reflexivity.
    - match type of E1 with (bind ?m _ = _) => destruct m as [q| |] eqn:Es end; cbn [bind] in E1; try discriminate.
      assert (q = upd m z []) as -> by (unfold set, lmap, image in *; match type of Es with ((if ?b then _ else _) = _) => destruct b end; congruence).
      rewrite (IH (fun H => Hout (or_intror H)) _ E1). apply nth_upd_other. intros ->. apply Hout. left. auto. }
  unfold m_subtract_all in Eq. cbn [foldM] in Eq. match type of Eq with (bind (bind ?m _) _ = _) => destruct m as [m2| |] eqn:E2 end; cbn [bind] in Eq; try discriminate.
  rewrite <- Hkeep in Hi. clear -E2 Hi. unfold m_subtract in E2. revert i m2 E2 Hi. induction m1 as [|im m1 IH]; intros i m2 E2 Hi; [destruct i; cbn in Hi; lia|].
  cbn [mapM] in E2. match type of E2 with (bind ?m _ = _) => destruct m as [im'| |] eqn:E3 end; cbn [bind] in E2; try discriminate.
  match type of E2 with (bind ?m _ = _) => destruct m as [ms| |] eqn:E4 end; cbn [bind] in E2; try discriminate.
  destruct i as [|i]; cbn [nth] in Hi; [|apply (IH i ms eq_refl Hi)].
  destruct im as [|t1 [|t2 im]]; cbn [length] in Hi; try lia. unfold m_subtract_image in E3.
  match type of E3 with (bind ?m _ = _) => destruct m as [q| |] eqn:E5 end; cbn [bind] in E3; discriminate.
Qed.
Print Assumptions C28_two_terms_undefined.

(** For [int64_t] the product of factor and coefficient is narrowed to [int] without notice. *)
Theorem C28_int64_narrowed : m_normalize_map INT64 [[1; 4294967296; -1]] [[(0%nat, 1)]; [(0%nat, 1)]; [(2%nat, 1)]] = Ok [[]; [(1%nat, 0); (2%nat, 1)]; [(2%nat, 1)]].
Proof. reflexivity. Qed.
Print Assumptions C28_int64_narrowed.

(** ** C29: simplify *)
(** [coefficient im k] is the sum of the factors of the terms with index [k]; [increasing im]: the indices increase strictly. *)
Theorem C29_result_partial : forall im r, Z.of_nat (length im) < 2 ^ 64 -> m_simplify_image im = Ok r ->
  increasing r /\ (forall k, coefficient r k = coefficient im k) /\ (forall k, In (k, 0) r -> In (k, 0) im).
Proof. intros im r Hl E. destruct (simplify_result im r Hl E) as (H1 & H2 & H3). auto. Qed.
Print Assumptions C29_result_partial.

(** Without zero factors in the input the result consists of exactly the indices with a non-zero sum of factors. *)
Theorem C29_no_zero_terms_partial : forall im r, Z.of_nat (length im) < 2 ^ 64 -> m_simplify_image im = Ok r -> (forall k, ~ In (k, 0) im) ->
  forall k c, In (k, c) r <-> (c = coefficient im k /\ c <> 0).
Proof.
  intros im r Hl E Hz k c. destruct (simplify_result im r Hl E) as (H2 & H1 & H3).
  assert (Hc : forall (l : image) k, increasing l -> (forall c, In (k, c) l -> coefficient l k = c) /\ ((forall c, ~ In (k, c) l) -> coefficient l k = 0)).
  { clear. intros l k H. induction H as [|x l _ (I1 & I2) Hx]; [split; [intros ? []|auto]|]. rewrite Forall_forall in Hx.
    cbn [coefficient fold_right]. fold (coefficient l k). split.
    - intros c [->|Hin].
      + cbn [fst snd]. rewrite Nat.eqb_refl, I2; [lia|]. intros c' Hin. specialize (Hx _ Hin). cbn [fst] in Hx. lia.
      + assert (Hlt := Hx _ Hin). cbn [fst] in Hlt. destruct (Nat.eqb_spec (fst x) k); [lia|]. rewrite (I1 c Hin). lia.
    - intros Hno. destruct (Nat.eqb_spec (fst x) k) as [Ek|Ek].
      + exfalso. apply (Hno (snd x)). left. destruct x; cbn [fst snd] in *. congruence.
      + rewrite I2; [lia|]. intros c Hin. apply (Hno c). right. auto. }
  destruct (Hc r k H1) as (C1 & C2). split.
  - intros Hin. assert (c = coefficient im k) by (rewrite <- H2; symmetry; auto). split; auto. intros ->. apply (Hz k). apply H3. auto.
  - intros (-> & Hne). destruct (in_dec Nat.eq_dec k (map fst r)) as [Hin|Hout].
    + apply in_map_iff in Hin. destruct Hin as ((k' & c') & Ek & Hin). cbn [fst] in Ek. subst k'. rewrite <- H2, (C1 c' Hin). auto.
    + exfalso. apply Hne. rewrite <- H2. apply C2. intros c Hin. apply Hout. apply in_map_iff. exists (k, c). auto.
Qed.
Print Assumptions C29_no_zero_terms_partial.

(** When it stays inside the image: exactly when no proper initial part of the sorted image, of at least two terms of one index, adds up
    to zero.  ([total] is the sum of the absolute values of the factors: small enough that no addition overflows.) *)
Theorem C29_defined_iff_partial : forall im, Z.of_nat (length im) < 2 ^ 64 -> total im <= int_max 32 ->
  (exists r, m_simplify_image im = Ok r) <->
  ~ exists j k, (2 <= j < length im)%nat /\ (forall tm, In tm (firstn j (term_sort im)) -> fst tm = k) /\
      fold_right (fun tm s => snd tm + s) 0 (firstn j (term_sort im)) = 0.
Proof.
  intros im Hl Ht. assert (HL := Permutation_length (sort_perm im)).
  destruct (simplify_defined im Hl Ht) as [(Hr & Hj)|(Hr & j & Hj & Hlt)]; split; auto.
  - intros _ (j & k & Hj' & Hk & Hs). assert (j = length im); [|lia]. apply Hj. split; [lia|]. split; eauto.
  - intros (r & E). congruence.
  - intros Hno. exfalso. apply Hno. destruct Hj as (H1 & (k & H2) & H3). exists j, k. split; [lia|]. auto.
Qed.
Print Assumptions C29_defined_iff_partial.

(** It does access elements outside the image. *)
Theorem C29_leaves_the_image : m_simplify_image [(0%nat, 1); (1%nat, 1); (0%nat, -1)] = UB.
Proof. reflexivity. Qed.
Print Assumptions C29_leaves_the_image.
(** Zero terms that need no merging stay. *)
Theorem C29_zero_terms_stay : m_simplify_image [(1%nat, 0); (0%nat, 1)] = Ok [(0%nat, 1); (1%nat, 0)].
Proof. reflexivity. Qed.
Print Assumptions C29_zero_terms_stay.

Example C29_example : m_simplify_image [(1%nat, 1); (2%nat, 2); (1%nat, -1); (0%nat, 5); (2%nat, 1)] = Ok [(0%nat, 5); (2%nat, 3)] /\
  ~ (exists j k, (2 <= j < 5)%nat /\ (forall tm, In tm (firstn j (term_sort [(1%nat, 1); (2%nat, 2); (1%nat, -1); (0%nat, 5); (2%nat, 1)])) -> fst tm = k) /\
      fold_right (fun tm s => snd tm + s) 0 (firstn j (term_sort [(1%nat, 1); (2%nat, 2); (1%nat, -1); (0%nat, 5); (2%nat, 1)])) = 0).
Proof.
  split; [reflexivity|]. intros (j & k & Hj & Hk & _). destruct j as [|[|j]]; try lia. cbn in Hk.
  assert (H0 := Hk (0%nat, 5) ltac:(tauto)). assert (H1 := Hk (1%nat, -1) ltac:(tauto)). cbn in *. congruence.
Qed.
