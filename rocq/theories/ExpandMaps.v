(** * ExpandMaps: maps that are only put in order before they are used on reduced inequalities. *)
From Coq Require Import List ZArith Arith Bool Ascii String Lia Sorted Permutation.
From Verif Require Import Base Spec LinAlg ListUtil FmeCore ArithModel SafeIntModel IntTypes FmeTheorems ClassesModel ClassesProofs ApplyTheorems MapModel MapProofs Expand.
Import ListNotations.
Open Scope Z_scope.

(** ** Specification *)
(** No image of the map mentions a coordinate twice (and none is as long as the address space). *)
Definition simple_map (m : lmap) : Prop := Forall (fun im : image => NoDup (map fst im) /\ Z.of_nat (length im) < 2 ^ 64) m.
(** A map whose images are those of [m] up to the order of the terms. *)
Definition reordered : lmap -> lmap -> Prop := Forall2 (fun im im' : image => Permutation im im').

(** ** [normalize] without equations *)
Lemma zloop_id rest : forall L x, increasing (x :: rest) -> zloop L x rest = Ok (rev L ++ x :: rest).
Proof.
  induction rest as [|y rest IH]; intros L x H; cbn [zloop]; [reflexivity|]. inversion H as [|? ? H1 H2]; subst. apply Forall_inv in H2 as Hxy. destruct (Nat.eqb_spec (fst x) (fst y)); [lia|].
  rewrite IH by auto. cbn [rev]. rewrite <- app_assoc. reflexivity.
Qed.
Lemma sorted_increasing l : StronglySorted tle l -> NoDup (map fst l) -> increasing l.
Proof.
  induction 1 as [|x l _ IH H]; intros HN; constructor; cbn [map] in HN; apply NoDup_cons_iff in HN as [N1 N2]; [apply IH; auto|]. rewrite Forall_forall in *. intros y Hy. assert (K := term_le_fst _ _ (H y Hy)).
  assert (fst x <> fst y) by (intros E; apply N1; rewrite E; apply in_map; auto). lia.
Qed.
Lemma simplify_simple im : NoDup (map fst im) -> Z.of_nat (length im) < 2 ^ 64 -> m_simplify_image im = Ok (term_sort im).
Proof.
  intros HN HL. rewrite simplify_zimage by auto. unfold zimage. assert (HP := sort_perm im). assert (HI : increasing (term_sort im)).
  { apply sorted_increasing; [apply sort_sorted|]. apply (Permutation_NoDup (Permutation_map fst (Permutation_sym HP))). auto. }
  destruct (term_sort im) as [|x rest]; [reflexivity|]. rewrite zloop_id by auto. reflexivity.
Qed.
Lemma normalize_simple m : simple_map m -> exists m', m_normalize_map INT32 [] m = Ok m' /\ reordered m m'.
Proof.
  intros H. exists (map term_sort m). unfold m_normalize_map, m_indices. cbn [map m_eliminate foldM bind]. unfold m_subtract_all. cbn [foldM bind]. unfold m_simplify. split.
  - induction H as [|im m [H1 H2] _ IH]; [reflexivity|]. cbn [mapM map]. rewrite simplify_simple by auto. cbn [bind]. rewrite IH. reflexivity.
  - clear H. induction m; constructor; auto. apply Permutation_sym, sort_perm.
Qed.
Lemma normalize_all maps : Forall simple_map maps -> exists maps', m_normalize_maps INT32 [] maps = Ok maps' /\ Forall2 reordered maps maps'.
Proof.
  induction 1 as [|m maps Hm _ (maps' & IH1 & IH2)]; [exists []; split; [reflexivity|constructor]|]. destruct (normalize_simple m Hm) as (m' & E & R). exists (m' :: maps'). split; [|constructor; auto].
  unfold m_normalize_maps. cbn [mapM]. rewrite E. cbn [bind]. unfold m_normalize_maps in IH1. rewrite IH1. reflexivity.
Qed.

(** ** The order of the terms does not matter *)
Lemma sumf_perm {X} (f : X -> Z) a b : Permutation a b -> sumf f a = sumf f b.
Proof. induction 1; cbn [sumf fold_right] in *; unfold sumf in *; lia. Qed.
Lemma image_value_perm a b x : Permutation a b -> image_value a x = image_value b x.
Proof. intros H. rewrite !image_value_sum. apply sumf_perm; auto. Qed.
Lemma reordered_substitute m m' x : reordered m m' -> substitute m x = substitute m' x.
Proof. induction 1 as [|a b m m' H _ IH]; [reflexivity|]. cbn [substitute map]. fold (substitute m x) (substitute m' x). rewrite (image_value_perm a b x H), IH. reflexivity. Qed.
Lemma reordered_length m m' : reordered m m' -> length m = length m'.
Proof. induction 1; cbn; auto. Qed.
Lemma reordered_nth m m' : reordered m m' -> forall i, Permutation (nth i m []) (nth i m' []).
Proof. induction 1 as [|a b m m' H _ IH]; intros [|i]; cbn [nth]; auto. Qed.
Lemma reordered_in n m m' : reordered m m' -> map_in n m -> map_in n m'.
Proof.
  intros H [H1 H2]. split; [rewrite <- (reordered_length _ _ H); auto|]. clear H1. revert H2. induction H as [|a b m m' H _ IH]; intros H2; auto. inversion H2; subst. constructor; [|apply IH; auto].
  rewrite Forall_forall in *. intros tm Htm. apply H3. apply (Permutation_in _ (Permutation_sym H)). auto.
Qed.
Lemma reordered_sym m m' : reordered m m' -> reordered m' m.
Proof. induction 1; constructor; auto. apply Permutation_sym; auto. Qed.
Lemma reordered_step m m' a b : reordered m m' -> facet_step m a b -> facet_step m' a b.
Proof. intros H (L & P & g & Hg & E). split; auto. split; auto. exists g. split; auto. intros x Hx. rewrite E by auto. rewrite (reordered_substitute m m' x H). reflexivity. Qed.
Lemma reordered_load m m' a k : reordered m m' -> facet_load m a k = facet_load m' a k.
Proof. intros H. unfold facet_load. rewrite (reordered_length _ _ H). apply sumf_ext. intros i _. apply sumf_perm, reordered_nth; auto. Qed.
Lemma reordered_find maps maps' m' : Forall2 reordered maps maps' -> In m' maps' -> exists m, In m maps /\ reordered m m'.
Proof. induction 1 as [|a b maps maps' H _ IH]; intros Hin; [destruct Hin|]. destruct Hin as [<-|Hin]; [exists a; split; [left|]; auto|]. destruct (IH Hin) as (m & K1 & K2). exists m. split; [right|]; auto. Qed.
Lemma reordered_reached maps maps' r x : Forall2 reordered maps maps' -> reached facet_step maps r x -> reached facet_step maps' r x.
Proof.
  intros H. induction 1 as [|m x y Hx IH Hin Hs]; [constructor|]. assert (HF : exists m', In m' maps' /\ reordered m m').
  { clear - H Hin. induction H as [|a b maps maps' H _ IH]; [destruct Hin|]. destruct Hin as [<-|Hin]; [exists b; split; [left|]; auto|]. destruct (IH Hin) as (m' & K1 & K2). exists m'. split; [right|]; auto. }
  destruct HF as (m' & Hin' & HR). apply (reached_step _ _ _ m' x); auto. apply (reordered_step m); auto.
Qed.
Lemma reordered_class maps maps' r rows : Forall2 reordered maps maps' -> class_of facet_step facet_load maps r rows -> class_of facet_step facet_load maps' r rows.
Proof.
  intros H (H1 & H2 & H3 & H4 & H5). assert (H' : Forall2 reordered maps' maps) by (clear - H; induction H; constructor; auto; apply reordered_sym; auto). split; [|split; [|split; [|split]]]; auto.
  - rewrite Forall_forall in *. intros m' Hm'. destruct (reordered_find _ _ _ H Hm') as (m & K1 & K2). apply (reordered_in _ m); auto.
  - intros x. rewrite H4. split; apply reordered_reached; auto.
  - intros x m' k Hx Hm'. destruct (reordered_find _ _ _ H Hm') as (m & K1 & K2). rewrite <- (reordered_load m m' x k K2). apply H5; auto. apply (reordered_reached maps' maps); auto.
Qed.
