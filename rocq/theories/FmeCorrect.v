(** * FmeCorrect: the elimination enumerates exactly the facets of the cone. *)
From Coq Require Import List ZArith NArith Lia Bool Arith Permutation.
From Verif Require Import Spec LinAlg Cone Bits ListUtil FmeCore FmeFacets Gauss FmePure FmeReduce FmePrepare.
Import ListNotations.
Open Scope Z_scope.

Lemma map_nth_seq {A} (l : list A) d : map (fun i => nth i l d) (seq 0 (length l)) = l.
Proof.
  induction l as [|x l IH]; cbn [length seq map]; auto. f_equal. rewrite <- seq_shift, map_map. exact IH.
Qed.

(** Rows over the remaining columns that consist of [-1] in the last one. *)
Lemma bad_row_spec d r : length r = S d -> bad_row r = true <-> r = unit_vec (S d) d (-1).
Proof.
  intros Hl. unfold bad_row. rewrite andb_true_iff, forallb_forall, Z.eqb_eq.
  assert (Hr : r <> []) by (intros ->; discriminate).
  split.
  - intros (H1 & H2). apply (vec_ext_nth (S d)); auto using unit_vec_length. intros j Hj.
    rewrite (app_removelast_last 0 Hr) in Hl |- *. rewrite app_length in Hl. cbn [length] in Hl.
    unfold unit_vec. rewrite nth_upd, vzero_length, nth_vzero.
    destruct (Nat.eqb_spec j d) as [->|Hne]; cbn [andb].
    + destruct (Nat.ltb_spec d (S d)); [|lia]. rewrite app_nth2 by lia.
      replace (d - length (removelast r))%nat with 0%nat by lia. cbn [nth]. auto.
    + rewrite app_nth1 by lia. apply Z.eqb_eq, H1. apply nth_In. lia.
  - intros ->. unfold unit_vec.
    assert (E : upd (vzero (S d)) d (-1) = vzero d ++ [-1]).
    { clear. unfold vzero. induction d as [|d IH]; [reflexivity|]. cbn [repeat upd app]. f_equal. exact IH. }
    rewrite E, removelast_last, last_last. split; auto.
    intros x Hx. apply Z.eqb_eq. apply repeat_spec in Hx; auto.
Qed.

Lemma detect_bad_row_filter d M : dims (S d) M -> NoDup M ->
  detect_bad_row M = filter (fun r => negb (bad_row r)) M.
Proof.
  intros HM Hnd. assert (Hall : forall l, incl l M -> (forall r, In r l -> bad_row r = false) ->
     detect_bad_row l = l /\ filter (fun r => negb (bad_row r)) l = l).
  { induction l as [|r l IH]; intros Hi Hb; cbn [detect_bad_row filter]; auto.
    rewrite (Hb r) by (left; auto). cbn [negb].
    destruct IH as (-> & ->); auto.
    - intros x Hx; apply Hi; right; auto.
    - intros x Hx; apply Hb; right; auto. }
  assert (Hi := incl_refl M). revert Hi Hnd. generalize M at 1 3 4 5. intros l.
  induction l as [|r l IH]; intros Hi Hnd; cbn [detect_bad_row filter]; auto.
  inversion Hnd as [|? ? Hn Hnd']; subst. destruct (bad_row r) eqn:Eb; cbn [negb].
  - assert (Hno : forall x, In x l -> bad_row x = false).
    { intros x Hx. destruct (bad_row x) eqn:Ex; auto. exfalso.
      apply (bad_row_spec d) in Ex; [|apply (dims_in (S d) M); auto; apply Hi; right; auto].
      apply (bad_row_spec d) in Eb; [|apply (dims_in (S d) M); auto; apply Hi; left; auto].
      apply Hn. congruence. }
    assert (Hl : incl l M) by (intros x Hx; apply Hi; right; auto).
    destruct (Hall l Hl Hno) as (E1 & E2). rewrite E2. destruct l as [|r' l']; auto.
    f_equal. apply (Hall l').
    + intros x Hx; apply Hl; right; auto.
    + intros x Hx; apply Hno; right; auto.
  - f_equal. apply IH; auto. intros x Hx; apply Hi; right; auto.
Qed.

Section Correct.
  Variable order : list nat -> list nat.
  Hypothesis order_perm : forall ks, Permutation (order ks) (seq 0 (length ks)).
  Variables (n : nat) (V : list vec).
  Hypothesis HV : dims n V.

  Lemma zsort_of_perm l : Permutation (zsort_of order l) l.
  Proof.
    unfold zsort_of. rewrite (Permutation_map _ (order_perm _)). rewrite map_length.
    rewrite map_nth_seq. reflexivity.
  Qed.

  Notation p := (prepare n V).
  Notation zc := (p_zero p).
  Notation d := (length (p_matrix p)).
  Notation W := (p_vertices p).
  Notation eqs := (p_eqs p).

  Let P := prepare_ok n V HV.

  Lemma W_dims : dims d W.
  Proof.
    apply Forall_forall. intros w Hw. apply (Permutation_in _ (po_vertices _ _ _ P)) in Hw.
    apply in_map_iff in Hw. destruct Hw as (v & <- & Hv).
    assert (Hl : length v = n) by (apply (dims_in n V); auto).
    rewrite er_length, Hl.
    - assert (H := po_dim _ _ _ P). lia.
    - apply (po_desc _ _ _ P).
    - rewrite Hl. apply (po_zero _ _ _ P).
  Qed.

  Lemma er_len v : length v = n -> length (er zc v) = d.
  Proof.
    intros Hl. rewrite er_length, Hl.
    - assert (H := po_dim _ _ _ P). lia.
    - apply (po_desc _ _ _ P).
    - rewrite Hl. apply (po_zero _ _ _ P).
  Qed.

  Lemma ins_len r : length r = d -> length (ins zc r) = n.
  Proof. intros H. rewrite ins_length, H. apply (po_dim _ _ _ P). Qed.

  Lemma dot_lift r v : length r = d -> length v = n -> dot (ins zc r) v = dot r (er zc v).
  Proof.
    intros Hr Hv. apply dot_ins.
    - apply (po_desc _ _ _ P).
    - rewrite Hv. apply (po_zero _ _ _ P).
    - rewrite Hr, Hv. symmetry. apply (po_dim _ _ _ P).
  Qed.

  Lemma in_W w : In w W <-> exists v, In v V /\ w = er zc v.
  Proof.
    split.
    - intros H. apply (Permutation_in _ (po_vertices _ _ _ P)) in H. apply in_map_iff in H.
      destruct H as (v & <- & Hv). eauto.
    - intros (v & Hv & ->). apply (Permutation_in _ (Permutation_sym (po_vertices _ _ _ P))). apply in_map; auto.
  Qed.

  Lemma eqs_on_V v e : In v V -> In e eqs -> dot e v = 0.
  Proof. intros Hv He. apply (po_eqs_van _ _ _ P e He v Hv). Qed.

  Lemma V_len v : In v V -> length v = n.
  Proof. intros Hv. apply (dims_in n V); auto. Qed.

  Lemma facet_up r : facet d W r -> facet n V (ins zc r).
  Proof.
    intros (Hl & Hv & Hnv & Hf). split; [apply ins_len; auto|]. split; [|split].
    - intros v Hvi. rewrite dot_lift by auto using V_len. apply Hv. apply in_W; eauto.
    - intros Hz. apply Hnv. intros w Hw. apply in_W in Hw. destruct Hw as (v & Hvi & ->).
      rewrite <- dot_lift by auto using V_len. auto.
    - intros b Hb Ht. destruct (po_forms _ _ _ P b Hb) as (k & b' & Hk & Hb' & Hform).
      destruct (Hf b' Hb') as (k2 & t & Hk2 & Hvan).
      { intros w Hw E. apply in_W in Hw. destruct Hw as (v & Hvi & ->).
        rewrite <- Hform by (auto using V_len; intros; apply eqs_on_V; auto).
        rewrite Ht; [lia|auto|]. rewrite dot_lift; auto using V_len. }
      exists (k2 * k), t. split; [nia|]. intros v Hvi.
      assert (Hw := Hvan (er zc v) ltac:(apply in_W; eauto)).
      rewrite dot_vadd_l, !dot_vscale_l in * by (rewrite !vscale_length, ?ins_len; lia).
      rewrite <- Hform in Hw by (auto using V_len; intros; apply eqs_on_V; auto).
      rewrite dot_lift by auto using V_len. lia.
  Qed.

  Lemma facet_down a : facet n V a -> exists k a', 0 < k /\ facet d W a' /\
    forall v, length v = n -> (forall e, In e eqs -> dot e v = 0) -> k * dot a v = dot a' (er zc v).
  Proof.
    intros (Hl & Hv & Hnv & Hf). destruct (po_forms _ _ _ P a Hl) as (k & a' & Hk & Ha' & Hform).
    exists k, a'. split; [auto|]. split; [|auto].
    assert (HF : forall v, In v V -> k * dot a v = dot a' (er zc v)).
    { intros v Hvi. apply Hform; auto using V_len. intros; apply eqs_on_V; auto. }
    split; [auto|]. split; [|split].
    - intros w Hw. apply in_W in Hw. destruct Hw as (v & Hvi & ->). rewrite <- HF by auto. specialize (Hv v Hvi). nia.
    - intros Hz. apply Hnv. intros v Hvi. assert (H := Hz (er zc v) ltac:(apply in_W; eauto)).
      rewrite <- HF in H by auto. nia.
    - intros b' Hb' Ht. destruct (Hf (ins zc b')) as (k2 & t & Hk2 & Hvan).
      { apply ins_len; auto. }
      { intros v Hvi E. rewrite dot_lift by auto using V_len. apply Ht; [apply in_W; eauto|].
        rewrite <- HF by auto. lia. }
      exists (k * k2), t. split; [nia|]. intros w Hw. apply in_W in Hw. destruct Hw as (v & Hvi & ->).
      assert (H := Hvan v Hvi).
      rewrite dot_vadd_l, !dot_vscale_l in * by (rewrite !vscale_length, ?ins_len; lia).
      rewrite dot_lift in H by auto using V_len. rewrite <- HF by auto. nia.
  Qed.

  Lemma in_cone_perm A B m x : dims m A -> Permutation A B -> in_cone m A x -> length x = m -> in_cone m B x.
  Proof.
    intros HA Hp Hc Hx. assert (HB : dims m B).
    { apply (dims_incl m _ A); auto. intros v Hv. apply (Permutation_in _ (Permutation_sym Hp)); auto. }
    apply gen_in_cone; auto. apply (gen_trans m A B); auto.
    - intros g Hg. apply gen_in; auto. apply (Permutation_in _ Hp); auto.
    - apply gen_in_cone; auto.
  Qed.

  Lemma cone_up x : length x = n -> (forall e, In e eqs -> dot e x = 0) -> in_cone d W (er zc x) -> in_cone n V x.
  Proof.
    intros Hx He Hc.
    apply (in_cone_perm W (map (er zc) V)) in Hc; auto using W_dims, er_len.
    2:{ apply (po_vertices _ _ _ P). }
    destruct Hc as (k & cs & Hk & Hl & Hn & E). rewrite map_length in Hl.
    exists k, cs. split; [auto|]. split; [auto|]. split; [auto|].
    apply (vec_ext n); [rewrite vscale_length; auto|apply lincomb_length; auto|].
    intros c Hcl. destruct (po_forms _ _ _ P c Hcl) as (k' & c' & Hk' & Hc' & Hform).
    assert (E1 : k' * dot (vscale k x) c = dot c' (vscale k (er zc x))).
    { rewrite dot_vscale_l, dot_vscale_r, (dot_comm x), <- Hform by auto. lia. }
    assert (Hd : dims d (map (er zc) V)).
    { apply Forall_forall. intros w Hw. apply in_map_iff in Hw. destruct Hw as (v & <- & Hv). apply er_len, V_len; auto. }
    rewrite E, (dot_comm c'), dot_lincomb_l, map_map in E1 by auto.
    assert (E2 : k' * dot (lincomb n cs V) c = dot cs (map (fun v => dot (er zc v) c') V)).
    { rewrite dot_lincomb_l by auto. rewrite <- dot_vscale_r. unfold vscale. rewrite map_map. f_equal.
      apply map_ext_in. intros v Hv. rewrite (dot_comm v), (dot_comm (er zc v)).
      apply Hform; auto using V_len. intros; apply eqs_on_V; auto. }
    nia.
  Qed.

  (** ** The final system *)
  Definition final_system : list entry :=
    projects (zsort_of order) d d (initial_system (p_matrix p) W) (skipn d W).

  Lemma final_inv : inv d W final_system.
  Proof.
    unfold final_system.
    assert (Hf : length (firstn d W) = d).
    { rewrite firstn_length. assert (H := po_len _ _ _ P). lia. }
    assert (HW := W_dims).
    assert (H : inv d (firstn d W ++ skipn d W)
        (projects (zsort_of order) d (length (firstn d W)) (initial_system (p_matrix p) W) (skipn d W))).
    { apply projects_inv.
      - apply zsort_of_perm.
      - lia.
      - apply (po_pointed _ _ _ P).
      - apply (dims_incl d _ W); auto. intros v Hv. rewrite <- (firstn_skipn d W). apply in_app_iff; auto.
      - apply (dims_incl d _ W); auto. intros v Hv. rewrite <- (firstn_skipn d W). apply in_app_iff; auto.
      - apply (po_inv _ _ _ P). }
    rewrite firstn_skipn, Hf in H. exact H.
  Qed.

  Lemma fme_rows_eq : fme_rows order p = map fst final_system.
  Proof. reflexivity. Qed.

  Lemma inv_rows_NoDup Vs sys : inv d Vs sys -> NoDup (map fst sys).
  Proof.
    intros I.
    assert (Hinj : forall e e', In e sys -> In e' sys -> fst e = fst e' -> e = e').
    { intros e e' He He' E. apply (rows_inequivalent d Vs sys I); auto. rewrite E.
      exists 1, 1. split; [lia|]. split; [lia|]. intros v Hv.
      rewrite dot_vadd_l, !dot_vscale_l by (rewrite !vscale_length; auto). lia. }
    assert (Hanti := inv_anti _ _ _ I). revert Hinj Hanti. generalize sys. clear.
    induction sys as [|e l IH]; intros Hinj Hanti; cbn [map]; constructor.
    - intros Hin. apply in_map_iff in Hin. destruct Hin as (e' & E & He').
      assert (e' = e) as -> by (apply Hinj; cbn [In]; auto).
      destruct Hanti as (H1 & _). rewrite Forall_forall in H1. destruct (H1 e He') as (Hn & _). apply Hn.
      intros j Hj; auto.
    - apply IH; [intros; apply Hinj; cbn [In]; auto|apply Hanti].
  Qed.
  Lemma fme_rows_NoDup : NoDup (fme_rows order p).
  Proof. rewrite fme_rows_eq. apply (inv_rows_NoDup W). apply final_inv. Qed.

  Lemma fme_rows_dims : dims d (fme_rows order p).
  Proof. rewrite fme_rows_eq. apply inv_dims with (Vs := W). apply final_inv. Qed.

  (** All rows before [detectBadRow], as inequalities in the original space. *)
  Definition all_rows : list vec := map (ins zc) (fme_rows order p).

  Lemma all_rows_facet r : In r all_rows -> facet n V r /\ primitive r.
  Proof.
    intros Hr. apply in_map_iff in Hr. destruct Hr as (r' & <- & Hr). split.
    - apply facet_up. rewrite fme_rows_eq in Hr. apply in_map_iff in Hr. destruct Hr as (e & <- & He).
      apply (inv_facet d W final_system); auto. apply final_inv.
    - rewrite fme_rows_eq in Hr. apply in_map_iff in Hr. destruct Hr as (e & <- & He).
      assert (Hp := inv_prim _ _ _ final_inv e He). intros g Hg0 Hg. apply Hp; auto.
      intros x Hx. apply Hg. clear - Hx. generalize zc as z. induction z as [|c z IH]; cbn [ins fold_right]; auto.
      assert (H : forall i y (l : vec), In x l -> In x (insert_at i y l)).
      { clear. induction i as [|i IH]; intros y [|a l] H; cbn [insert_at In] in *; try tauto.
        destruct H as [H|H]; auto. }
      apply H. exact IH.
  Qed.

  Lemma all_rows_complete a : facet n V a -> exists r, In r all_rows /\ equivalent_ineq V r a.
  Proof.
    intros Ha. destruct (facet_down a Ha) as (k & a' & Hk & Hfa & Hform).
    destruct (facets_covered d W final_system final_inv a' Hfa) as (e & He & k1 & t1 & Hk1 & Ht1 & Hvan).
    exists (ins zc (fst e)). split.
    { unfold all_rows. apply in_map. rewrite fme_rows_eq. apply in_map; auto. }
    assert (Hle := inv_dim _ _ _ final_inv e He).
    assert (Hla : length a' = d) by apply Hfa. assert (Hla0 : length a = n) by apply Ha.
    exists k1, (t1 * k). split; [auto|]. split; [nia|]. intros v Hv.
    assert (Hw := Hvan (er zc v) ltac:(apply in_W; eauto)).
    rewrite dot_vadd_l, !dot_vscale_l in * by (rewrite !vscale_length, ?ins_len; auto; lia).
    rewrite dot_lift by auto using V_len.
    rewrite <- (Hform v) in Hw by (auto using V_len; intros; apply eqs_on_V; auto). lia.
  Qed.

  Lemma all_rows_inequivalent r r' : In r all_rows -> In r' all_rows -> equivalent_ineq V r r' -> r = r'.
  Proof.
    intros Hr Hr'. unfold all_rows in *. rewrite fme_rows_eq in *.
    apply in_map_iff in Hr. destruct Hr as (r1 & <- & Hr). apply in_map_iff in Hr. destruct Hr as (e & <- & He).
    apply in_map_iff in Hr'. destruct Hr' as (r2 & <- & Hr'). apply in_map_iff in Hr'. destruct Hr' as (e' & <- & He').
    intros (k & t & Hk & Ht & Hvan). f_equal. f_equal.
    apply (rows_inequivalent d W final_system final_inv); auto.
    exists k, t. split; [auto|]. split; [auto|]. intros w Hw. apply in_W in Hw. destruct Hw as (v & Hv & ->).
    specialize (Hvan v Hv).
    assert (H1 := inv_dim _ _ _ final_inv e He). assert (H2 := inv_dim _ _ _ final_inv e' He').
    rewrite dot_vadd_l, !dot_vscale_l in * by (rewrite !vscale_length, ?ins_len; auto; lia).
    rewrite !dot_lift in Hvan by auto using V_len. exact Hvan.
  Qed.

  Lemma ins_inj r r' : length r = d -> length r' = d -> ins zc r = ins zc r' -> r = r'.
  Proof.
    intros _ _. generalize zc as z. induction z as [|c z IH]; cbn [ins fold_right]; auto. intros E.
    apply IH. assert (H : forall i (y : Z) a b, insert_at i y a = insert_at i y b -> a = b).
    { clear. induction i as [|i IH]; intros y a b; destruct a as [|u a], b as [|w b]; cbn [insert_at]; intros E; auto; try congruence.
      - injection E as _ E. apply (f_equal (@length Z)) in E. rewrite insert_at_length in E. discriminate.
      - injection E as _ E. apply (f_equal (@length Z)) in E. rewrite insert_at_length in E. discriminate.
      - injection E as -> E. f_equal. eapply IH; eauto. }
    eapply H; eauto.
  Qed.

  Lemma all_rows_NoDup : NoDup all_rows.
  Proof.
    unfold all_rows. assert (Hnd := fme_rows_NoDup). assert (Hd := fme_rows_dims).
    induction (fme_rows order p) as [|r l IH]; cbn [map]; constructor.
    - intros Hin. apply in_map_iff in Hin. destruct Hin as (r' & E & Hr'). inversion Hnd; subst.
      inversion Hd as [|? ? Hl Hd']; subst.
      assert (r' = r) as -> by (apply ins_inj; auto; apply (dims_in d l); auto). auto.
    - apply IH; [inversion Hnd; auto|inversion Hd; auto].
  Qed.

  Lemma all_rows_describe x : length x = n ->
    (in_cone n V x <-> (forall e, In e eqs -> dot e x = 0) /\ (forall r, In r all_rows -> dot r x <= 0)).
  Proof.
    intros Hx. split.
    - intros Hc. assert (Hg : gen n V x) by (apply gen_in_cone; auto).
      assert (Hdual : forall a, length a = n -> valid V a -> dot a x <= 0).
      { intros a Ha Hv. destruct Hc as (k & cs & Hk & Hl & Hn & E).
        assert (E1 : k * dot a x = dot cs (map (fun v => dot v a) V)).
        { rewrite <- dot_vscale_r, E, dot_comm, dot_lincomb_l by auto. reflexivity. }
        assert (H0 : dot cs (map (fun v => dot v a) V) <= 0); [|nia].
        clear - Hn Hv. revert cs Hn. induction V as [|v l IH]; intros [|c cs] Hn; cbn [map dot]; try lia.
        inversion Hn as [|? ? Hc0 Hcs]; subst. assert (Hv1 := Hv v (or_introl eq_refl)). rewrite dot_comm in Hv1.
        specialize (IH (fun w Hw => Hv w (or_intror Hw)) cs Hcs). nia. }
      split.
      + intros e He. assert (Hel : length e = n) by (apply (dims_in n eqs); auto; apply (po_eqs_dim _ _ _ P)).
        assert (H1 : dot e x <= 0) by (apply Hdual; auto; intros v Hv; rewrite eqs_on_V; auto; lia).
        assert (H2 : dot (vscale (-1) e) x <= 0).
        { apply Hdual; [rewrite vscale_length; auto|]. intros v Hv. rewrite dot_vscale_l, eqs_on_V; auto. lia. }
        rewrite dot_vscale_l in H2. lia.
      + intros r Hr. destruct (all_rows_facet r Hr) as ((Hl & Hv & _) & _). apply Hdual; auto.
    - intros (He & Hr). apply cone_up; auto. apply (inv_primal _ _ _ final_inv).
      + apply er_len; auto.
      + intros e Hin. rewrite <- dot_lift; auto.
        * apply Hr. unfold all_rows. apply in_map. rewrite fme_rows_eq. apply in_map; auto.
        * apply (inv_dim _ _ _ final_inv); auto.
  Qed.

  (** ** The returned rows *)
  Lemma fme_filter : (0 < d)%nat ->
    fme order n V = map (ins zc) (filter (fun r => negb (bad_row r)) (fme_rows order p)).
  Proof.
    intros Hd. unfold fme. rewrite reinsert_spec. f_equal.
    assert (Hdims := fme_rows_dims). assert (Hnd := fme_rows_NoDup).
    destruct d as [|d'] eqn:E; [lia|]. apply (detect_bad_row_filter d'); auto.
  Qed.

  Lemma ins_bad d' : d = S d' -> ~ In (n - 1)%nat zc -> ins zc (unit_vec (S d') d' (-1)) = unit_vec n (n - 1) (-1).
  Proof.
    intros Hd Hn.
    assert (Hn0 := po_dim _ _ _ P).
    apply (vec_ext n).
    - apply ins_len. rewrite unit_vec_length. auto.
    - apply unit_vec_length.
    - intros c Hc. rewrite dot_lift by (rewrite ?unit_vec_length; auto).
      rewrite !dot_unit by (try lia; rewrite ?er_len; auto). f_equal.
      (* last entry of [er zc c] *)
      assert (Hlast : forall z v m, desc z -> (forall x, In x z -> (x < m)%nat) -> length v = S m ->
                nth (length (er z v) - 1) (er z v) 0 = nth m v 0).
      { clear. induction z as [|x z IH]; intros v m Hd Hb Hl.
        - cbn [er fold_left]. rewrite Hl. f_equal. lia.
        - destruct Hd as (H1 & H2). assert (Hx := Hb x (or_introl eq_refl)).
          change (er (x :: z) v) with (er z (erase x v)). destruct m as [|m]; [lia|].
          rewrite (IH (erase x v) m); auto.
          + rewrite nth_erase. destruct (Nat.ltb_spec m x); [lia|reflexivity].
          + intros y Hy. specialize (H1 y Hy). lia.
          + rewrite erase_length; lia. }
      specialize (Hlast zc c (n - 1)%nat).
      rewrite er_len in Hlast by auto. rewrite Hd in Hlast. replace (S d' - 1)%nat with d' in Hlast by lia.
      apply Hlast.
      + apply (po_desc _ _ _ P).
      + intros x Hx. assert (H1 := po_zero _ _ _ P x Hx). destruct (Nat.eq_dec x (n - 1)); [congruence|lia].
      + lia.
  Qed.

  (** With a generator that is not at infinity, exactly the row [-x_n <= 0] is dropped. *)
  Lemma fme_in_iff r : (exists v, In v V /\ nth (n - 1) v 0 <> 0) ->
    In r (fme order n V) <-> In r all_rows /\ r <> unit_vec n (n - 1) (-1).
  Proof.
    intros (v & Hv & Hne).
    assert (Hlast : ~ In (n - 1)%nat zc) by (intros H; apply Hne; apply (po_last _ _ _ P); auto).
    assert (Hn0 : (0 < n)%nat).
    { assert (Hvl := V_len v Hv). destruct n as [|n']; [|lia]. destruct v; [|discriminate]. exfalso. apply Hne. reflexivity. }
    assert (Hd : (0 < d)%nat).
    { destruct d as [|d'] eqn:E; [|lia]. exfalso. assert (Hdim := po_dim _ _ _ P). rewrite E in Hdim.
      assert (Hi : incl (seq 0 n) zc).
      { apply NoDup_length_incl.
        - apply desc_NoDup. apply (po_desc _ _ _ P).
        - rewrite seq_length. lia.
        - intros c Hc. apply in_seq. apply (po_zero _ _ _ P) in Hc. lia. }
      apply Hlast, Hi, in_seq. lia. }
    rewrite fme_filter by auto. unfold all_rows. rewrite !in_map_iff.
    destruct d as [|d'] eqn:E; [lia|].
    assert (Hib := ins_bad d' E Hlast).
    assert (Hdims := fme_rows_dims). rewrite E in Hdims.
    split.
    - intros (r' & <- & Hr). apply filter_In in Hr. destruct Hr as (Hr & Hb). split; [eauto|].
      intros Ei. rewrite <- Hib in Ei. apply ins_inj in Ei.
      + apply (bad_row_spec d') in Ei; [rewrite Ei in Hb; discriminate|]. apply (dims_in (S d') _ _ Hdims); auto.
      + rewrite E. apply (dims_in (S d') _ _ Hdims); auto.
      + rewrite E. apply unit_vec_length.
    - intros ((r' & <- & Hr) & Hneq). exists r'. split; auto. apply filter_In. split; auto.
      destruct (bad_row r') eqn:Eb; auto. exfalso. apply Hneq. apply (bad_row_spec d') in Eb.
      + rewrite Eb. exact Hib.
      + apply (dims_in (S d') _ _ Hdims); auto.
  Qed.

  Lemma fme_incl r : In r (fme order n V) -> In r all_rows.
  Proof.
    unfold fme. rewrite reinsert_spec. unfold all_rows. intros H. apply in_map_iff in H. destruct H as (r' & <- & Hr).
    apply in_map. revert Hr. generalize (fme_rows order p). clear.
    assert (H : forall m l, (length l <= m)%nat -> forall r, In r (detect_bad_row l) -> In r l).
    { induction m as [|m IH]; intros [|x l] Hl r; cbn [detect_bad_row length] in *; auto; try lia.
      destruct (bad_row x).
      - destruct l as [|y l]; [intros []|]. intros [->|Hr]; [right; left; auto|right; right]. apply IH; auto. cbn [length] in Hl; lia.
      - intros [->|Hr]; [left; auto|right]. apply IH; auto. lia. }
    intros l. apply (H (length l)). lia.
  Qed.

  Lemma fme_NoDup : NoDup (fme order n V).
  Proof.
    unfold fme. rewrite reinsert_spec.
    assert (Hd := fme_rows_dims). assert (Hnd := fme_rows_NoDup).
    assert (H : forall m l, (length l <= m)%nat -> NoDup l -> NoDup (detect_bad_row l) /\ incl (detect_bad_row l) l).
    { clear. induction m as [|m IH]; intros [|x l] Hl Hn; cbn [detect_bad_row length] in *; try lia;
        try (split; [constructor|apply incl_refl]).
      inversion Hn as [|? ? Hx Hn']; subst. destruct (bad_row x).
      - destruct l as [|y l]; [split; [constructor|intros z []]|].
        inversion Hn' as [|? ? Hy Hn'']; subst. destruct (IH l) as (H1 & H2); auto; [cbn [length] in Hl; lia|].
        split; [constructor; auto|]. intros z [->|Hz]; [right; left; auto|right; right; auto].
      - destruct (IH l) as (H1 & H2); auto; [lia|]. split; [constructor; auto|].
        intros z [->|Hz]; [left; auto|right; auto]. }
    destruct (H (length (fme_rows order p)) (fme_rows order p)) as (H1 & H2); auto.
    assert (Hdd : dims d (detect_bad_row (fme_rows order p))) by (apply (dims_incl d _ (fme_rows order p)); auto).
    revert H1 Hdd. generalize (detect_bad_row (fme_rows order p)). clear. 
    induction l as [|r l IH]; intros Hn Hd; cbn [map]; constructor.
    - intros Hin. apply in_map_iff in Hin. destruct Hin as (r' & E & Hr'). inversion Hn; subst.
      inversion Hd as [|? ? Hl Hd']; subst.
      assert (r' = r) as -> by (apply ins_inj; auto; apply (dims_in d l); auto). auto.
    - apply IH; [inversion Hn; auto|inversion Hd; auto].
  Qed.

  (** ** The abortable variant *)
  Lemma facet_extend V1 V2 a : pointed d V1 -> facet d V1 a -> valid (V1 ++ V2) a -> facet d (V1 ++ V2) a.
  Proof.
    intros Hp (Hl & Hv & Hnv & Hf) Hva. split; [auto|]. split; [auto|]. split.
    - intros Hz. apply Hnv. intros v Hv'. apply Hz. apply in_app_iff; auto.
    - intros b Hb Ht. destruct (Hf b Hb) as (k & t & Hk & Hvan).
      { intros v Hv' E. apply Ht; auto. apply in_app_iff; auto. }
      exists k, t. split; auto.
      assert (Hz : vadd (vscale k b) (vscale t a) = vzero d).
      { apply Hp; auto. apply vadd_length_eq; rewrite vscale_length; auto. }
      rewrite Hz. intros v _. apply dot_vzero_l.
  Qed.

  Lemma heuristic_facets : forall ws Vs sys, firstn (length Vs) W = Vs -> skipn (length Vs) W = ws ->
    (d <= length Vs)%nat -> pointed d Vs -> inv d Vs sys ->
    forall r, In r (heuristic_loop order d (length Vs) sys ws) -> facet d W r /\ primitive r /\
      (heuristic_loop order d (length Vs) sys ws = map fst (projects (zsort_of order) d (length Vs) sys ws) \/ ((0 < d)%nat -> bad_row r = false)).
  Proof.
    induction ws as [|w ws IH]; intros Vs sys E1 E2 Hd Hp I r Hr; cbn [heuristic_loop] in Hr; cbn [heuristic_loop projects].
    - split; [|split; [apply in_map_iff in Hr; destruct Hr as (e & <- & He); apply (inv_prim _ _ _ I e He)|left; reflexivity]].
      assert (EW : W = Vs) by (rewrite <- (firstn_skipn (length Vs) W), E1, E2, app_nil_r; auto).
      rewrite EW. apply in_map_iff in Hr. destruct Hr as (e & <- & He). apply (inv_facet d Vs sys); auto.
    - assert (EW : W = Vs ++ w :: ws) by (rewrite <- (firstn_skipn (length Vs) W), E1, E2; auto).
      assert (HW := W_dims). rewrite EW in HW. apply dims_app in HW. destruct HW as (HW1 & HW2).
      set (fs := filter _ (map fst sys)) in *.
      assert (Hfp : forall x, In x fs -> primitive x).
      { intros x Hx. apply filter_In in Hx. destruct Hx as (Hx & _). apply in_map_iff in Hx. destruct Hx as (e & <- & He).
        apply (inv_prim _ _ _ I e He). }
      assert (Hfs : forall x, In x fs -> facet d W x).
      { intros x Hx. apply filter_In in Hx. destruct Hx as (Hx & Hall). rewrite EW.
        apply in_map_iff in Hx. destruct Hx as (e & <- & He). apply facet_extend; auto.
        - apply (inv_facet d Vs sys); auto.
        - intros v Hv. apply in_app_iff in Hv. destruct Hv as [Hv|Hv].
          + apply (inv_valid _ _ _ I); auto.
          + rewrite forallb_forall in Hall. apply Z.leb_le. auto. }
      assert (Hdet : forall m l, (length l <= m)%nat -> forall x, In x (detect_bad_row l) -> In x l).
      { clear. induction m as [|m IH]; intros [|x l] Hl r; cbn [detect_bad_row length] in *; auto; try lia.
        destruct (bad_row x).
        - destruct l as [|y l]; [intros []|]. intros [->|Hr]; [right; left; auto|right; right]. apply IH; auto. cbn [length] in Hl; lia.
        - intros [->|Hr]; [left; auto|right]. apply IH; auto. lia. }
      destruct (detect_bad_row fs) as [|f0 fl] eqn:Ef.
      + specialize (IH (Vs ++ [w]) (project (zsort_of order) d (length Vs) sys w)).
        rewrite app_length in IH. cbn [length] in IH. replace (length Vs + 1)%nat with (S (length Vs)) in IH by lia.
        apply IH; auto; clear IH.
        * rewrite EW. rewrite firstn_app. replace (S (length Vs) - length Vs)%nat with 1%nat by lia.
          rewrite firstn_all2 by lia. reflexivity.
        * rewrite EW. rewrite skipn_app. replace (S (length Vs) - length Vs)%nat with 1%nat by lia.
          rewrite skipn_all2 by lia. reflexivity.
        * apply pointed_app; auto.
        * apply project_inv; auto using zsort_of_perm. inversion HW2; auto.
      + assert (Hin : In r fs) by (apply (Hdet (length fs)); [lia|]; rewrite Ef; exact Hr).
        split; [apply Hfs; auto|]. split; [apply Hfp; auto|]. right. intros Hd0.
        destruct d as [|d'] eqn:Ed; [lia|].
        assert (Hfd : dims (S d') fs).
        { apply (dims_incl (S d') _ (map fst sys)); [intros x Hx; apply filter_In in Hx; tauto|].
          apply inv_dims with (Vs := Vs); auto. }
        rewrite (detect_bad_row_filter d' fs) in Ef; auto.
        * rewrite <- Ef in Hr. apply filter_In in Hr. destruct Hr as (_ & Hb). destruct (bad_row r); [discriminate|reflexivity].
        * apply NoDup_filter. apply (inv_rows_NoDup Vs). rewrite ?Ed. exact I.
  Qed.

  Lemma fme_heuristic_all r : In r (fme_heuristic order n V) -> facet n V r /\ primitive r /\
    (exists r', length r' = d /\ r = ins zc r') /\
    (fme_heuristic order n V = all_rows \/ ((exists v, In v V /\ nth (n - 1) v 0 <> 0) -> r <> unit_vec n (n - 1) (-1))).
  Proof.
    unfold fme_heuristic, all_rows. rewrite reinsert_spec. intros H. apply in_map_iff in H. destruct H as (r' & <- & Hr).
    assert (Hf : length (firstn d W) = d) by (rewrite firstn_length; assert (H := po_len _ _ _ P); lia).
    destruct (heuristic_facets (skipn d W) (firstn d W) (initial_system (p_matrix p) W)) with (r := r') as (H1 & H2 & H3); rewrite ?Hf; auto.
    - apply (po_pointed _ _ _ P).
    - apply (po_inv _ _ _ P).
    - rewrite Hf in H3. split; [apply facet_up; auto|]. split.
      { intros g Hg0 Hg. apply H2; auto. intros x Hx. apply Hg. clear - Hx. generalize zc as z.
        induction z as [|c z IH]; cbn [ins fold_right]; auto.
        assert (H : forall i y (l : vec), In x l -> In x (insert_at i y l)).
        { clear. induction i as [|i IH]; intros y [|a l] H; cbn [insert_at In] in *; try tauto.
          destruct H as [H|H]; auto. }
        apply H. exact IH. }
      split; [exists r'; split; auto; apply H1|].
      destruct H3 as [E|Hb]; [left; f_equal; exact E|]. right. intros (v & Hv & Hne) E.
      assert (Hlast : ~ In (n - 1)%nat zc) by (intros Hz; apply Hne; apply (po_last _ _ _ P); auto).
      destruct d as [|d'] eqn:Ed.
      + assert (Hn0 : (0 < n)%nat).
        { assert (Hvl := V_len v Hv). destruct n as [|n']; [|lia]. destruct v; [|discriminate]. exfalso. apply Hne. reflexivity. }
        assert (Hdim := po_dim _ _ _ P). rewrite Ed in Hdim.
        assert (Hi : incl (seq 0 n) zc).
        { apply NoDup_length_incl.
          - apply desc_NoDup. apply (po_desc _ _ _ P).
          - rewrite seq_length. lia.
          - intros c Hc. apply in_seq. apply (po_zero _ _ _ P) in Hc. lia. }
        apply Hlast, Hi, in_seq. lia.
      + assert (Hl' : length r' = S d') by apply H1.
        rewrite <- (ins_bad d' Ed Hlast) in E. apply ins_inj in E; [|rewrite Ed; auto|rewrite Ed; apply unit_vec_length].
        assert (bad_row r' = true) by (apply (bad_row_spec d'); auto). rewrite Hb in H by lia. discriminate.
  Qed.
  Lemma fme_heuristic_facet r : In r (fme_heuristic order n V) -> facet n V r.
  Proof. intros H. apply fme_heuristic_all; auto. Qed.
End Correct.
