(** * InputRange: the numbers read from a file are values of int. *)
From Coq Require Import List ZArith Arith Bool Lia Ascii String Permutation.
From Verif Require Import Base Spec ListUtil ArithModel MatrixModel SafeIntModel IntTypes ClassesModel MapModel ValidityModel SortModel SortProofs StreamModel CliModel InputModel ConstraintModel FileModel Param TypeOrder TypedModel TypedProofs.
Import ListNotations.
Open Scope nat_scope.

Definition small (z : Z) : Prop := fits 32 z = true.
Definition small_row (r : vec) : Prop := Forall small r.
Definition small_rows (M : list vec) : Prop := Forall small_row M.

(** If the computation returns, the result has the property. *)
Definition ens {X} (P : X -> Prop) (m : res X) : Prop := match m with Ok x => P x | _ => True end.
Lemma ens_bind {X Y} (P : X -> Prop) (Q : Y -> Prop) m f : ens P m -> (forall x, P x -> ens Q (f x)) -> ens Q (bind m f).
Proof. destruct m; cbn [ens bind]; auto. Qed.
Lemma ens_any {X} (m : res X) : ens (fun _ => True) m.
Proof. destruct m; exact I. Qed.
Lemma ens_skip {X Y} (Q : Y -> Prop) (m : res X) f : (forall x, ens Q (f x)) -> ens Q (bind m f).
Proof. intros H. eapply ens_bind; [apply ens_any|auto]. Qed.
Lemma ens_impl {X} (P Q : X -> Prop) m : ens P m -> (forall x, P x -> Q x) -> ens Q m.
Proof. destruct m; cbn [ens]; auto. Qed.
(** Results of loops that may run out of fuel. *)
Definition ensured {X} (P : X -> Prop) (x : option X) : Prop := match x with Some v => P v | None => True end.
Lemma ens_bindo {X Y} (P : X -> Prop) (Q : option Y -> Prop) m f : ens (ensured P) m -> Q None -> (forall x, P x -> ens Q (f x)) -> ens Q (bindo m f).
Proof. destruct m as [[x|]| |]; cbn [ens bindo ensured]; auto. Qed.
Lemma ens_sim {X Y} (R : X -> Y -> Prop) (P : X -> Prop) m m' : sim R m m' -> (forall x y, R x y -> P x) -> ens P m.
Proof. destruct m as [x| |]; cbn [sim ens]; auto. intros (y & _ & H) K. eauto. Qed.

(** ** The type int against itself *)
Lemma int_self : at_least INT32 INT32.
Proof. repeat split; auto; discriminate. Qed.
Definition self : corresponds (arith INT32) (arith INT32) := wider INT32 INT32 int_self.
Lemma self_rel x y : c_rel self x y <-> x = y /\ small x.
Proof. unfold self. rewrite wider_rel. reflexivity. Qed.
Lemma row_self (r : vec) : small_row r -> Forall2 (c_rel self) r r.
Proof. induction 1; constructor; auto. apply self_rel. auto. Qed.
Lemma rows_self (M : list vec) : small_rows M -> Forall2 (Forall2 (c_rel self)) M M.
Proof. induction 1; constructor; auto using row_self. Qed.
Lemma self_row r r' : Forall2 (c_rel self) r r' -> small_row r.
Proof. induction 1 as [|x y r r' H _ IH]; constructor; auto. apply self_rel in H. tauto. Qed.
Lemma self_rows M M' : Forall2 (Forall2 (c_rel self)) M M' -> small_rows M.
Proof. induction 1 as [|x y r r' H _ IH]; constructor; auto. apply self_row in H. auto. Qed.
Lemma div_small (x y : Z) : small x -> small y -> ens small (a_div (arith INT32) x y).
Proof. intros Hx Hy. eapply ens_sim; [apply (c_div _ _ self x y x y); apply self_rel; auto|]. intros u v H. apply self_rel in H. tauto. Qed.
Lemma mul_small (x y : Z) : small x -> small y -> ens small (a_mul (arith INT32) x y).
Proof. intros Hx Hy. eapply ens_sim; [apply (c_mul _ _ self x y x y); apply self_rel; auto|]. intros u v H. apply self_rel in H. tauto. Qed.
Lemma abs_small (x : Z) : small x -> ens small (a_abs (arith INT32) x).
Proof. intros Hx. eapply ens_sim; [apply (p_abs _ _ self x x); apply self_rel; auto|]. intros u v H. apply self_rel in H. tauto. Qed.
Lemma gcd_small (x y : Z) : small x -> small y -> ens small (m_gcd (arith INT32) x y).
Proof. intros Hx Hy. eapply ens_sim; [apply (p_gcd _ _ self x y x y); apply self_rel; auto|]. intros u v H. apply self_rel in H. tauto. Qed.
Lemma row_mul_small (r : vec) (f : Z) : small_row r -> small f -> ens small_row (m_row_mul (arith INT32) r f).
Proof. intros Hr Hf. eapply ens_sim; [apply (p_row_mul _ _ self r r f f); [apply row_self; auto|apply self_rel; auto]|]. intros u v. apply self_row. Qed.
Lemma lcm_small (x y : Z) : small x -> small y -> ens small (m_lcm (arith INT32) x y).
Proof.
  intros Hx Hy. unfold m_lcm. eapply ens_bind; [apply (gcd_small x y); auto|]. intros g Hg. eapply ens_bind; [apply (abs_small x); auto|]. intros a Ha. eapply ens_bind; [apply (abs_small y); auto|]. intros b Hb.
  eapply ens_bind; [apply (div_small b g); auto|]. intros q Hq. apply (mul_small a q); auto.
Qed.
Lemma lcm_rest_small (r : vec) : small_row r -> forall v, small v -> ens small (m_lcm_rest (arith INT32) v r).
Proof. induction 1 as [|x r Hx _ IH]; intros v Hv; cbn [m_lcm_rest]; auto. eapply ens_bind; [apply (lcm_small x v); auto|]. auto. Qed.
Lemma row_lcm_small (r : vec) : small_row r -> ens small (m_row_lcm (arith INT32) r).
Proof.
  induction 1 as [|x r Hx Hr IH]; cbn [m_row_lcm]; [exact eq_refl|]. destruct (a_eqi (arith INT32) x 1); [exact IH|]. eapply ens_bind; [apply (abs_small x); auto|]. intros v Hv. apply lcm_rest_small; auto.
Qed.
Lemma class_small fuel t maps (r : vec) : maps_fit maps -> small_row r -> ens (ensured small_rows) (m_get_class (arith INT32) fuel t maps r).
Proof.
  intros Hm Hr. eapply ens_sim; [apply (p_get_class _ _ self fuel t maps r r Hm); apply row_self; auto|]. intros [x|] [y|] H; cbn in *; auto; try contradiction. apply self_rows in H. exact H.
Qed.

(** ** Rows *)
Lemma read_int_small z s : small z -> small (fst (read_int z s)).
Proof.
  intros H. unfold read_int. destruct (formatted s); [|exact H]. destruct (scan_integer t) as [[n ds] r]. destruct ds as [|d ds]; [reflexivity|].
  set (v := if n then _ else _). clearbody v. destruct (Z.ltb_spec v StreamModel.int_min); [reflexivity|]. destruct (Z.ltb_spec StreamModel.int_max v); [reflexivity|]. cbn [fst]. unfold small, fits.
  apply andb_true_iff. rewrite !Z.leb_le. split; auto.
Qed.
Lemma app_small a b : small_row a -> small_row b -> small_row (a ++ b).
Proof. apply Forall_app_2 || (intros; apply Forall_app; auto). Qed.
Lemma one_small x : small x -> small_row [x].
Proof. intros. repeat constructor; auto. Qed.
Lemma removelast_small r : small_row r -> small_row (removelast r).
Proof. induction 1 as [|x r Hx Hr IH]; cbn [removelast]; [constructor|]. destruct r; constructor; auto. Qed.
Definition vertex_small (p : vec * vec * stream) : Prop := small_row (fst (fst p)) /\ small_row (snd (fst p)).
Lemma vertex_loop_small fuel : forall tmp a b s, small tmp -> small_row a -> small_row b -> ens vertex_small (vertex_loop fuel tmp a b s).
Proof.
  induction fuel as [|fuel IH]; intros tmp a b s Ht Ha Hb; cbn [vertex_loop]; [exact I|]. assert (R := read_int_small tmp s Ht). destruct (read_int tmp s) as [t1 s1]. cbn [fst] in R.
  destruct (negb (ok s1)); [split; auto|]. apply ens_skip. intros s2. destruct (peek s2) as [c s3].
  eapply (ens_bind (fun p : Z * vec * stream => small (fst (fst p)) /\ small_row (snd (fst p)))).
  - destruct (is_char c "/"); [|split; cbn [fst snd]; auto; apply app_small; auto; apply one_small; reflexivity]. destruct (get_char s3) as [c4 s4]. assert (R2 := read_int_small t1 s4 R). destruct (read_int t1 s4) as [t2 s5]. cbn [fst] in R2.
    destruct (t2 =? 0)%Z; [exact I|]. split; cbn [fst snd]; auto. apply app_small; auto. apply one_small; auto.
  - intros [[t2 b2] s4] (H1 & H2). cbn [fst snd] in *. apply ens_skip. intros s5. destruct (peek s5) as [c6 s6]. assert (K : small_row (a ++ [t1])) by (apply app_small; auto; apply one_small; auto).
    destruct (is_char c6 newline); [split; auto|apply IH; auto].
Qed.
Lemma scale_small l : small l -> forall a b, small_row a -> small_row b -> ens small_row (scale_numerators l a b).
Proof.
  intros Hl a b Ha. revert b. induction Ha as [|x a Hx _ IH]; intros b Hb; cbn [scale_numerators]; [constructor|]. destruct Hb as [|y b Hy Hb]; [exact I|].
  eapply ens_bind; [apply (div_small l y); auto|]. intros q Hq. eapply ens_bind; [apply (mul_small x q); auto|]. intros z Hz. eapply ens_bind; [apply IH; exact Hb|]. intros r Hr. constructor; auto.
Qed.
Definition row_small (p : vec * stream) : Prop := small_row (fst p).
Lemma vertex_row_small s : ens row_small (m_vertex s).
Proof.
  unfold m_vertex. apply ens_skip. intros s1. eapply ens_bind; [apply vertex_loop_small; [reflexivity|constructor|constructor]|]. intros [[a b] s2] (Ha & Hb). cbn [fst snd] in *.
  destruct (match a with [] => true | _ => false end); [constructor|]. eapply ens_bind; [apply row_lcm_small; exact Hb|]. intros l Hl. eapply (ens_bind small_row).
  - destruct (a_gti (arith INT32) l 0); [apply scale_small; auto|exact Ha].
  - intros n Hn. apply app_small; auto. apply one_small; auto.
Qed.
Definition rows_small (p : list vec * stream) : Prop := small_rows (fst p).
Lemma section_loop_small conical fuel : forall rows s, small_rows rows -> ens (ensured rows_small) (section_loop conical fuel rows s).
Proof.
  induction fuel as [|fuel IH]; intros rows s H; cbn [section_loop]; [exact I|]. destruct (negb (ok s)); [exact H|]. destruct (m_peek_line s) as [l1 s1]. destruct (m_is_keyword (m_trim l1)); [exact H|].
  destruct (m_peek_line s1) as [l2 s2]. destruct (at_end (m_trim l2)); [apply IH; auto|]. eapply ens_bind; [apply vertex_row_small|]. intros [r s3] Hr. unfold row_small in Hr. cbn [fst] in Hr.
  destruct r as [|x r]; [apply IH; auto|]. apply IH. apply Forall_app. split; auto. constructor; auto. destruct conical; auto. apply app_small; [apply removelast_small; auto|]. apply one_small. reflexivity.
Qed.
Lemma section_small conical fuel s : ens (ensured rows_small) (m_section conical fuel s).
Proof.
  unfold m_section. destruct (getline [] s) as [tk s1]. destruct (negb (ok s1)); [exact I|]. destruct (negb _); [exact I|]. eapply ens_bindo; [apply section_loop_small; constructor|exact I|]. intros [rows s2] H. exact H.
Qed.

(** ** Maps *)
Lemma to_int_small t : ens small (InputModel.m_to_int t).
Proof.
  unfold InputModel.m_to_int. destruct (at_end t || text_eqb t (lit "+")); [reflexivity|]. destruct (text_eqb t (lit "-")); [reflexivity|]. assert (R := read_int_small 0 (opened t) eq_refl). destruct (read_int 0 (opened t)) as [z s].
  destruct (negb (ok s)); [exact I|exact R].
Qed.
Lemma extract_factor_small t : ens (fun p => small (fst p)) (m_extract_factor t).
Proof.
  unfold m_extract_factor. destruct t as [|c t]; [reflexivity|]. destruct (is_factor c); [|reflexivity]. destruct (is_sign c); (eapply ens_bind; [apply to_int_small|]; intros z Hz; exact Hz).
Qed.
Lemma image_loop_small names fuel : forall result t, image_fits result -> ens image_fits (image_loop fuel names result t).
Proof.
  induction fuel as [|fuel IH]; intros result [|c t] H; cbn [image_loop]; try exact H; try exact I. eapply ens_bind; [apply extract_factor_small|]. intros [f t1] Hf. cbn [fst] in Hf. destruct (m_extract_name t1) as [v t2].
  assert (K : forall i, image_fits (result ++ [(i, f)])) by (intros i; apply Forall_app; split; auto; constructor; auto).
  destruct v as [|c' v]; [apply IH; auto|]. destruct (find_name _ names); [apply IH; auto|exact I].
Qed.
Lemma image_small t names : ens image_fits (m_image t names).
Proof. unfold m_image. destruct t; [exact I|]. apply image_loop_small. constructor. Qed.
Definition map_small (p : lmap * stream) : Prop := map_fits (fst p).
Lemma set_map_fits m i im : map_fits m -> image_fits im -> ens map_fits (set m i im).
Proof.
  intros H Him. unfold set. destruct (i <? length m); [|exact I]. cbn [ens]. revert i. induction H as [|y l Hy Hl IH]; intros [|i]; cbn [upd]; constructor; auto. apply IH.
Qed.
Lemma map_loop_small names fuel : forall i result s, map_fits result -> ens map_small (map_loop fuel names i result s).
Proof.
  induction fuel as [|fuel IH]; intros i result s H; cbn [map_loop]; [exact I|]. destruct (negb (ok s)); [exact H|]. destruct (m_is_end_of_line s) as [b1 s1]. destruct b1; [exact H|]. destruct (m_is_end_of_file s1) as [b2 s2]. destruct b2; [exact H|].
  destruct (negb (i <? length result)); [exact H|]. destruct (read_word [] s2) as [t s3]. eapply ens_bind; [apply image_small|]. intros im Him. eapply ens_bind; [apply set_map_fits; [exact H|exact Him]|]. intros r Hr. apply IH; auto.
Qed.
Lemma map_small_row s names : ens map_small (m_map s names).
Proof. unfold m_map. apply ens_skip. intros s1. apply map_loop_small. apply Forall_forall. intros x Hx. apply repeat_spec in Hx. subst. constructor. Qed.
Definition maps_small (p : list lmap * stream) : Prop := maps_fit (fst p).
Lemma maps_loop_small names fuel : forall maps s, maps_fit maps -> ens (ensured maps_small) (maps_loop fuel names maps s).
Proof.
  induction fuel as [|fuel IH]; intros maps s H; cbn [maps_loop]; [exact I|]. destruct (negb (ok s)); [exact H|]. destruct (m_peek_line s) as [l1 s1]. destruct (m_is_keyword (m_trim l1)); [exact H|].
  destruct (m_peek_line s1) as [l2 s2]. destruct (at_end (m_trim l2)); [apply IH; auto|]. eapply ens_bind; [apply map_small_row|]. intros [m s3] Hm. unfold map_small in Hm. cbn [fst] in Hm. apply ens_skip. intros s4. apply ens_skip. intros s5.
  apply IH. destruct (_ && _); auto. apply Forall_app. split; auto. constructor; auto. apply Forall_app. split; auto. repeat constructor.
Qed.
Lemma maps_small_section fuel names s : ens (ensured maps_small) (m_maps fuel names s).
Proof.
  unfold m_maps. destruct (getline [] s) as [tk s1]. destruct (negb (ok s1)); [exact I|]. destruct (negb _); [exact I|]. eapply ens_bindo; [apply maps_loop_small; constructor|exact I|]. intros [maps s2] H. exact H.
Qed.

(** ** Constraints *)
Lemma ck_small z : ens small (ck 32 z).
Proof. unfold ck. destruct (fits 32 z) eqn:E; cbn [ens]; auto. Qed.
Lemma term_small t names : ens (fun p => small (snd p)) (m_term t names).
Proof.
  unfold m_term. eapply ens_bind; [apply to_int_small|]. intros f Hf. destruct (drop_while is_factor t); [eapply ens_bind; [apply (ck_small (- f))|]; intros z Hz; exact Hz|]. destruct (find_name _ names); [exact Hf|exact I].
Qed.
Lemma upd_small r i x : small_row r -> small x -> small_row (upd r i x).
Proof. intros H Hx. revert i. induction H as [|y l Hy Hl IH]; intros [|i]; cbn [upd]; constructor; auto. apply IH. Qed.
Lemma set_small r i x : small_row r -> small x -> ens small_row (set r i x).
Proof. intros H Hx. unfold set. destruct (i <? length r); [|exact I]. apply upd_small; auto. Qed.
Definition loop_small (p : vec * relation_operator * bool * stream) : Prop := small_row (fst (fst (fst p))).
Lemma named_loop_small names type fuel : forall ieq rel rhs s, small_row ieq -> ens loop_small (named_loop fuel names type ieq rel rhs s).
Proof.
  induction fuel as [|fuel IH]; intros ieq rel rhs s H; cbn [named_loop]; [exact I|]. destruct (negb (ok s)); [exact H|]. destruct (m_is_end_of_line s) as [b1 s1]. destruct b1; [exact H|]. destruct (m_is_end_of_file s1) as [b2 s2]. destruct b2; [exact H|].
  destruct (m_is_relation s2) as [b3 s3]. destruct b3.
  - destruct (m_decided rel); [exact I|]. apply ens_skip. intros [rel' s4]. destruct (negb _); [exact I|]. apply ens_skip. intros s5. apply IH; auto.
  - destruct (read_word [] s3) as [t s4]. eapply (ens_bind (fun p : nat * Z * stream => small (snd (fst p)))).
    + destruct (_ || _).
      * destruct (read_word t s4) as [t' s5]. eapply ens_bind; [apply term_small|]. intros [i c] Hc. cbn [snd] in Hc. destruct (c <? 0)%Z; [exact I|]. eapply (ens_bind small); [destruct (negb _); [apply ck_small|exact Hc]|]. intros c' Hc'. exact Hc'.
      * eapply ens_bind; [apply term_small|]. intros [i c] Hc. exact Hc.
    + intros [[i c] s5] Hc. cbn [fst snd] in Hc. apply ens_skip. intros x. destruct (_ && _); [exact I|]. eapply ens_bind; [apply set_small; [exact H|exact Hc]|]. intros ieq' H'. destruct rhs; [exact I|]. apply ens_skip. intros rhs'. apply ens_skip. intros s6. apply IH; auto.
Qed.
Lemma normalize_relation_small r rel : small_row r -> ens small_row (m_normalize_relation r rel).
Proof. intros H. unfold m_normalize_relation. destruct rel; try exact H. apply row_mul_small; auto. reflexivity. Qed.
Lemma named_small type names s : ens row_small (m_named_constraint type names s).
Proof.
  unfold m_named_constraint. apply ens_skip. intros s1. destruct (m_peek_line s1) as [l s2]. destruct (at_end l); [constructor|]. eapply ens_bind.
  - apply named_loop_small. apply Forall_forall. intros x Hx. apply repeat_spec in Hx. subst. reflexivity.
  - intros [[[ieq rel] rhs] s3] H. unfold loop_small in H. cbn [fst] in H. destruct (negb rhs); [exact I|]. eapply ens_bind; [apply normalize_relation_small; exact H|]. intros r Hr. exact Hr.
Qed.
Lemma unnamed_loop_small type fuel : forall ieq rel rhs s, small_row ieq -> ens loop_small (unnamed_loop fuel type ieq rel rhs s).
Proof.
  induction fuel as [|fuel IH]; intros ieq rel rhs s H; cbn [unnamed_loop]; [exact I|]. destruct (negb (ok s)); [exact H|]. destruct (m_is_end_of_line s) as [b1 s1]. destruct b1; [exact H|]. destruct (m_is_end_of_file s1) as [b2 s2]. destruct b2; [exact H|].
  destruct (m_is_relation s2) as [b3 s3]. destruct b3.
  - destruct (m_decided rel); [exact I|]. apply ens_skip. intros [rel' s4]. destruct (negb _); [exact I|]. apply ens_skip. intros s5. apply IH; auto.
  - assert (R := read_int_small 0 s3 eq_refl). destruct (read_int 0 s3) as [c s4]. cbn [fst] in R. destruct (negb (ok s4)); [exact I|]. destruct rhs; [exact I|]. apply ens_skip. intros s5. apply IH. apply app_small; auto. apply one_small; auto.
Qed.
Lemma back_small r : small_row r -> ens small (back r).
Proof.
  intros H. destruct r as [|x r]; [exact I|]. destruct (exists_last (l := x :: r) ltac:(discriminate)) as (l & z & E). rewrite E in *. apply Forall_app in H. destruct H as (_ & H). inversion H; subst.
  unfold back. destruct (l ++ [z]) eqn:El; [destruct l; discriminate|]. rewrite <- El, last_last. auto.
Qed.
Lemma unnamed_small type s : ens row_small (m_unnamed_constraint type s).
Proof.
  unfold m_unnamed_constraint. apply ens_skip. intros s1. eapply ens_bind; [apply unnamed_loop_small; constructor|]. intros [[[ieq rel] rhs] s2] H. unfold loop_small in H. cbn [fst] in H. destruct (_ && _); [exact I|].
  destruct ieq as [|x ieq]; [constructor|]. eapply (ens_bind small_row).
  - destruct (m_decided rel); [|exact H]. eapply ens_bind; [apply back_small; exact H|]. intros b Hb. eapply ens_bind; [apply (ck_small (b * -1))|]. intros b' Hb'. apply app_small; [apply removelast_small; auto|apply one_small; auto].
  - intros r Hr. eapply ens_bind; [apply normalize_relation_small; exact Hr|]. intros r' Hr'. exact Hr'.
Qed.
Lemma constraint_small type names s : ens row_small (m_constraint type names s).
Proof. unfold m_constraint. apply ens_skip. intros [u s1]. destruct u; [apply unnamed_small|apply named_small]. Qed.
Lemma constraints_loop_small type names fuel : forall rows s, small_rows rows -> ens rows_small (constraints_loop fuel type names rows s).
Proof.
  induction fuel as [|fuel IH]; intros rows s H; cbn [constraints_loop]; [exact I|]. destruct (negb (ok s)); [exact H|]. destruct (m_peek_line s) as [l1 s1]. destruct (m_is_keyword (m_trim l1)); [exact H|].
  destruct (m_peek_line s1) as [l2 s2]. destruct (at_end (m_trim l2)); [apply IH; auto|]. eapply ens_bind; [apply constraint_small|]. intros [r s3] Hr. unfold row_small in Hr. cbn [fst] in Hr. apply ens_skip. intros s4. apply ens_skip. intros s5.
  apply IH. destruct r; auto. apply Forall_app. split; auto.
Qed.
Lemma constraints_small type names s : ens rows_small (m_constraints type names s).
Proof. unfold m_constraints. apply ens_skip. intros s1. eapply ens_bind; [apply constraints_loop_small; constructor|]. intros [rows s2] H. exact H. Qed.

(** ** Files *)
Lemma expand_loop_small fuel t maps rows : maps_fit maps -> small_rows rows -> ens (ensured small_rows) (expand_loop fuel t maps rows).
Proof.
  intros Hm. induction 1 as [|r rows Hr _ IH]; cbn [expand_loop]; [constructor|]. eapply ens_bindo; [apply class_small; eassumption|exact I|]. intros c Hc. eapply ens_bindo; [exact IH|exact I|]. intros l Hl. apply Forall_app; auto.
Qed.
Lemma expand_small fuel t maps rows : maps_fit maps -> small_rows rows -> ens (ensured small_rows) (FileModel.m_expand fuel t maps rows).
Proof. intros Hm H. unfold FileModel.m_expand. destruct (is_empty maps); [exact I|]. apply expand_loop_small; auto. Qed.
Lemma read_vertices_small conical fuel check maps s : ens (ensured rows_small) (m_read_vertices conical fuel check maps s).
Proof. unfold m_read_vertices. eapply ens_bindo; [apply section_small|exact I|]. intros [rows s1] H. apply ens_skip. intros _. exact H. Qed.
Lemma read_reduced_small conical fuel maps s : maps_fit maps -> ens (ensured rows_small) (m_read_reduced_vertices conical fuel maps s).
Proof. intros Hm. unfold m_read_reduced_vertices. eapply ens_bindo; [apply section_small|exact I|]. intros [rows s1] H. eapply ens_bindo; [apply expand_small; [exact Hm|exact H]|exact I|]. intros l Hl. exact Hl. Qed.
Lemma read_inequalities_small check names maps s : ens rows_small (m_read_inequalities check names maps s).
Proof. unfold m_read_inequalities. eapply ens_bind; [apply constraints_small|]. intros [rows s1] H. apply ens_skip. intros _. exact H. Qed.
Lemma factor_self (c x y : Z) : fits 32 c = true -> c_rel self x y -> same_with (fun f => fits 32 f = true) (MapModel.m_factor INT32 c x) (MapModel.m_factor INT32 c y).
Proof.
  intros Hc H. apply self_rel in H. destruct H as (<- & Hx). apply (same_with_intro (fun f => fits 32 f = true)). intros f. unfold MapModel.m_factor. destruct (i_neg 32 c); cbn [bind]; try discriminate. apply ck_fits.
Qed.
Lemma normalize_small E maps : small_rows E -> maps_fit maps -> ens maps_fit (m_normalize_maps INT32 E maps).
Proof.
  intros HE Hm. assert (P := p_normalize_maps _ _ self (MapModel.m_factor INT32) (MapModel.m_factor INT32) factor_self E E maps (rows_self E HE) Hm). change (mapM (g_normalize_map (arith INT32) (MapModel.m_factor INT32) E) maps) with (m_normalize_maps INT32 E maps) in P.
  eapply ens_sim; [exact P|]. cbn. tauto.
Qed.
Lemma read_reduced_inequalities_small fuel names maps E s : small_rows E -> maps_fit maps -> ens (ensured rows_small) (m_read_reduced_inequalities fuel names maps E s).
Proof.
  intros HE Hm. unfold m_read_reduced_inequalities. eapply ens_bind; [apply constraints_small|]. intros [rows s1] H. eapply ens_bind; [apply normalize_small; eassumption|]. intros tmp Ht. eapply ens_bindo; [apply expand_small; [exact Ht|exact H]|exact I|].
  intros l Hl. exact Hl.
Qed.
Definition inner_small (d : inner) : Prop := small_rows (i_conv d) /\ small_rows (i_cone d) /\ maps_fit (i_maps d).
Lemma inner_loop_small check fuel : forall token d s, inner_small d -> ens (ensured inner_small) (inner_loop fuel check token d s).
Proof.
  induction fuel as [|fuel IH]; intros token d s (H1 & H2 & H3); cbn [inner_loop]; [exact I|]. destruct (negb (ok s)); [repeat split; auto|]. apply ens_skip. intros [tk s1]. destruct (negb (ok s1)); [repeat split; auto|].
  destruct (m_is_dimension tk); [apply ens_skip; intros p; apply IH; repeat split; auto|]. destruct (m_is_names tk); [apply ens_skip; intros p; apply IH; repeat split; auto|].
  destruct (m_is_maps tk); [eapply ens_bindo; [apply maps_small_section|exact I|]; intros p Hp; apply IH; repeat split; auto|].
  destruct (m_is_convex tk); [eapply ens_bindo; [apply read_vertices_small|exact I|]; intros p Hp; apply IH; repeat split; auto|].
  destruct (m_is_reduced_convex tk); [eapply ens_bindo; [apply read_reduced_small; exact H3|exact I|]; intros p Hp; apply IH; repeat split; auto|].
  destruct (m_is_conical tk); [eapply ens_bindo; [apply read_vertices_small|exact I|]; intros p Hp; apply IH; repeat split; auto|].
  destruct (m_is_reduced_conical tk); [eapply ens_bindo; [apply read_reduced_small; exact H3|exact I|]; intros p Hp; apply IH; repeat split; auto|].
  destruct (getline tk s1) as [tk2 s2]. apply IH. repeat split; auto.
Qed.
Lemma perm_small M N : Permutation M N -> small_rows M -> small_rows N.
Proof. intros P H. apply (Permutation_Forall P H). Qed.
Lemma sort_small o M : small_rows M -> small_rows (m_sort o M).
Proof. intros H. apply (perm_small M); auto. apply m_sort_perm. Qed.
Lemma known_facets_small fs args names : ens small_rows (m_known_facets fs args names).
Proof.
  unfold m_known_facets. apply ens_skip. intros f. destruct (at_end f); [constructor|]. apply ens_skip. intros s. apply ens_skip. intros [tk s1]. destruct (m_is_inequalities tk); [|exact I]. eapply ens_bind; [apply read_inequalities_small|]. intros p Hp. exact Hp.
Qed.
Definition data_small (p : list vec * list text * list lmap * list vec) : Prop := small_rows (fst (fst (fst p))) /\ maps_fit (snd (fst p)) /\ small_rows (snd p).
(** Facet enumeration: vertices and rays, maps and known facets. *)
Theorem input_vertices_small fs fuel args : ens (ensured data_small) (m_input_vertices fs fuel args).
Proof.
  unfold m_input_vertices. apply ens_skip. intros f. apply ens_skip. intros s. destruct (m_contains_keywords s) as [k s1]. destruct (negb k); [exact I|]. eapply ens_bindo; [apply inner_loop_small; repeat split; constructor|exact I|]. intros d (H1 & H2 & H3).
  apply ens_skip. intros _. apply ens_skip. intros o. eapply ens_bind; [apply known_facets_small|]. intros known Hk. apply ens_skip. intros _. split; [|split]; cbn [fst snd]; auto. apply Forall_app. split; apply sort_small; auto.
Qed.
Definition outer_small (d : outer) : Prop := small_rows (o_equations d) /\ small_rows (o_inequalities d) /\ maps_fit (o_maps d).
Lemma outer_loop_small check fuel : forall token d s, outer_small d -> ens (ensured outer_small) (outer_loop fuel check token d s).
Proof.
  induction fuel as [|fuel IH]; intros token d s (H1 & H2 & H3); cbn [outer_loop]; [exact I|]. destruct (negb (ok s)); [repeat split; auto|]. apply ens_skip. intros [tk s1]. destruct (negb (ok s1)); [repeat split; auto|].
  destruct (m_is_dimension tk); [apply ens_skip; intros p; apply IH; repeat split; auto|]. destruct (m_is_names tk); [apply ens_skip; intros p; apply IH; repeat split; auto|].
  destruct (m_is_maps tk); [eapply ens_bindo; [apply maps_small_section|exact I|]; intros p Hp; apply IH; repeat split; auto|].
  destruct (m_is_equations tk); [eapply ens_bind; [apply constraints_small|]; intros p Hp; apply IH; repeat split; auto|].
  destruct (m_is_inequalities tk); [eapply ens_bind; [apply read_inequalities_small|]; intros p Hp; apply IH; repeat split; auto|].
  destruct (m_is_reduced_inequalities tk); [eapply ens_bindo; [apply read_reduced_inequalities_small; [exact H1|exact H3]|exact I|]; intros p Hp; apply IH; repeat split; auto|].
  destruct (getline tk s1) as [tk2 s2]. apply IH. repeat split; auto.
Qed.
Lemma known_vertices_loop_small check fuel : forall token conv cone s, small_rows conv -> small_rows cone -> ens (ensured small_rows) (known_vertices_loop fuel check token conv cone s).
Proof.
  induction fuel as [|fuel IH]; intros token conv cone s H1 H2; cbn [known_vertices_loop]; [exact I|]. apply ens_skip. intros [tk s1]. destruct (negb (ok s1)); [apply Forall_app; auto|].
  destruct (m_is_convex tk); [eapply ens_bindo; [apply read_vertices_small|exact I|]; intros p Hp; apply IH; auto|].
  destruct (m_is_conical tk); [eapply ens_bindo; [apply read_vertices_small|exact I|]; intros p Hp; apply IH; auto|].
  destruct (getline tk s1) as [tk2 s2]. apply IH; auto.
Qed.
Lemma both_sides_small E : small_rows E -> ens small_rows (m_both_sides E).
Proof. induction 1 as [|e E He _ IH]; cbn [m_both_sides]; [constructor|]. eapply ens_bind; [apply (row_mul_small e (-1)); [exact He|reflexivity]|]. intros n Hn. eapply ens_bind; [exact IH|]. intros r Hr. repeat (constructor; auto). Qed.
(** Vertex enumeration: inequalities, maps and known vertices. *)
Theorem input_inequalities_small fs fuel args : ens (ensured data_small) (m_input_inequalities fs fuel args).
Proof.
  unfold m_input_inequalities. apply ens_skip. intros f. apply ens_skip. intros s. destruct (m_contains_keywords s) as [k s1]. destruct (negb k); [exact I|]. eapply ens_bindo; [apply outer_loop_small; repeat split; constructor|exact I|]. intros d (H1 & H2 & H3).
  apply ens_skip. intros _. eapply ens_bind; [apply both_sides_small; exact H1|]. intros pairs Hp. apply ens_skip. intros o. apply ens_skip. intros l. eapply (ens_bind small_row).
  { unfold m_trivial. destruct l as [|x l]; [exact I|]. apply app_small; [|apply one_small; reflexivity]. apply Forall_forall. intros z Hz. apply repeat_spec in Hz. subst. reflexivity. }
  intros tr Htr. eapply (ens_bindo small_rows).
  { unfold m_known_vertices. apply ens_skip. intros g. destruct (at_end g); [constructor|]. apply ens_skip. intros s2. apply known_vertices_loop_small; constructor. }
  - exact I.
  - intros known Hk. apply ens_skip. intros _. split; [|split]; cbn [fst snd]; auto. apply Forall_app. split; [apply sort_small; apply Forall_app; auto|constructor; auto].
Qed.
