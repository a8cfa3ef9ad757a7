(** * VertexInput: reading vertices and rays. *)
From Coq Require Import List ZArith Arith Bool Ascii String Lia.
From Verif Require Import Base Spec ListUtil ArithModel Refine SafeIntModel IntTypes RowLcm StreamModel StreamProofs IntLcm InputModel InputProofs.
Import ListNotations.
Open Scope nat_scope.

(** The homogeneous vector of a rational point. *)
Definition common (pts : list (Z * Z)) : Z := rlcm (map snd pts).
Definition entries (l : Z) (pts : list (Z * Z)) : vec := map (fun p => (fst p * Z.quot l (snd p))%Z) pts.
Definition point_row (pts : list (Z * Z)) : vec := entries (common pts) pts ++ [common pts].
Definition proper (pts : list (Z * Z)) : Prop := Forall (fun p => int_range (fst p) /\ int_range (snd p) /\ snd p <> 0%Z) pts.
Definition point_fits (pts : list (Z * Z)) : Prop := int_range (common pts) /\ Forall int_range (entries (common pts) pts).

Lemma proper_dens pts : proper pts -> Forall int_range (map snd pts) /\ forall x, In x (map snd pts) -> x <> 0%Z.
Proof.
  intros H. split.
  - apply Forall_map. eapply Forall_impl; [|exact H]. cbn. tauto.
  - intros x Hx. apply in_map_iff in Hx as (p & <- & Hp). unfold proper in H. rewrite Forall_forall in H. apply H; auto.
Qed.
Lemma common_pos pts : proper pts -> (0 < common pts)%Z.
Proof. intros H. apply rlcm_pos. apply proper_dens; auto. Qed.
Lemma scale_ok pts l : proper pts -> (0 < l)%Z -> int_range l -> (forall x, In x (map snd pts) -> (x | l)%Z) ->
  scale_numerators l (map fst pts) (map snd pts) = if forallb (fits 32) (entries l pts) then Ok (entries l pts) else UB.
Proof.
  intros Hp Hl Rl Hd. induction Hp as [|[a b] pts (Ha & Hb & Nb) _ IH]; [reflexivity|]. cbn [map fst snd scale_numerators entries forallb] in *.
  change (a_div (arith INT32)) with (i_div 32). change (a_mul (arith INT32)) with (i_mul 32). unfold i_div, i_mul. destruct (Z.eqb_spec b 0); [congruence|].
  assert (D : (b | l)%Z) by (apply Hd; left; auto).
  rewrite ck_int. 2:{ destruct D as [q ->]. rewrite Z.quot_mul by auto. assert (Q : (q | q * b)%Z) by (exists b; lia). assert (K := divide_range _ _ Q Hl Rl).
    unfold small, int_range, StreamModel.int_min, StreamModel.int_max in *. lia. }
  cbn [bind]. rewrite IH by (intros; apply Hd; right; auto). unfold ck. fold (entries l pts).
  destruct (fits 32 (a * (l ÷ b))); cbn [bind andb]; auto. destruct (forallb (fits 32) (entries l pts)); reflexivity.
Qed.
Lemma vertex_ok lab l pts r : label lab -> coordinates l pts -> line_end r ->
  match m_vertex (opened (lab ++ l ++ r)) with
  | Ok (row, s) => row = point_row pts /\ s = finish r /\ point_fits pts
  | Throw => False
  | UB => ~ point_fits pts
  end.
Proof.
  intros Hlab Hl Hr. destruct (coordinates_pts l pts Hl) as [Hne Hpr]. fold (proper pts) in Hpr.
  destruct (coordinates_first l pts Hl) as (c & l' & El & Hc). destruct (starts_number_blank c Hc) as (Hb & _ & Hp & _ & _).
  unfold m_vertex. rewrite optional_identifier_ok; auto.
  2:{ rewrite El. exact Hb. } 2:{ rewrite El. cbn [app stops]. destruct (is_char_spec c "("); [congruence|reflexivity]. }
  cbn [bind opened rest]. fold (opened (l ++ r)).
  rewrite (vertex_loop_ok l pts Hl) by (auto; rewrite app_length; assert (H := coordinates_length l pts Hl); lia). cbn [app bind].
  destruct (map fst pts) as [|n0 N] eqn:EN; [destruct pts; [congruence|discriminate]|]. rewrite <- EN.
  destruct (proper_dens pts Hpr) as [HD Hnz]. assert (Hpos := common_pos pts Hpr).
  destruct (m_row_lcm (arith INT32) (map snd pts)) as [lv| |] eqn:E; cbn [bind].
  - destruct (row_lcm_int_inv _ _ HD Hnz E) as [-> Rl]. fold (common pts) in *.
    change (a_gti (arith INT32) (common pts) 0%Z) with (common pts >? 0)%Z. destruct (Z.gtb_spec (common pts) 0); [|lia].
    rewrite scale_ok; auto. 2:{ intros x Hx. apply rlcm_divide; auto. }
    assert (F : forallb (fits 32) (entries (common pts) pts) = true <-> Forall int_range (entries (common pts) pts)).
    { rewrite forallb_forall, Forall_forall. split; intros HF x Hx; apply fits_int, HF; auto. }
    destruct (forallb (fits 32) (entries (common pts) pts)); cbn [bind].
    + split; [reflexivity|]. split; [reflexivity|]. split; [auto|apply F; auto].
    + intros [_ HF]. apply F in HF. discriminate.
  - apply (row_lcm_int_no_throw _ Hnz HD E).
  - intros [Rl _]. rewrite row_lcm_int in E by auto. discriminate.
Qed.

(** ** Lines of a section. *)
Definition ray_row (pts : list (Z * Z)) : vec := entries (common pts) pts ++ [0%Z].
Definition row_of (conical : bool) (pts : list (Z * Z)) : vec := if conical then ray_row pts else point_row pts.
(** A sequence of complete lines: empty ones, and ones with the coordinates of a point (possibly labelled). *)
Inductive section_lines : text -> list (list (Z * Z)) -> Prop :=
| section_none : section_lines [] []
| section_blank u t P : blanks u -> section_lines t P -> section_lines (u ++ newline :: t) P
| section_point lab l pts t P : label lab -> coordinates l pts -> section_lines t P -> section_lines (lab ++ l ++ newline :: t) (pts :: P).
(** What a section ends with: the end of the file (possibly with a last line that is not terminated), or a line with a keyword. *)
Inductive section_tail : text -> list (list (Z * Z)) -> Prop :=
| tail_end u : blanks u -> section_tail u []
| tail_point lab l pts : label lab -> coordinates l pts -> section_tail (lab ++ l) [pts].

Lemma trim_blanks u : blanks u -> m_trim u = [].
Proof. intros H. unfold m_trim. rewrite (drop_all is_blank u H). reflexivity. Qed.
Lemma rev_drop_nonempty p t : (exists c, In c t /\ p c = false) -> drop_while p (rev t) <> [].
Proof.
  intros (c & Hc & E). apply in_rev in Hc. induction (rev t) as [|d l IH]; [destruct Hc|]. cbn [drop_while]. destruct (p d) eqn:Ed; [|discriminate].
  apply IH. destruct Hc as [->|Hc]; [congruence|auto].
Qed.
Lemma trim_first u c t : blanks u -> is_blank c = false -> exists t', m_trim (u ++ c :: t) = c :: t'.
Proof.
  intros Hu Hc. unfold m_trim. rewrite drop_app by auto. cbn [drop_while]. rewrite Hc. cbn [rev].
  assert (K : exists v, drop_while is_blank (rev t ++ [c]) = v ++ [c]).
  { induction (rev t) as [|d l IH]; cbn [app drop_while]; [rewrite Hc; exists []; reflexivity|]. destruct (is_blank d); [auto|]. exists (d :: l). reflexivity. }
  destruct K as (v & ->). rewrite rev_app_distr. cbn [rev app]. eauto.
Qed.
Lemma keyword_first c t : starts_number c = true \/ c = "("%char -> m_is_keyword (c :: t) = false.
Proof.
  assert (K : forall words, forallb (fun w => match w with EmptyString => true | String d _ => negb (starts_number d) && negb (is_char (Some d) "(") end) words = true ->
    starts_number c = true \/ c = "("%char -> one_of_words words (c :: t) = false).
  { intros words Hw Hc. unfold one_of_words. induction words as [|w words IH]; [reflexivity|]. cbn [forallb existsb] in *. apply andb_true_iff in Hw as [Hw Hws].
    rewrite IH by auto. rewrite orb_false_r. destruct (text_eqb_spec (c :: t) (lit w)) as [E|]; auto. destruct w as [|d w]; [discriminate E|]. cbn in E. injection E as -> _.
    apply andb_true_iff in Hw as [H1 H2]. destruct Hc as [Hc|Hc]; [rewrite Hc in H1; discriminate|]. destruct (is_char_spec d "("); [discriminate|congruence]. }
  intros Hc. unfold m_is_keyword, m_is_conical, m_is_reduced_something, m_is_reduced_conical, m_is_convex, m_is_reduced_convex, m_is_dimension, m_is_equations,
    m_is_inequalities, m_is_reduced_inequalities, m_is_maps, m_is_names, m_is_end.
  rewrite !K; auto.
Qed.
Lemma point_line_trim lab l pts : label lab -> coordinates l pts -> exists c t, m_trim (lab ++ l) = c :: t /\ (starts_number c = true \/ c = "("%char).
Proof.
  intros Hlab Hl. destruct (coordinates_first l pts Hl) as (c & l' & -> & Hc). destruct (starts_number_blank c Hc) as (Hb & _). inversion Hlab as [u Hu|u t v Hu Ht Hv]; subst.
  - destruct (trim_first lab c l' Hu Hb) as (t' & ->). exists c, t'. auto.
  - rewrite <- app_assoc. cbn [app]. destruct (trim_first u "("%char ((t ++ ")"%char :: v) ++ c :: l') Hu eq_refl) as (t' & ->). exists "("%char, t'. auto.
Qed.
Lemma coordinates_no_newline l pts : coordinates l pts -> ~ In newline l.
Proof.
  assert (I : forall p z, integer_text p z -> ~ In newline p).
  { assert (D : forall ds, digits ds -> ~ In newline ds) by (intros ds H K; unfold digits in H; rewrite Forall_forall in H; apply H in K; discriminate K).
    intros p z H. inversion H as [ds Hn Hd|ds Hn Hd|ds Hn Hd]; subst; [apply D; auto|..]; intros [E|K]; try discriminate E; apply (D ds); auto. }
  assert (C : forall t a b, coordinate t a b -> ~ In newline t).
  { intros t a b H. inversion H as [p z Hp Hz|p z u v q w Hp Hz Hu Hv Hq Hw Hw0]; subst; [eapply I; eauto|].
    rewrite !in_app_iff. cbn [In]. rewrite in_app_iff. intros [K|[K|[K|[K|K]]]]; [exact (I _ _ Hp K)|exact (blanks_no_newline u Hu K)|discriminate K|exact (blanks_no_newline v Hv K)|exact (I _ _ Hq K)]. }
  induction 1 as [t a b u Ht Hu|t a b u l pts Ht Hu Hn Hl IH]; rewrite !in_app_iff.
  - intros [K|K]; [exact (C _ _ _ Ht K)|exact (blanks_no_newline u Hu K)].
  - intros [K|[K|K]]; [exact (C _ _ _ Ht K)|exact (blanks_no_newline u Hu K)|auto].
Qed.
Lemma label_no_newline l : label l -> ~ In newline l.
Proof.
  intros H. inversion H as [u Hu|u t v Hu Ht Hv]; subst; [apply blanks_no_newline; auto|]. rewrite in_app_iff. cbn [In]. rewrite in_app_iff. cbn [In].
  intros [K|[K|[K|[K|K]]]]; try discriminate K; [exact (blanks_no_newline u Hu K)| |exact (blanks_no_newline v Hv K)].
  unfold identifier_text in Ht. rewrite Forall_forall in Ht. apply Ht in K. tauto.
Qed.

(** One iteration over a line. *)
Lemma section_blank_step conical k rows u t : blanks u -> section_loop conical (S k) rows (opened (u ++ newline :: t)) = section_loop conical k rows (opened t).
Proof.
  intros Hu. cbn [section_loop]. change (ok (opened (u ++ newline :: t))) with true. cbn [negb]. rewrite !peek_line_opened.
  rewrite first_line_newline by (apply blanks_no_newline; auto). rewrite trim_blanks by auto. change (m_is_keyword []) with false. cbv iota.
  cbn [at_end].
  rewrite getline_newline by (apply blanks_no_newline; auto). reflexivity.
Qed.
Lemma removelast_row pts : removelast (point_row pts) ++ [0%Z] = ray_row pts.
Proof. unfold point_row, ray_row. rewrite removelast_app by discriminate. cbn [removelast]. rewrite app_nil_r. reflexivity. Qed.
Lemma section_point_step conical k rows lab l pts r : label lab -> coordinates l pts -> line_end r ->
  section_loop conical (S k) rows (opened (lab ++ l ++ r)) = if fits 32 (common pts) && forallb (fits 32) (entries (common pts) pts) then
    section_loop conical k (rows ++ [row_of conical pts]) (finish r) else UB.
Proof.
  intros Hlab Hl Hr. assert (Nn : ~ In newline (lab ++ l)) by (rewrite in_app_iff; intros [K|K]; [eapply label_no_newline|eapply coordinates_no_newline]; eauto).
  assert (F : first_line (lab ++ l ++ r) = lab ++ l).
  { rewrite app_assoc. destruct r as [|c r]; [rewrite app_nil_r; apply first_line_end; auto|]. cbn in Hr. subst c. apply first_line_newline; auto. }
  destruct (point_line_trim lab l pts Hlab Hl) as (c & t & Et & Hc).
  cbn [section_loop]. change (ok (opened (lab ++ l ++ r))) with true. cbn [negb]. rewrite !peek_line_opened, F, Et, keyword_first by auto. cbn [at_end].
  assert (V := vertex_ok lab l pts r Hlab Hl Hr).
  assert (PF : fits 32 (common pts) && forallb (fits 32) (entries (common pts) pts) = true <-> point_fits pts).
  { rewrite andb_true_iff, forallb_forall. unfold point_fits. rewrite Forall_forall, fits_int. split; intros [H1 H2]; split; auto; intros x Hx; apply fits_int, H2; auto. }
  destruct (m_vertex (opened (lab ++ l ++ r))) as [[row s]| |]; cbn [bind].
  - destruct V as (-> & -> & V). apply PF in V. rewrite V. unfold row_of. rewrite <- (removelast_row pts).
    destruct (point_row pts) as [|x row] eqn:E; [unfold point_row in E; destruct (entries (common pts) pts); discriminate E|]. reflexivity.
  - destruct V.
  - destruct (fits 32 (common pts) && forallb (fits 32) (entries (common pts) pts)) eqn:E; auto. exfalso. apply V, PF; auto.
Qed.
Definition all_fit (P : list (list (Z * Z))) : bool := forallb (fun pts => fits 32 (common pts) && forallb (fits 32) (entries (common pts) pts)) P.
Lemma section_lines_ok conical t P : section_lines t P -> forall rows tail, exists k0, forall k, k0 <= k -> exists k', k <= k' + k0 /\
  section_loop conical k rows (opened (t ++ tail)) = if all_fit P then section_loop conical k' (rows ++ map (row_of conical) P) (opened tail) else UB.
Proof.
  induction 1 as [|u t P Hu Ht IH|lab l pts t P Hlab Hl Ht IH]; intros rows tail.
  - exists 0. intros k _. exists k. split; [lia|]. cbn [all_fit forallb map app]. rewrite app_nil_r. reflexivity.
  - destruct (IH rows tail) as (k0 & K). exists (S k0). intros [|k] Hk; [lia|]. destruct (K k ltac:(lia)) as (k' & Hk' & E). exists k'. split; [lia|].
    rewrite <- app_assoc. cbn [app]. rewrite section_blank_step by auto. exact E.
  - destruct (IH (rows ++ [row_of conical pts]) tail) as (k0 & K). exists (S (S k0)). intros [|[|k]] Hk; try lia. destruct (K k ltac:(lia)) as (k' & Hk' & E). exists k'. split; [lia|].
    rewrite <- !app_assoc. cbn [app]. rewrite (section_point_step conical (S k) rows lab l pts (newline :: t ++ tail) Hlab Hl eq_refl). cbn [all_fit forallb]. fold (all_fit P).
    destruct (fits 32 (common pts) && forallb (fits 32) (entries (common pts) pts)); cbn [andb]; auto.
    cbn [finish]. change (newline :: t ++ tail) with ([] ++ newline :: t ++ tail). rewrite section_blank_step by constructor.
    rewrite E. cbn [map]. rewrite <- app_assoc. reflexivity.
Qed.
(** The number of rounds does not matter once the loop has ended. *)
Lemma section_loop_mono conical k rows s x : section_loop conical k rows s = Ok (Some x) -> forall k', k <= k' -> section_loop conical k' rows s = Ok (Some x).
Proof.
  revert rows s. induction k as [|k IH]; intros rows s H k' Hk; [discriminate|]. destruct k' as [|k']; [lia|]. cbn [section_loop] in *.
  destruct (negb (ok s)); auto. destruct (m_peek_line s) as [line s1]. destruct (m_is_keyword (m_trim line)); auto. destruct (m_peek_line s1) as [line2 s2].
  destruct (at_end (m_trim line2)); [apply IH; auto; lia|]. destruct (m_vertex s2) as [[row s3]| |]; cbn [bind] in *; try discriminate. destruct row; apply IH; auto; lia.
Qed.
(** The tail of a section at the end of the file. *)
Lemma section_tail_ok conical t P : section_tail t P -> forall rows k, 3 <= k -> exists s, ok s = false /\
  section_loop conical k rows (opened t) = if all_fit P then Ok (Some (rows ++ map (row_of conical) P, s)) else UB.
Proof.
  intros H. inversion H as [u Hu|lab l pts Hlab Hl]; subst; intros rows [|[|[|k]]] Hk; try lia.
  - assert (N := blanks_no_newline t Hu). exists (match t with [] => Stream [] true true | _ => Stream [] false true end).
    split; [destruct t; reflexivity|]. cbn [all_fit forallb map app]. rewrite app_nil_r.
    set (k2 := S k). cbn [section_loop]. change (ok (opened t)) with true. cbn [negb].
    rewrite !peek_line_opened, first_line_end, trim_blanks by auto. change (m_is_keyword []) with false. cbv iota. cbn [at_end].
    destruct t as [|c t]; [reflexivity|]. rewrite getline_end by (auto; discriminate). reflexivity.
  - exists (Stream [] true true). split; [reflexivity|]. rewrite <- (app_nil_r (lab ++ l)), <- app_assoc. rewrite (section_point_step conical (S (S k)) rows lab l pts [] Hlab Hl I).
    cbn [all_fit forallb map]. rewrite andb_true_r. destruct (fits 32 (common pts) && forallb (fits 32) (entries (common pts) pts)); [|reflexivity]. reflexivity.
Qed.
(** A line with a keyword ends the section. *)
Lemma section_keyword conical k rows t : m_is_keyword (m_trim (first_line t)) = true -> section_loop conical (S k) rows (opened t) = Ok (Some (rows, opened t)).
Proof. intros H. cbn [section_loop]. change (ok (opened t)) with true. cbn [negb]. rewrite peek_line_opened, H. reflexivity. Qed.
