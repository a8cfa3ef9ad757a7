(** * SafeClasses: with SafeInteger the computation of classes is never undefined: it ends, runs out of rounds, or an exception is thrown. *)
From Coq Require Import List ZArith Arith Bool Lia.
From Verif Require Import Base Spec LinAlg ListUtil FmePure FmeCore ArithModel IntTypes FmeTheorems ClassesModel ClassesProofs ApplyTheorems AdModel VertexAdModel.
Import ListNotations.
Open Scope Z_scope.

(** A result that is not undefined and satisfies [P] if it is a value. *)
Definition fine {X} (P : X -> Prop) (m : res X) : Prop := match m with Ok x => P x | Throw => True | UB => False end.
Lemma fine_bind {X Y} (P : X -> Prop) (R : Y -> Prop) m f : fine P m -> (forall x, P x -> fine R (f x)) -> fine R (bind m f).
Proof. destruct m; cbn; auto. Qed.
Lemma fine_weaken {X} (P R : X -> Prop) m : (forall x, P x -> R x) -> fine P m -> fine R m.
Proof. destruct m; cbn; auto. Qed.

Section Safe.
  Variables (N : nat) (tg : tag) (maps : list lmap).
  Hypothesis HM : Forall (map_in N) maps.
  Definition safe_row (r : vec) : Prop := length r = N /\ Forall (representable SAFE) r.
  Definition safe_rows (l : list vec) : Prop := forall r, In r l -> safe_row r.
  Definition when_some {X} (P : X -> Prop) (o : option X) : Prop := match o with Some x => P x | None => True end.

  Lemma safe_apply m r : map_in N m -> safe_row r -> fine safe_row (m_apply (arith SAFE) tg m r).
  Proof.
    intros Hm (Hl & Hr). assert (O := apply_outcome SAFE tg N m r ltac:(discriminate) Hm Hl Hr). assert (K := apply_result SAFE tg N m r).
    destruct (m_apply (arith SAFE) tg m r) as [y| |] eqn:E; cbn [fine]; auto.
    - destruct (K y ltac:(discriminate) Hm Hl Hr eq_refl) as (-> & Hy). split; auto. rewrite rnorm_length, praw_length. auto.
    - cbn in O. destruct O; discriminate.
  Qed.
  Lemma safe_insert x (s : list vec) : safe_row x -> safe_rows s -> safe_rows (fst (m_set_insert (arith SAFE) x s)).
  Proof.
    intros Hx. induction s as [|y s IH]; intros Hs; cbn [m_set_insert].
    - intros r [<-|[]]; auto.
    - destruct (m_lex_lt (arith SAFE) x y); [intros r [<-|Hr]; auto|]. destruct (m_lex_lt (arith SAFE) y x); cbn [fst]; auto.
      intros r [<-|Hr]; [apply Hs; left; auto|]. apply IH; auto. intros z Hz. apply Hs. right; auto.
  Qed.
  Lemma safe_class_row current : safe_row current -> forall ms s, Forall (map_in N) ms -> safe_rows (fst s) -> safe_rows (snd s) ->
    fine (fun s => safe_rows (fst s) /\ safe_rows (snd s)) (m_class_row (arith SAFE) tg ms current s).
  Proof.
    intros Hc. unfold m_class_row. induction ms as [|m ms IH]; intros s Hms H1 H2; cbn [foldM]; [cbn; auto|]. apply Forall_cons_iff in Hms as (Hm & Hms).
    assert (A := safe_apply m current Hm Hc). change (num (arith SAFE)) with Z in *. destruct (m_apply (arith SAFE) tg m current) as [y| |]; cbn [fine bind] in *; auto. apply IH; auto.
    - cbn [fst]. apply safe_insert; auto.
    - cbn [snd]. match goal with |- context [if ?b then _ else _] => destruct b end; auto. intros r [<-|Hr]; auto.
  Qed.
  Lemma safe_class_loop fuel : forall rows stack, safe_rows rows -> safe_rows stack -> fine (when_some safe_rows) (m_class_loop (arith SAFE) fuel tg maps rows stack).
  Proof.
    induction fuel as [|fuel IH]; intros rows [|c stack] H1 H2; cbn [m_class_loop]; cbn [fine when_some]; auto.
    eapply fine_bind; [apply safe_class_row; auto; [apply H2; left; auto|intros r Hr; apply H2; right; auto]|]. intros s (S1 & S2). apply IH; auto.
  Qed.
  Lemma safe_get_class fuel r : safe_row r -> fine (when_some (fun C => safe_rows C /\ C <> [])) (m_get_class (arith SAFE) fuel tg maps r).
  Proof.
    intros Hr. assert (L := safe_class_loop fuel [r] [r] ltac:(intros x [<-|[]]; auto) ltac:(intros x [<-|[]]; auto)). change (fine (when_some safe_rows) (m_get_class (arith SAFE) fuel tg maps r)) in L.
    destruct (m_get_class (arith SAFE) fuel tg maps r) as [[C|]| |] eqn:E; cbn [fine when_some] in *; auto.
    split; auto. intros ->. apply (proj2 (get_class_spec SAFE tg maps r fuel [] E) r). constructor.
  Qed.
  Lemma safe_back (C : list vec) : safe_rows C -> C <> [] -> fine safe_row (back C).
  Proof.
    intros H Hn. unfold back. destruct C as [|c C]; [congruence|]. cbn [fine]. apply H. destruct (exists_last Hn) as (C' & x & E). rewrite E, last_last. apply in_app_iff. right. left. auto.
  Qed.
  Lemma safe_representative fuel r : safe_row r -> fine (when_some safe_row) (m_representative (arith SAFE) fuel tg maps r).
  Proof.
    intros Hr. unfold m_representative. eapply fine_bind; [apply safe_get_class; auto|]. intros [C|] HC; cbn [fine when_some] in *; auto. destruct HC as (HC & Hn).
    eapply fine_bind; [apply safe_back; auto|]. intros x Hx. exact Hx.
  Qed.
  Lemma safe_erase x (s : list vec) : safe_rows s -> safe_rows (m_set_erase (arith SAFE) x s).
  Proof.
    induction s as [|y s IH]; intros H; cbn [m_set_erase]; auto. destruct (m_lex_lt (arith SAFE) x y); auto. destruct (m_lex_lt (arith SAFE) y x).
    - intros r [<-|Hr]; [apply H; left; auto|]. apply IH; auto. intros z Hz. apply H. right; auto.
    - intros z Hz. apply H. right; auto.
  Qed.
  Lemma safe_erase_all (C : list vec) : forall s, safe_rows s -> safe_rows (fold_left (fun s r => m_set_erase (arith SAFE) r s) C s).
  Proof. induction C as [|c C IH]; intros s H; cbn [fold_left]; auto. apply IH. apply safe_erase; auto. Qed.
  Lemma safe_classes_loop rounds fuel : forall rows, safe_rows rows -> fine (when_some safe_rows) (m_classes_loop (arith SAFE) rounds fuel tg maps rows).
  Proof.
    induction rounds as [|rounds IH]; intros [|first rows] H; cbn [m_classes_loop]; cbn [fine when_some]; auto; try (intros r []).
    eapply fine_bind; [apply safe_get_class; apply H; left; auto|]. intros [C|] HC; cbn [fine when_some] in *; auto. destruct HC as (HC & Hn).
    eapply fine_bind; [apply safe_back; auto|]. intros x Hx. eapply fine_bind; [apply IH; apply safe_erase_all; auto|].
    intros [out|] Hout; cbn [fine when_some] in *; auto. intros r [<-|Hr]; auto.
  Qed.
  Lemma safe_classes_of fuel rows : safe_rows rows -> fine (when_some safe_rows) (m_classes_of (arith SAFE) fuel tg maps rows).
  Proof. intros H. unfold m_classes_of, m_classes. apply safe_classes_loop. intros r Hr. apply H. apply (set_of_spec SAFE rows). auto. Qed.
End Safe.
Lemma safe_vertex_representatives N maps fuel rows : Forall (map_in N) maps -> safe_rows N rows -> fine (when_some (safe_rows N)) (m_vertex_representatives SAFE fuel maps rows).
Proof.
  intros HM. induction rows as [|r rows IH]; intros H; cbn [m_vertex_representatives]; [intros x []|].
  eapply fine_bind; [apply (safe_representative N Vertex_tag maps HM); apply H; left; auto|]. intros [x|] Hx; cbn [fine when_some] in *; auto.
  eapply fine_bind; [apply IH; intros z Hz; apply H; right; auto|]. intros [xs|] Hxs; cbn [fine when_some] in *; auto. intros z [<-|Hz]; auto.
Qed.
