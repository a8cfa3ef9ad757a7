(** * C68: what is accepted as a map in an input file. *)
From Coq Require Import List ZArith Arith Bool Ascii String Lia.
From Verif Require Import Base Spec ListUtil ArithModel SafeIntModel IntTypes StreamModel StreamProofs ClassesModel InputModel InputProofs VertexInput ConstraintModel ConstraintInput FileModel InputRange MapInput MapImages PropertiesFile.
Import ListNotations.
Open Scope nat_scope.
Open Scope list_scope.

(** For every word and all names (repeated ones, too): the word is accepted as an image exactly if it is one (see [written_image]), with the factors and variables that are written, in this order; otherwise
    there is an exception.  Numbers that do not fit an int are rejected, and so are unknown names. *)
Theorem C68_image : forall names token,
  (forall im, m_image token names = Ok im <-> token <> [] /\ written_image names token im) /\
  ((forall im, ~ (token <> [] /\ written_image names token im)) <-> m_image token names = Throw).
Proof.
  intros names token. destruct (image_iff names token) as [U I]. split; [exact I|]. split.
  - intros N. destruct (m_image token names) as [im| |]; [|reflexivity|congruence]. exfalso. apply (N im), I. reflexivity.
  - intros E im H. apply I in H. congruence.
Qed.
Print Assumptions C68_image.
(** The same word is never two images. *)
Theorem C68_unambiguous : forall names token im im', token <> [] -> written_image names token im -> written_image names token im' -> im = im'.
Proof. intros names token im im' N H H'. destruct (image_iff names token) as [_ I]. assert (A := proj2 (I im) (conj N H)). assert (B := proj2 (I im') (conj N H')). congruence. Qed.
Print Assumptions C68_unambiguous.
(** For every text: a map that is read from its beginning consists of the images that the first words spell, at most one per variable and nothing for the others; what is left over is what follows these words. *)
Theorem C68_map : forall names t, m_map (opened t) names <> UB /\ forall m s, m_map (opened t) names = Ok (m, s) ->
  exists u t' ims, t = u ++ t' /\ blanks u /\ spelled names t' ims (rest s) /\ length ims <= length names /\ m = ims ++ repeat [] (length names - length ims).
Proof. exact map_spelled. Qed.
Print Assumptions C68_map.
(** For every file of vertices and rays and every command line: the maps that are read have one image per coordinate and fix the constant, none of them is empty, and no image refers to a variable that does not
    exist or has a factor that does not fit an int. *)
Theorem C68_vertex_files : forall fs fuel args V names maps known, m_input_vertices fs fuel args = Ok (Some (V, names, maps, known)) -> forall m, In m maps -> shaped m.
Proof. intros fs fuel args V names maps known E m Hm. assert (H := input_vertices_shaped fs fuel args). rewrite E in H. cbn [ens ensured fst snd] in H. rewrite Forall_forall in H. exact (H m Hm). Qed.
Print Assumptions C68_vertex_files.
(** For every file of equations and inequalities and every command line. *)
Theorem C68_inequality_files : forall fs fuel args rows names maps known, m_input_inequalities fs fuel args = Ok (Some (rows, names, maps, known)) -> forall m, In m maps -> shaped m.
Proof. intros fs fuel args V names maps known E m Hm. assert (H := input_inequalities_shaped fs fuel args). rewrite E in H. cbn [ens ensured fst snd] in H. rewrite Forall_forall in H. exact (H m Hm). Qed.
Print Assumptions C68_inequality_files.

(** ** Examples *)
Lemma xy_first i n : nth_error [lit "x"; lit "y"] i = Some n -> first_named [lit "x"; lit "y"] n i.
Proof. intros E. split; [exact E|]. intros [|[|j]] Hj N; destruct i as [|[|i]]; cbn in E, N; try lia; try (destruct i; discriminate); congruence. Qed.
Example C68_image_example :
  written_image [lit "x"; lit "y"] (lit "2x-y+-3") [(0, 2%Z); (1, (-1)%Z); (2, 1%Z); (2, (-3)%Z)] /\ m_image (lit "2x-y+-3") [lit "x"; lit "y"] = Ok [(0, 2%Z); (1, (-1)%Z); (2, 1%Z); (2, (-3)%Z)] /\
  m_image (lit "2z") [lit "x"; lit "y"] = Throw /\ m_image (lit "4294967297x") [lit "x"; lit "y"] = Throw.
Proof.
  assert (E : m_image (lit "2x-y+-3") [lit "x"; lit "y"] = Ok [(0, 2%Z); (1, (-1)%Z); (2, 1%Z); (2, (-3)%Z)]) by (vm_compute; reflexivity).
  split; [|split; [exact E|split; vm_compute; reflexivity]].
  apply (written_variable _ (lit "2") 2 (lit "x") 0 (lit "-y+-3")).
  - apply factor_integer; [apply (integer_plain (lit "2")); [discriminate|repeat constructor]|split; vm_compute; discriminate].
  - split; [repeat constructor|reflexivity].
  - apply xy_first. reflexivity.
  - reflexivity.
  - apply (written_variable _ (lit "-") (-1) (lit "y") 1 (lit "+-3")); [constructor|split; [repeat constructor|reflexivity]|apply xy_first; reflexivity|reflexivity|].
    apply (written_constant [lit "x"; lit "y"] (lit "+") 1 (lit "-3")); [constructor|discriminate|reflexivity|]. apply (written_constant [lit "x"; lit "y"] (lit "-3") (-3) []); [|discriminate|exact I|constructor].
    apply factor_integer; [apply (integer_minus (lit "3")); [discriminate|repeat constructor]|split; vm_compute; discriminate].
Qed.
(** A lone sign is read as the constant 1 or -1: "--x" is -1 - x. *)
Example C68_lone_sign_example : m_image (lit "--x") [lit "x"; lit "y"] = Ok [(2, (-1)%Z); (0, (-1)%Z)].
Proof. vm_compute. reflexivity. Qed.
Example C68_map_example : m_map (opened (line " y 2x-1" ++ line "x y")) [lit "x"; lit "y"] = Ok ([[(1, 1%Z)]; [(0, 2%Z); (2, (-1)%Z)]], opened (newline :: line "x y")).
Proof. vm_compute. reflexivity. Qed.
Example C68_vertex_files_example :
  m_input_vertices (one_file (mapped_square (line "y x"))) 40 [lit "f"] = Ok (Some ([[0; 1; 1]; [1; 0; 1]]%Z, [lit "x"; lit "y"], [[[(1, 1%Z)]; [(0, 1%Z)]; [(2, 1%Z)]]], [])) /\
  shaped [[(1, 1%Z)]; [(0, 1%Z)]; [(2, 1%Z)]].
Proof.
  assert (E : m_input_vertices (one_file (mapped_square (line "y x"))) 40 [lit "f"] = Ok (Some ([[0; 1; 1]; [1; 0; 1]]%Z, [lit "x"; lit "y"], [[[(1, 1%Z)]; [(0, 1%Z)]; [(2, 1%Z)]]], []))) by (vm_compute; reflexivity).
  split; [exact E|]. apply (C68_vertex_files _ _ _ _ _ _ _ E). left. reflexivity.
Qed.
Example C68_inequality_files_example :
  exists rows, m_input_inequalities (one_file (line "Names:" ++ line "x y" ++ line "Maps:" ++ line "y x" ++ line "Inequalities:" ++ line "x + y <= 1")) 40 [lit "f"] =
    Ok (Some (rows, [lit "x"; lit "y"], [[[(1, 1%Z)]; [(0, 1%Z)]; [(2, 1%Z)]]], [])).
Proof. eexists. vm_compute. reflexivity. Qed.
