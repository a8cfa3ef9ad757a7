(** * TypedModel: the programs of method_double_description.cpp over any integer type, in particular BigInteger ("-i inf").
    The types of IntTypes have them in OutputModel; [typed_facet_call] and [typed_vertex_call] say that those are instances of the ones here. *)
From Coq Require Import List ZArith Arith Bool Ascii String.
From Verif Require Import Base Spec ListUtil ArithModel MatrixModel FmeModel SafeIntModel IntTypes ClassesModel MapModel StreamModel OutputModel CliModel InputModel FileModel BigIntModel BigArith.
Import ListNotations.
Open Scope Z_scope.

Section Typed.
  (** The type, its conversion to int, and the factor [-c * e] for a factor [c] of a map and a coefficient [e]. *)
  Variables (A : Arith) (to_int : num A -> res Z) (factor : Z -> num A -> res Z).
  Notation row := (list (num A)).
  Notation matrix := (list (list (num A))).

  (** ** Maps (algorithm_map_operations.cpp 29-38 and 91-197), see MapModel. *)
  (** The loop algorithm_map_operations.cpp 130-136. *)
  Fixpoint g_expand (c : Z) (j : nat) (eq : row) : res image :=
    match eq with
    | [] => Ok []
    | e :: eq' =>
        if negb (a_eqi A e 0) then
          do f <- factor c e;
          do rest <- g_expand c (S j) eq';
          Ok ((j, f) :: rest)
        else g_expand c (S j) eq'
    end.
  (** [subtractEquation] (algorithm_map_operations.cpp 121-148) for one image. *)
  Definition g_subtract_image (index : nat) (equation : row) (im : image) : res image :=
    match im with
    | [] => Ok []
    | tm :: others =>
        do new_image <- (if (fst tm =? index)%nat then g_expand (snd tm) (S index) (skipn (S index) equation) else Ok [tm]);
        match others with [] => Ok new_image | _ :: _ => UB end
    end.
  (** [subtractEquations] (algorithm_map_operations.cpp 150-161). *)
  Definition g_subtract_all (m : lmap) (equations : matrix) : res lmap :=
    foldM (fun m eq => mapM (g_subtract_image (m_first_nonzero A eq) eq) m) m equations.
  (** [normalizeMap] (algorithm_map_operations.cpp 187-197). *)
  Definition g_normalize_map (equations : matrix) (m : lmap) : res lmap :=
    do m1 <- m_eliminate m (map (m_first_nonzero A) equations);
    do m2 <- g_subtract_all m1 equations;
    m_simplify m2.

  (** ** Printing (algorithm_row_operations.cpp 24-131, method_double_description.cpp 59-125), see OutputModel. *)
  (** [prettyPrint] of a matrix (algorithm_matrix_operations.cpp 31-38). *)
  Definition g_pretty_matrix (names : list text) (relation : string) (m : matrix) : prints :=
    for_all (fun r => calc (mapM to_int r) (fun r => calc (m_pretty r names relation) (fun l => say (l ++ end_line)))) m.
  (** [split] (method_double_description.cpp 59-79). *)
  Definition g_split (m : matrix) : res (matrix * matrix) :=
    foldM (fun s row => do b <- back row; Ok (if negb (a_eqi A b 0) then (fst s ++ [row], snd s) else (fst s, snd s ++ [row]))) ([], []) m.
  (** [print(vertices, is_reduced)] (method_double_description.cpp 81-113). *)
  Definition g_print_vertices (vertices : matrix) (is_reduced : bool) : prints :=
    calc (g_split vertices) (fun '(conv, cone) =>
      (match conv with
       | [] => say []
       | _ => say (m_reduced is_reduced ++ lit "Vertices:" ++ end_line) ;;
              for_all (fun v => calc (mapM to_int v) (fun r => calc (m_fractional r) (fun l => say (l ++ end_line)))) conv
       end) ;;
      (match cone with
       | [] => say []
       | _ => say (m_reduced is_reduced ++ lit "Rays:" ++ end_line) ;;
              for_all (fun v => calc (mapM to_int (removelast v)) (fun r => say (m_print_row r ++ end_line))) cone
       end)).
  (** [FacetEnumerationDoubleDescription::call] (method_double_description.cpp 127-163) after the input. *)
  Definition g_facet_call (order : list nat -> list nat) (fuel : nat) (vertices : matrix) (names : list text) (maps : list lmap) : option prints :=
    match m_extract_equations A vertices with
    | Throw => Some ([], Throw)
    | UB => Some ([], UB)
    | Ok equations =>
        match mapM (g_normalize_map equations) maps with
        | Throw => Some ([], Throw)
        | UB => Some ([], UB)
        | Ok reduced_maps =>
            let part1 :=
              match equations with
              | [] => say []
              | _ => say (lit "Equations:" ++ end_line) ;; g_pretty_matrix names "=" equations ;; say end_line
              end in
            match bind (m_fme A order vertices) (m_classes_of A fuel Facet_tag reduced_maps) with
            | Throw => Some (part1 ;; ([], Throw))
            | UB => Some (part1 ;; ([], UB))
            | Ok None => match part1 with (_, Ok _) => None | _ => Some part1 end
            | Ok (Some inequalities) => Some (part1 ;; (say (m_reduced (nonempty maps) ++ lit "Inequalities:" ++ end_line) ;; g_pretty_matrix names "<=" inequalities))
            end
        end
    end.
  (** [VertexEnumerationDoubleDescription::call] (method_double_description.cpp 165-191) after the input. *)
  Definition g_vertex_call (order : list nat -> list nat) (fuel : nat) (inequalities : matrix) (maps : list lmap) : option prints :=
    match bind (m_fme A order inequalities) (m_classes_of A fuel Vertex_tag maps) with
    | Throw => Some ([], Throw)
    | UB => Some ([], UB)
    | Ok None => None
    | Ok (Some matrix) => Some (g_print_vertices matrix (nonempty maps))
    end.
End Typed.

Lemma typed_expand t c j eq : g_expand (arith t) (MapModel.m_factor t) c j eq = MapModel.m_expand t c j eq.
Proof. revert j. induction eq as [|e eq IH]; intros j; cbn [g_expand MapModel.m_expand]; [reflexivity|]. rewrite IH. reflexivity. Qed.
Lemma typed_facet_call t : g_facet_call (arith t) (OutputModel.m_to_int t) (MapModel.m_factor t) = m_facet_call t.
Proof. reflexivity. Qed.
Lemma typed_vertex_call t : g_vertex_call (arith t) (OutputModel.m_to_int t) = m_vertex_call t.
Proof. reflexivity. Qed.

(** ** BigInteger *)
(** [-term.second * equation[j]] (algorithm_map_operations.cpp 134) for BigInteger: its constructors are explicit and its conversion to int is not
    (big_integer.h 25-51), so this is the product of two ints. *)
Definition big_factor (c : Z) (e : big) : res Z := do c' <- i_neg 32 c; do e' <- b_to_int 64 false e; i_mul 32 c' e'.
(** [cast<BigInteger>] (cast.cpp 15-37) of the rows that were read, then method_double_description.cpp 137-163. *)
Definition m_inf_facet_call (order : list nat -> list nat) (fuel : nat) (vertices : list vec) (names : list text) (maps : list lmap) : option prints :=
  g_facet_call BIG (b_to_int 64 false) big_factor order fuel (big_rows vertices) names maps.
(** The same for vertex enumeration (method_double_description.cpp 174-191). *)
Definition m_inf_vertex_call (order : list nat -> list nat) (fuel : nat) (inequalities : list vec) (maps : list lmap) : option prints :=
  g_vertex_call BIG (b_to_int 64 false) order fuel (big_rows inequalities) maps.
(** method_double_description.cpp 127-163 with [Integer = BigInteger] (integer_type_selection.tpp). *)
Definition m_inf_facet_program (order : list nat -> list nat) (fs : files) (fuel : nat) (args : list text) : option prints :=
  calco (m_input_vertices fs fuel args) (fun '(vertices, names, maps, _) => m_inf_facet_call order fuel vertices names maps).
(** method_double_description.cpp 165-191 with [Integer = BigInteger]. *)
Definition m_inf_vertex_program (order : list nat -> list nat) (fs : files) (fuel : nat) (args : list text) : option prints :=
  calco (m_input_inequalities fs fuel args) (fun '(inequalities, _, maps, _) => m_inf_vertex_call order fuel inequalities maps).
