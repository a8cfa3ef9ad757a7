# Formal model of panda in Rocq: design

## Technique
The code is modelled function by function as Gallina functions that return a `res` outcome (`Base.v`):
`Ok v` (normal return), `Throw` (an exception leaves the function, or `std::terminate` below a `noexcept`
function: no result is produced), `UB` (undefined behaviour: access outside a container, signed overflow, division
by zero of a built-in type, reading past a string).  The templates over the integer type are modelled once, over a
record `Arith` of integer operations (`ArithModel.v`), and instantiated with int16_t, int, int64_t, SafeInteger,
BigInteger and ideal integers.  Each function model cites file and lines of /repo/src.

Linear algebra results are proved for pure functions over `Z` (`FmePure.v`, `Gauss.v`, ...); a relational
refinement (`Refine.v`, `MatrixRefine.v`, `FmeRefine.v`, ...) shows that the model over any *sound* integer type
(every operation returns the exact value or fails in a tolerated way) returns what the pure function returns or fails.
Concurrency (job list) is a small-step transition system at the granularity of the critical sections; the
properties are invariants over all interleavings.

The specification vocabulary (`Spec.v`: cone, facet, rank, equivalence, primitive) does not mention the code.
Property theorems are in `Properties*.v`, named after the property; each file also has `Example`s that show
the hypotheses hold for concrete inputs, and each theorem is followed by `Print Assumptions`.

Where the code does not have the property, the theorem is a *refutation*: a concrete input (or schedule) for which
the model violates the English claim, together with the strongest positive statement we can prove.

## Trusted base
* The Coq 8.16.1 kernel (`coqc`; `vm_compute` is used for concrete examples only).
* Axioms: every theorem is followed by `Print Assumptions`, which answers "Closed under the global context" for all
  of them.  No axiom, no `Admitted`, no functor, no module type, no plugin, no switched-off check.  Loading the
  standard library brings `Coq.ssr.ssrunder.*` into the environment (vcheck lists it); no theorem uses it.
* The fidelity of the models to the C++ text and the modelling decisions listed below.  Every definition of a
  `*Model.v` file carries a comment with the file and the lines it models, or says that it stands for a construct
  of the C++ language or library.

### What is modelled (all paths in /repo/src)
| model | code |
|-------|------|
| ArithModel, MatrixModel | algorithm_integer_operations, algorithm_row_operations, algorithm_inequality_operations, algorithm_matrix_operations |
| BitsetModel | bitset_fixed_size, bitset_variable_size, popcount |
| FmeModel | algorithm_fourier_motzkin_elimination (complete and heuristic) |
| RotationModel | algorithm_rotation |
| ClassesModel, MapModel | algorithm_classes, algorithm_map_operations |
| SafeIntModel, IntTypes | safe_integer*, built-in integers, the choice of the type |
| BigIntModel, BigIntShift, BigArith | big_integer* |
| TypedModel | method_double_description over any type, in particular BigInteger |
| TypedAdModel | method_adjacency_decomposition over any type, in particular BigInteger; the list of jobs holds rows by their values (for BigInteger: two rows are the same exactly if their numbers are, C18) |
| ListModel, ListExec | list, job_manager (one process), worker threads of method_adjacency_decomposition_implementation |
| CommModel, MpiModel | communication, job_manager, job_manager_proxy (several processes) |
| AdModel | method_adjacency_decomposition(_implementation) for facets |
| StreamModel | std::istream as implemented by libstdc++ ("C" locale), restricted to the operations that are used |
| InputModel, ConstraintModel | input_common, input_keywords, input_vertex, input_names, input_dimension, input_map, input_constraint*, istream_peek_line, position_guarded_file |
| SortModel, CliModel | option handling: concurrency, integer_type_detection, input_method, input_detection, input (sorting, known data) |
| ValidityModel | input_validity |
| FileModel | input, input.tpp, input_consistency, cast, method_double_description, mode detection |
| OutputModel | printing of rows and matrices, method_double_description |
| VertexAdModel | method_adjacency_decomposition(_implementation) with the vertex tag |
| MainModel | main, help (which text is printed), method_facet_enumeration, method_vertex_enumeration, integer_type_selection |

### What is not modelled
* The wording of the help texts (help.cpp 62-184), the texts on the error stream; git revision, application name.
* The wrappers scope_guard, delayed_action, range, joining_thread (their effect is inlined where they are used).
* One function nothing calls: `implementation::vertices(stream)` (input_vertex.cpp 96-108).
* MPI_Init, MPI_Finalize and the polling loops; assumed of MPI: messages between two processes with one tag arrive
  in order and complete, the default error handler aborts (comment in CommModel).
* Memory exhaustion, run time, the build variants NO_FLEXIBILITY and PRINT_DONE_COUNTER.

## Modelling decisions
* `assert` is not modelled (release build); what an assertion would catch is `UB` or a wrong result.
* `std::sort` by key is an arbitrary permutation function `order` (all theorems quantify over it); where only one
  sorted sequence exists (rows, terms, indices) an insertion sort stands for it.
* `std::size_t` is `nat` where no wrap-around can happen; where the code can wrap it is modelled explicitly.
* Memory allocation never fails.  Loops whose termination is not structural carry fuel; exhaustion is `UB`, and the
  theorems exclude it; loops that can run forever answer `None` when the fuel is used up, and the theorems quantify
  over the fuel ("for all sufficiently large fuel").
* int16_t arithmetic is promoted to int and converted back modulo 2^16 (implementation-defined, gcc/clang).
* Data races: critical sections of the job list are atomic steps; the two accesses without the mutex are separate
  atomic steps in the theorems about results, and C13 says when they race.
* "SafeInteger throws" is `Throw`: with double description the program prints a message and returns 1; in a worker
  thread of adjacency decomposition the exception ends the program (std::terminate).

## Plan per property
| id | what is modelled | how it is proved |
|----|------------------|------------------|
| C01 | `fourierMotzkinElimination`, `extractEquations` with everything below (Gauss, bitsets, projection) | invariant of the double description pair over the projections; primal and dual description; refinement to every integer type |
| C02 | same | same invariant (rows valid, equations vanish) |
| C03 | same | invariant: rows are minimal supports = facets, pairwise incomparable, cover all dual elements |
| C04 | `detectBadRow`, whole elimination | membership characterisation; refutation for ray-only input |
| C05 | `extractEquations` | Gauss elimination invariant |
| C06 | `dimension` | Gauss elimination invariant |
| C07 | `fourierMotzkinEliminationHeuristic` | invariant of the loop; non-emptiness |
| C08 | `rotate` | termination measure and sign invariants |
| C09 | `rotation` as neighbour function | LP argument on the ratio of two linear forms, strong induction; refutation for polytopes whose facets have no ridge except the trivial one |
| C10-C13 | list.cpp, job_manager.cpp, worker loop as transition system | inductive invariants; refutations by explicit schedules |
| C14-C19 | BigInteger limb arithmetic | value function over limbs; refutations for `/`, `%` |
| C20 | SafeInteger | case analysis, equality with "exact or throw" |
| C21 | all algorithms over `Arith` | refinement relation; refutation for int16_t |
| C22 | gcd, lcm (two integers, row) | Euclid invariant with explicit fuel bound |
| C23, C24 | `normalize(row, equations)` | invariant over the equations |
| C25-C27 | `apply`, `getClass`, `classes` | adjointness; worklist invariant |
| C28, C29 | `normalize(map)`, `simplify` | refutations and positive part |
| C30 | both bitsets, portable popcount | bit-level specification |
| C31, C32 | input_vertex.cpp over streams | grammar of lines and sections (PropertiesVertices), scanner lemmas by induction over the text; refutations for words in sections |
| C33 | input_constraint*.cpp | grammar of constraints (PropertiesConstraints), solution sets over the rationals; refutations; terms in both directions for every word (PropertiesTerms: what is accepted, what is rejected, what is undefined) |
| C34 | sorting | permutation, order, uniqueness of the result |
| C35, C36 | input_validity.cpp | characterisation by permutations, facets and extreme rays |
| C37 | command line detection | characterisation for every argument list; refutations |
| C38 | input_dimension.cpp in whole files | refuted for the documented format; positive part |
| C39 | communication.cpp | bytes of messages, transition system of a link, invariant; refutations |
| C40 | `printFractional`, cast | denotation of the printed string |
| C41 | elimination applied to inequalities | polarity |
| C42 | elimination and double description programs over BigInteger (BigArith.v, TypedModel.v) | refutation by a run (wrong sign of a quotient, C16); positive part: a simulation between two arithmetics (Param.v), exact integers with those divisions taken as undefined -> BigInteger, and int -> exact integers; hence `-i inf` prints what int prints whenever int ends normally; adjacency decomposition: the simulation of the rotation is lifted to the runs of the threads (ListRuns.v, TypedAdProofs.v) |
| C43 | heuristic and `rotation` on inequalities | refutation by a run; positive part when no edge is hidden by the row the elimination drops (VertexGraph, VertexEdge) |
| C44 | printing followed by reading | composition of C33/C31 with the printing lemmas |
| C45, C46 | double description programs from rows to text | C01-C04, C41 with denotation of the printed lines; hull and corners over the rationals; with maps (PropertiesReduced.v) C26-C28 and the action of symmetries on facets (Symmetry.v), on the extreme rays (VertexSymmetry.v, VertexImages.v) |
| C47, C49 | whole files | grammar of files (FileProofs, SystemFile), invariant of the section loop |
| C48, C50 | file to output | composition of C47/C49 with C45/C46; with maps (PropertiesMapFile.v) the symmetries of points, rays and constraints are carried to the rows |
| C51 | MPI run | simulation by the job list of one process, potential function, progress |
| C52 | whole adjacency decomposition run: equations, maps, heuristic start, known facets, threads, printing | C09 (explored rows) with C10-C12 (list) and C26 (classes); orbits of facets under symmetries |
| C53 | `main`: mode detection by the keywords of the file, options, handlers and status | lines of the file against the keyword loop (ModeDetection); composition with C48, C50, C52, C57 (PropertiesMain.v, PropertiesMainAd.v); no undefined behaviour with -i safe by a refinement of the class computation (SafeClasses.v) |
| C54 | `help::command` and the choice of the text | case analysis; scan of the command line by induction |
| C55 | printed text as input (PropertiesRoundTrip.v) | printed rows are lines of the input grammar that stand for the same row; then C48 and C50 are composed; vertices, extreme directions and lines are defined for sets of points |
| C56 | all types, programs over any arithmetic (TypedModel.v) | the same simulation (Param.v, TypeOrder.v, TypedProofs.v); everything read from a file is a value of int (InputRange.v) |
| C57 | whole vertex enumeration run by adjacency decomposition (VertexAdModel.v) | connectedness of the graph of vertices and rays by walks towards the origin's side (VertexGraph, VertexEdge), orbits of extreme rays, closure of the job list (VertexAd, VertexAdExact) |
| C58 | `knownFacets`, `knownVertices`, the task that puts known rows, whole program with -k | grammar of the two kinds of files (KnownFile.v) against the readers; composition with C52, C57 with known rows (PropertiesKnown.v); SafeFacets.v for -i safe |
| C59 | option -c: checks inside the readers of vertices, rays, inequalities and known data | the flag only adds refusals (Checked.v, a "stricter" relation through the readers); the loops remember that accepted sections were checked with all maps of the file (CheckedFile.v); C35/C36 turn a passed check into a symmetry resp. facet; composition with C53, C58 (PropertiesCheck.v) |
| C60 | reduced vertices and rays: readers expandVertices, getClass, loop over the file | the class computed by getClass is the set of rows reached by the maps, each once, increasing (Expand.v on top of C08); the format of files (FileProofs) has a constructor for reduced sections; the images of rows are the images of the points (VertexImages.v), so C48/C53 with maps give the hull of all images (PropertiesExpand.v); reduced inequalities: ExpandMaps.v (normalize without equations only reorders terms), SystemFile.v, PropertiesExpandSystem.v |
| C61 | nothing new: the double description program for vertices | the rows of the elimination generate the dual cone up to forms that vanish (Lines.v: covers_gen_lines); vertices and extreme directions up to lines are exactly the facets of the dual (facet_corner, facet_direction), so completeness and distinctness of facets (C03, C04) carry over (PropertiesLines.v) |
| C62 | nothing new: adjacency decomposition for vertices | up to lines, the rows of the dual cone are the vertices and extreme directions (C61); edges of the polyhedron up to lines are the ridges of the dual (LineEdge.v); the elimination of a face drops at most the ridge through the last coordinate, which is hidden only as stated (LineGraph.v), so the search reaches every facet of the dual (LineAd.v: l_complete) in every schedule; printed text (PropertiesLinesAd.v); the whole program, SafeInteger, examples (PropertiesLinesMain.v; C62_whole_plane: a system that depends on no coordinate ends in undefined behaviour) |
| C63 | nothing new: vertex enumeration with maps, printing, reading reduced sections | the printed representatives are corners of the ideal polyhedron (C50); expanding them gives whole classes (C60: class_of), one class per representative, so concatenated they are all corners, none twice; the text is a file text (FileProofs.v); symmetries of the system identify no points because it contains no line, so the maps permute the expanded points (C60_symmetric); then C48_reduced for the second run (PropertiesReducedAgain.v); the other way round (PropertiesReducedFacets.v) the maps are only put in order (ExpandMaps.v), the classes of the printed facets make up all facets, the maps permute them, and C50_reduced describes the second run |
| C64 | operator<<=, operator>>=, operator<< for every distance (BigIntShift.v) | induction over the digits: the left shift loses the bits moved out of a digit whose lowest such bit is clear, so the difference to the product is a sum of non-negative terms; the right shift is a division because the residual power divides 2^W; for distance one the definition equals the one used in multiplication and division (PropertiesShift.v) |
| C65 | the double description programs for two descriptions of one set (GaussSame.v, ConeSame.v) | the equations are a canonical (reduced) basis, so equal for equal spaces (GaussSame); the facet rows are the normal forms of the facets of the cone (NormalForm), so equal as sets; the classes are computed from a sorted set; hulls and solution sets determine the cones by a Farkas argument (PropertiesSame.v); for adjacency decomposition by C52 (PropertiesSameAd.v) |
| C66 | the text printed up to a moment of a run (m_ad_shown, PropertiesResume.v) and the program reading it with -k | every printed row is in the closure of the start rows and the known rows, hence a facet in normal form (AdRun, ListTheorems); the lines printed are lines that can be read (PropertiesRoundTrip), so the text is a file with known facets and C58 applies; a concrete run for the line that is cut; for vertices the printed rows contain no word, so that no section is found (PropertiesResumeVertices.v) |
| C67 | nothing new: both methods on two inputs related by a change of coordinates (Coordinates.v) | a surjective integer substitution is invertible up to factors on rows and on columns (underdetermined systems); it carries facets to facets (Symmetry.v), extreme rays to extreme rays, and the rows of a normal form are unique up to equations, so the outputs are paired (PropertiesCoordinates.v); for two files, vertices and extreme directions are transported as sets of points, printed constraints are read as rows, and the printed lists paired (PropertiesCoordinatesFile.v) |
| C68 | nothing new: the functions of input_map.cpp (ConstraintModel.v), the readers of files (FileModel.v) | a grammar of images (MapImages.v: `written_image`) in both directions: every text that is accepted is derived by following the parser's own splitting, and conversely; shape of maps as an invariant of the readers of arbitrary files |

## Findings about the code (each is a theorem or example in `Properties*.v`)
* Elimination loses a genuine facet for ray-only input (C04); adjacency decomposition misses facets of segments and
  slabs (C09) and vertices in vertex enumeration (C43); int16_t results are silently wrong (C21).
* BigInteger: quotients with the wrong sign (C16), `(-6) % 3 = 3` (C17), INT_MIN compared wrongly (C18); hence
  `-i inf` computes wrong facets (C42).
* Normalising maps with equations whose leading coefficient is not 1 destroys symmetries, and the class computation
  need not end (C28); `simplify` leaves the image (C29); the check of maps rejects the identity for rows with a
  common factor (C35).
* Job list: known rows put late are lost, unprotected accesses race (C13); a distributed run with more worker
  threads on a slave than on the master never ends (C51); empty results and dead buffers in messages (C39).
* Input: a word in a Vertices section ends it silently, in a Rays section it loops forever, a denominator
  that does not fit an int is read as 2147483647 (C32); `1.5` is read as 1;
  "DIM=n" in one line is ignored (C38); repeated sections replace each other, maps without names never end,
  a line of a map with too few images is completed with zeros or with the next line, images that are too many become a
  further map (C47);
  widths of equations are not checked (C49); a variable behind the relation is taken as if it stood before it, so that
  "x <= y +1" is read as x + y <= 1 (C33); some sorting words are read past their end, "-x=p" hides the next
  argument (C37).
* Output: int64_t entries are printed modulo 2^32 (C40); a row without variables prints as " <= 1" (C44); lines of a
  non-pointed system are missing (C50).
* Exceptions of the asynchronous task that adds known facets are dropped (C52, model `m_ad_added`); two file names or
  an unknown method end in std::terminate (C53); the help does not know `--known-data` (C54).
* The default integer type is `int`, whose overflow is undefined: the theorems about `int` speak about runs that
  do not overflow (C21, C45-C48).
