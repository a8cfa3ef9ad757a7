{"id": "C01", "title": "Double description output is a complete description of the hull", "statement": "When facet enumeration by double description is run on a finite generating set (vertices and rays in homogenised form), the printed equations together with the printed inequalities (plus the implicit 'last homogenising coordinate >= 0' when that row was dropped) are satisfied by a vector exactly when that vector is a nonnegative combination of the generators.", "quantifier": "every finite non-empty list of generators of any length and dimension that are not all zero, every point of the space", "why_tests_cant": "The set of inputs and of points is infinite; a test compares with a known answer for a handful of polytopes and cannot show that no point is wrongly admitted or cut off.", "anchors": ["src/algorithm_fourier_motzkin_elimination.cpp: fourierMotzkinElimination, phaseTwo, projection, updateSystem", "src/method_double_description.cpp"]}
{"id": "C02", "title": "Double description never prints an invalid inequality", "statement": "Every inequality row returned by Fourier-Motzkin elimination is satisfied by every generator, and every extracted equation is satisfied with equality by every generator.", "quantifier": "every generator list, every returned row, every generator", "why_tests_cant": "Soundness must hold for each of the exponentially many rows of arbitrary inputs.", "anchors": ["src/algorithm_fourier_motzkin_elimination.cpp: fourierMotzkinElimination", "src/algorithm_matrix_operations.cpp: extractEquations"]}
{"id": "C03", "title": "Every printed row is a facet, every facet is printed exactly once", "statement": "The rows returned by Fourier-Motzkin elimination (before the homogenising row is dropped) are in one-to-one correspondence with the facets of the cone: each row's tight generators determine the row up to scaling and equations, no two rows describe the same facet, and every facet-defining inequality is equal, up to positive scaling and adding equations, to a returned row.", "quantifier": "every generator list, every facet-defining inequality of the generated cone, every pair of returned rows", "why_tests_cant": "Irredundancy and completeness quantify over all inequalities, not over the ones a test knows about; the bitset pruning rules (count, containment, minimality) can only be justified by linear algebra.", "anchors": ["src/algorithm_fourier_motzkin_elimination.cpp: countCheck, containmentCheck, pnrIteration, projection"]}
{"id": "C04", "title": "Dropping the homogenising row loses nothing for inputs with a vertex", "statement": "The trivial row (0,...,0,-1) that Fourier-Motzkin elimination removes from its result is implied by the homogenisation, so no inequality of the original space is lost, whenever at least one generator has a non-zero last coordinate; for ray-only input a genuine facet can be lost.", "quantifier": "every generator list", "why_tests_cant": "The defect only shows for inputs whose generators all lie in the hyperplane at infinity; a suite of polytopes never exercises it.", "anchors": ["src/algorithm_fourier_motzkin_elimination.cpp: detectBadRow, eliminateZeroColumns, phaseTwo"]}
{"id": "C05", "title": "Extracted equations are exactly the affine hull", "statement": "extractEquations returns linearly independent equations that hold on all input rows and span every equation holding on all input rows; each has a positive leading coefficient and no other returned equation uses that coordinate.", "quantifier": "every non-empty rectangular integer matrix, every linear equation valid on its rows", "why_tests_cant": "Spanning the orthogonal complement is a statement about all vectors.", "anchors": ["src/algorithm_matrix_operations.cpp: gaussianElimination, extractEquations, pivot, eliminateColumns"]}
{"id": "C06", "title": "dimension() is the rank", "statement": "dimension(matrix) returns the rank of the matrix: that many of its rows are linearly independent and they span all other rows.", "quantifier": "every non-empty rectangular integer matrix", "why_tests_cant": "Rank is a statement about all linear combinations of arbitrary matrices; the in-place erase with index decrement is only right by an invariant.", "anchors": ["src/algorithm_matrix_operations.cpp: dimension"]}
{"id": "C07", "title": "Heuristic start facets are valid and facet-defining", "statement": "Every row handed to adjacency decomposition by the abortable double description is valid for all input generators and defines a facet, and at least one row is produced.", "quantifier": "every generator list", "why_tests_cant": "Early termination depends on the input; correctness of the row taken at an intermediate step needs the loop invariant.", "anchors": ["src/algorithm_fourier_motzkin_elimination.cpp: fourierMotzkinEliminationHeuristic, phaseTwoHeuristic, extractFacets"]}
{"id": "C08", "title": "Rotation yields a valid inequality tight on the ridge", "statement": "Rotating a facet around one of its ridges terminates and returns an inequality that holds for all generators, defines a facet, is tight for every generator lying on facet and ridge, is tight on at least one generator off the facet, and is not the facet itself; a facet containing no non-zero generator (single point input) is outside the defined behaviour.", "quantifier": "every generator list, facet and ridge inequality", "why_tests_cant": "The loop has no syntactic bound; termination and validity need a measure over arbitrary data.", "anchors": ["src/algorithm_rotation.cpp: rotate, getRidges, rotation"]}
{"id": "C09", "title": "Adjacency decomposition finds every facet", "statement": "Starting from the rows of the heuristic, or from any facet, repeatedly rotating around all ridges returned for a facet reaches every facet, and produces exactly the rows of double description (possibly plus the trivial row), for every polyhedron with at least three facets (homogenised), in particular every polytope of dimension at least two; with two facets (segments, slabs) facets can be missed.", "quantifier": "every generating set with a vertex, every behaviour of the sort, every starting facet, every target facet", "why_tests_cant": "Reachability in the ridge graph is a theorem about all polytopes; a finite suite cannot exclude a polytope whose ridge graph is cut by a dropped ridge.", "anchors": ["src/algorithm_rotation.cpp", "src/method_adjacency_decomposition_implementation.cpp: adjacencyDecomposition"]}
{"id": "C10", "title": "Job list: no row is printed or handed out twice", "statement": "With any number of worker threads, every distinct row put into the job list is printed exactly once and handed to at most one worker.", "quantifier": "every number of workers, every neighbour function, every interleaving of put and get", "why_tests_cant": "Interleavings are unbounded and scheduler dependent; a test sees a few of them.", "anchors": ["src/list.cpp: List::put, List::get, List::empty", "src/job_manager.cpp"]}
{"id": "C11", "title": "Job list: complete on termination", "statement": "If all workers of adjacency decomposition have terminated and no known output was supplied, the printed rows are exactly the closure of the start rows under the neighbour function: nothing in the queue is forgotten.", "quantifier": "every number of workers, every start set and neighbour function, every interleaving", "why_tests_cant": "Premature termination is a race that testing cannot exclude.", "anchors": ["src/list.cpp: List::get, List::empty, List::put(Matrix)", "src/method_adjacency_decomposition_implementation.cpp: adjacencyDecomposition"]}
{"id": "C12", "title": "Job list: no deadlock, no lost wake-up", "statement": "As long as some worker has not terminated, some thread can take a step or has a job to work on; when the closure is finite every fair run terminates with all workers stopped.", "quantifier": "every number of workers >= 1, every finite closure, every interleaving", "why_tests_cant": "Deadlocks depend on schedules that tests rarely hit.", "anchors": ["src/list.cpp: List::get (condition variable, sentinel row)"]}
{"id": "C13", "title": "Job list: known output handed in asynchronously is not lost and not racing", "statement": "Rows supplied with the known-data option while workers are running are processed like any other row, and the shared row set is only accessed under the mutex. (The code violates both: a known row put after some worker found the list empty is lost together with its descendants, and the unprotected insertion in get races.)", "quantifier": "every schedule of the asynchronous insertion against the workers", "why_tests_cant": "The violating schedules need the emptiness check and the asynchronous insertion to interleave.", "anchors": ["src/list.cpp: List::get (insert before lock)", "src/method_adjacency_decomposition_implementation.cpp: initializationOnMaster"]}
{"id": "C14", "title": "BigInteger addition and subtraction are exact", "statement": "a + b and a - b on arbitrary precision integers denote the mathematical sum and difference and the result is in canonical form, for operands of any size and sign. The value -2^31 (INT_MIN) is converted to int by negating INT_MIN, which the C++ standard leaves undefined; the claim holds for it if that negation wraps, and for every other value in any case.", "quantifier": "all pairs of BigInteger values of any magnitude", "why_tests_cant": "Carry propagation across an unbounded number of limbs cannot be enumerated.", "anchors": ["src/big_integer_arithmetics.cpp: operator+=, operator-=", "src/big_integer.cpp: addMagnitude, subtractMagnitude, shrinkToFit"]}
{"id": "C15", "title": "BigInteger multiplication is exact", "statement": "a * b on arbitrary precision integers denotes the mathematical product in canonical form. As an operand or an intermediate sum, the value -2^31 (INT_MIN) is converted to int by negating INT_MIN, which the C++ standard leaves undefined; the claim holds for it if that negation wraps, and for every other value in any case.", "quantifier": "all pairs of BigInteger values of any magnitude", "why_tests_cant": "Shift-and-add over an unbounded number of limbs, with an int fast path whose overflow test must be exact.", "anchors": ["src/big_integer_arithmetics.cpp: operator*=, fallbackMultiplyAssign", "src/big_integer.cpp: operator<<="]}
{"id": "C16", "title": "BigInteger division truncates toward zero", "statement": "a / b denotes the quotient truncated toward zero for every non-zero b, and dividing by zero throws.", "quantifier": "all pairs of BigInteger values of any magnitude and sign, b <> 0", "why_tests_cant": "The sign handling differs between the int fast path and the limb path; the failing combinations need operands beyond int range.", "anchors": ["src/big_integer_arithmetics.cpp: operator/=", "src/big_integer.cpp: divideMagnitudesWithRemainder"]}
{"id": "C17", "title": "BigInteger modulo lies in [0,b) and is congruent", "statement": "For b > 0, a % b is in [0,b) and congruent to a modulo b; for b <= 0 it throws.", "quantifier": "all pairs of BigInteger values of any magnitude and sign", "why_tests_cant": "Exact multiples with negative dividend and the magnitude path are corner cases in an infinite domain.", "anchors": ["src/big_integer_arithmetics.cpp: operator%=, fallbackModuloAssign"]}
{"id": "C18", "title": "BigInteger comparisons agree with the integers", "statement": "==, !=, <, >, <=, >= between two BigIntegers, and between a BigInteger and an int, agree with the order of the denoted integers.", "quantifier": "all pairs of canonical BigInteger values, all ints", "why_tests_cant": "Comparison of values with arbitrary many limbs.", "anchors": ["src/big_integer_comparisons.cpp", "src/big_integer.cpp: isMagnitudeSmallerThan, isMagnitudeGreaterThan"]}
{"id": "C19", "title": "BigInteger stays canonical and converts faithfully", "statement": "Every value built by the constructors and the arithmetic operators is canonical (no leading zero limb, no negative zero); conversion to int returns the value if it fits and throws otherwise; construction from a built-in integer followed by conversion is the identity. (INT_MIN as in C14.)", "quantifier": "every sequence of BigInteger operations, every int", "why_tests_cant": "Canonicity is an invariant of arbitrarily long operation histories.", "anchors": ["src/big_integer_constructors.cpp", "src/big_integer.cpp: shrinkToFit, flipSign"]}
{"id": "C20", "title": "SafeInteger is exact or throws", "statement": "Every SafeInteger operation (+, -, *, /, %, negation, abs, conversions) either returns the exact mathematical result or throws; it throws only if the exact result does not exist or is not representable; the overflow tests themselves never overflow.", "quantifier": "all pairs of 64-bit values", "why_tests_cant": "2^128 operand pairs per operator.", "anchors": ["src/safe_integer_arithmetics.tpp", "src/safe_integer_constructors.tpp", "src/safe_integer.tpp"]}
{"id": "C21", "title": "Computations in SafeInteger never silently go wrong", "statement": "A run of Fourier-Motzkin elimination, equation extraction or rotation in SafeInteger arithmetic either stops with an error or returns exactly what unbounded integer arithmetic returns.", "quantifier": "all inputs whose entries fit 64 bit", "why_tests_cant": "Silent overflow can occur at any intermediate product for inputs nobody tried.", "anchors": ["src/algorithm_fourier_motzkin_elimination.cpp", "src/algorithm_matrix_operations.cpp", "src/safe_integer_arithmetics.tpp", "src/integer_type_selection.tpp"]}
{"id": "C22", "title": "gcd and lcm are correct", "statement": "gcd of two integers or of a row is the non-negative greatest common divisor (0 for an all-zero row); lcm is the non-negative least common multiple for non-zero arguments; both loops terminate.", "quantifier": "all integers and all integer rows", "why_tests_cant": "Infinite domain, loop termination.", "anchors": ["src/algorithm_integer_operations.cpp: gcd, lcm, unsigned_gcd", "src/algorithm_row_operations.cpp: gcd, lcm"]}
{"id": "C23", "title": "Normalising a row preserves the inequality", "statement": "normalize(row, equations) returns a primitive row with zero coefficients on the equations' leading coordinates that is satisfied by the same points (among the points satisfying the equations) as the input row.", "quantifier": "every row, every list of equations, every point satisfying the equations", "why_tests_cant": "Equivalence over all points; depends on the sign of leading coefficients.", "anchors": ["src/algorithm_row_operations.cpp: normalize"]}
{"id": "C24", "title": "Normal form is unique", "statement": "Two inequalities that differ by a positive factor and a combination of the extracted equations have the same normal form, so known facets are recognised.", "quantifier": "every pair of equivalent rows and every extracted equation system", "why_tests_cant": "Canonicity quantifies over all pairs of rows.", "anchors": ["src/algorithm_row_operations.cpp: normalize", "src/algorithm_matrix_operations.cpp: extractEquations"]}
{"id": "C25", "title": "Applying a map to an inequality is dual to applying it to a point", "statement": "Applying a map to a facet and to a vertex are adjoint: up to the positive common factors removed, evaluating the mapped inequality at a point equals evaluating the inequality at the mapped point; results are primitive and the application is linear.", "quantifier": "every map, every row, every point", "why_tests_cant": "Infinite domain.", "anchors": ["src/algorithm_map_operations.cpp: apply, applyTerm"]}
{"id": "C26", "title": "getClass computes the orbit", "statement": "getClass(row, maps) returns exactly the rows reachable from row by applying the maps any number of times, when that set is finite.", "quantifier": "every row, every list of maps, every word in the maps", "why_tests_cant": "Words of maps are unboundedly long.", "anchors": ["src/algorithm_classes.cpp: getClass"]}
{"id": "C27", "title": "One representative per class", "statement": "classes(rows, maps) returns pairwise non-equivalent representatives covering exactly the orbits of the input rows, and classRepresentative is constant on orbits when the maps are invertible on the orbit.", "quantifier": "every set of rows and every list of maps acting by permutations on finite orbits", "why_tests_cant": "Quantifies over all group actions.", "anchors": ["src/algorithm_classes.cpp: classRepresentative, classes"]}
{"id": "C28", "title": "Normalising maps preserves their action", "statement": "normalize(maps, equations) yields maps that act on normalised inequalities like the original map followed by normalisation.", "quantifier": "every map, every equation system, every normalised inequality", "why_tests_cant": "The defect depends on leading coefficients and on the iteration order over a container that is reassigned in the loop.", "anchors": ["src/algorithm_map_operations.cpp: normalizeMap, subtractEquation, simplify"]}
{"id": "C29", "title": "simplify merges equal indices without leaving the image", "statement": "Simplifying an image of a map combines terms of equal index, drops zero terms and never accesses elements outside the image.", "quantifier": "every image", "why_tests_cant": "The out-of-range access depends on an unsigned index wrapping at the first position.", "anchors": ["src/algorithm_map_operations.cpp: simplify"]}
{"id": "C30", "title": "Bitsets behave like sets of indices", "statement": "set, count, contains, merge, union-count and union-containment of both bitset implementations agree with the corresponding set operations on all indices below the given bound, including across word boundaries; the portable popcount equals the number of set bits.", "quantifier": "every bitset of any number of words, every bound, every 32-bit word", "why_tests_cant": "2^32 words and unbounded sizes; word boundary cases.", "anchors": ["src/bitset_fixed_size.tpp", "src/bitset_variable_size.cpp", "src/popcount.tpp"]}
{"id": "C31", "title": "Vertex input is homogenised without changing the point", "statement": "A line of integers and fractions is read as the primitive-denominator homogeneous vector representing the same rational point; rays get last coordinate zero and keep their direction.", "quantifier": "every line of (possibly fractional) coordinates whose denominators' lcm fits", "why_tests_cant": "Unbounded number of columns and denominators.", "anchors": ["src/input_vertex.cpp: vertex, verticesConvex, verticesConical"]}
{"id": "C32", "title": "Vertex section is read completely or an error is reported", "statement": "A vertex or ray section containing a line that is not a list of numbers is rejected with an error instead of being truncated or looping forever.", "quantifier": "every text input", "why_tests_cant": "Malformed inputs form an infinite set; non-termination is not observable by a finite test.", "anchors": ["src/input_vertex.cpp: verticesConvex, verticesConical"]}
{"id": "C33", "title": "Constraint parsing preserves the solution set", "statement": "A constraint written as terms, a relation (<=, >=, =, ==) and a constant (with named variables, or as a row of coefficients; raw rows have no relation) is read as a row with exactly the same rational solutions, and a section of such lines is read completely, in order, up to the next keyword or END. A relation of the wrong kind for the section and a variable that occurs twice are rejected. (Refined while proving: variables after the relation are accepted but counted on the left, so 'x <= y +3' becomes x+y<=3; unspaced sums are cut off; a name that begins a name listed later must precede it. These are recorded as refutations.)", "quantifier": "every well-formed constraint over every name list, every point", "why_tests_cant": "Infinite grammar.", "anchors": ["src/input_constraint_named_variables.cpp", "src/input_constraint_unnamed_variables.cpp", "src/input_constraint.cpp"]}
{"id": "C34", "title": "Sorting the input does not change the described object", "statement": "Every row order option permutes the rows: no row is lost, duplicated or altered, and the result is ordered by the documented key.", "quantifier": "every matrix and every order option", "why_tests_cant": "Unbounded matrices.", "anchors": ["src/input.cpp: sort"]}
{"id": "C35", "title": "Validity check of maps accepts exactly symmetries of the input", "statement": "The check of user-supplied maps accepts a map iff the rows are pairwise distinct and the images of the rows under the map (divided by common factors) are the rows in some order; for primitive rows: iff the map permutes the set of input rays. (Rows with a common factor are not equal to their own reduced image, so even the identity is rejected for them.)", "quantifier": "every map and every matrix of distinct rows", "why_tests_cant": "All maps and matrices.", "anchors": ["src/input_validity.cpp: checkValidityVertices, checkValidityInequalities"]}
{"id": "C36", "title": "Validity check of inequalities accepts exactly facets", "statement": "The check of user-supplied inequalities accepts a row iff it is valid for all vertices, tight at some vertex, and its tight vertices span a subspace of codimension one (iff it is a facet, when the rank is at least two); the check of user-supplied vertices accepts a row iff it is an extreme ray; filtering keeps exactly the accepted rows.", "quantifier": "every row and vertex list", "why_tests_cant": "All rows and vertex lists.", "anchors": ["src/input_validity.cpp: inequalityIsValid"]}
{"id": "C37", "title": "Command line options are interpreted as documented", "statement": "The thread count is the positive number given or an error; the method, integer type and sort order chosen are those of the first matching option; the file name is the only free argument; option strings are never read past their end.", "quantifier": "every argument vector", "why_tests_cant": "Infinite set of argument vectors; short option forms hit out-of-range reads.", "anchors": ["src/concurrency.cpp: numberOfThreads", "src/input_method.cpp", "src/integer_type_detection.cpp", "src/input.cpp: getInputOrder, inputOrder, getFilename"]}
{"id": "C38", "title": "Dimension section is honoured", "statement": "The keyword line 'DIM=<n>' in the documented format sets the dimension.", "quantifier": "every dimension n", "why_tests_cant": "A silently ignored line produces no failure in tests that do not contradict it.", "anchors": ["src/input_keywords.cpp: isKeywordDimension", "src/input_dimension.cpp"]}
{"id": "C39", "title": "Message passing encoding round-trips", "statement": "Rows and matrices sent between master and slave processes arrive unchanged, complete and in order, whatever the interleaving of the threads that send and receive them, or the run is aborted; in particular an empty result matrix can be sent.", "quantifier": "every row and matrix, every sequence of matrices, every interleaving of posting, transfer and receiving", "why_tests_cant": "All sizes and values, including the empty matrix.", "anchors": ["src/communication.cpp: toMaster, fromSlave, toSlave, fromMaster"]}
{"id": "C40", "title": "Printed fractions denote the vertex", "statement": "A vertex printed by vertex enumeration as a list of fractions denotes the same rational point, with positive denominators in lowest terms. Entries of a wider integer type are converted to int first: values that fit are kept, SafeInteger throws for the others. (Refined while proving: int64_t values that do not fit are printed modulo 2^32 without notice - recorded as a refutation.)", "quantifier": "every vertex with non-zero last coordinate whose entries fit int (and whose negatives do)", "why_tests_cant": "Infinite domain with sign cases.", "anchors": ["src/algorithm_row_operations.cpp: printFractional"]}
{"id": "C41", "title": "Vertex enumeration inverts facet enumeration", "statement": "Enumerating vertices and rays of the polyhedron described by inequalities yields exactly the extreme rays of the homogenised cone, when the polyhedron contains no line.", "quantifier": "every finite inequality system with a pointed homogenisation", "why_tests_cant": "All inequality systems.", "anchors": ["src/method_vertex_enumeration.cpp", "src/method_double_description.cpp", "src/input.cpp: inequalities<int>"]}
{"id": "C42", "title": "Facet enumeration with arbitrary precision integers is exact", "statement": "With the option -i inf the elimination returns exactly the rows it returns with ideal integers, whatever the magnitude of the intermediate results.", "quantifier": "every finite list of input vertices and rays", "why_tests_cant": "Intermediate magnitudes depend on the input; only some of them take the limb path of the division.", "anchors": ["src/integer_type_selection.tpp", "src/big_integer_arithmetics.cpp: operator/=", "src/algorithm_fourier_motzkin_elimination.cpp"]}
{"id": "C43", "title": "Vertex enumeration by adjacency decomposition finds every vertex", "statement": "Starting from the vertices and rays found by the heuristic, following the neighbours computed by rotation reaches every vertex and ray that the double description method prints.", "quantifier": "every inequality system describing a polyhedron without a line", "why_tests_cant": "All polyhedra; connectivity of the neighbour graph is a global property.", "anchors": ["src/method_vertex_enumeration.cpp", "src/method_adjacency_decomposition_implementation.cpp", "src/algorithm_rotation.cpp"]}
{"id": "C44", "title": "Printed descriptions can be read back", "statement": "The inequalities or equations that are printed (with or without names), put under a title for such a section, are read as exactly the rows that were printed; the vertices and rays that are printed are read as exactly the rows that were printed.", "quantifier": "every list of rows whose entries fit int (with names: at least one non-zero coefficient), every admissible list of names, every integer type", "why_tests_cant": "Infinite set of matrices and name lists; the printer and the scanner have many sign and unit cases that must agree for all of them.", "anchors": ["src/algorithm_row_operations.cpp: prettyPrint, printFractional, operator<<", "src/input_constraint.cpp", "src/input_vertex.cpp", "src/method_double_description.cpp: print"]}
{"id": "C45", "title": "The output of facet enumeration describes the polyhedron", "statement": "Facet enumeration (double description, no maps) ends with status 0 and prints equations and inequalities whose common rational solutions are exactly the convex hull of the input points plus the conical hull of the input rays. With maps that permute the input rows it prints exactly one facet of every class of facets that the maps carry to each other, and a point lies in the hull iff it satisfies the printed equations and all its images under the maps satisfy the printed inequalities.", "quantifier": "every list of homogenised rows with at least one point, every integer type but int16, every sorting behaviour, every admissible list of names; provided the computation did not overflow and the results fit int", "why_tests_cant": "A statement about all polyhedra and all rational points, from the rows in memory to the characters printed.", "anchors": ["src/method_double_description.cpp: FacetEnumerationDoubleDescription::call", "src/algorithm_fourier_motzkin_elimination.cpp", "src/algorithm_row_operations.cpp: prettyPrint"]}
{"id": "C46", "title": "The output of vertex enumeration is the list of vertices and extreme directions", "statement": "Vertex enumeration (double description, no maps) ends with status 0 and prints points and rays that generate exactly the rational solutions of the inequalities; the points are exactly the vertices (solutions that do not lie between two others) and the rays are exactly the extreme directions, each once. With maps that permute the inequalities it prints exactly one vertex (extreme direction) of every class that the maps carry to each other, and the images of what is printed generate the solutions.", "quantifier": "every system of inequalities (with the homogenising row) whose homogenised solutions contain no line, every integer type but int16, every sorting behaviour; provided the computation did not overflow and the results fit int", "why_tests_cant": "A statement about all polyhedra, from the rows in memory to the characters printed.", "anchors": ["src/method_double_description.cpp: VertexEnumerationDoubleDescription::call", "src/algorithm_fourier_motzkin_elimination.cpp", "src/algorithm_row_operations.cpp: printFractional"]}
{"id": "C47", "title": "A file of points and rays is read as what it says, or rejected", "statement": "A file in the documented format (sections of vertices, rays, names, maps and a dimension, with empty lines, comments and END lines between them, in any order) with a keyword among its first 20 lines is read as the homogeneous rows of exactly its rays and points, in the requested order, with its names and maps, when all of them have the same dimension; otherwise the program stops with an error. (Refined while proving: a later section replaces an earlier one of the same kind, and a maps section that is not preceded by names is never finished, and the number of images on the line of a map is not checked - recorded as refutations.)", "quantifier": "every file of the grammar, every command line naming it without -c and -k, every sorting option", "why_tests_cant": "An infinite grammar of files with unbounded sizes.", "anchors": ["src/input.cpp: vertices", "src/input_consistency.cpp", "src/input_keywords.cpp: containsKeywords", "src/input_common.cpp: advanceToNextKeyword", "src/input_names.cpp", "src/input_map.cpp", "src/input_dimension.cpp"]}
{"id": "C48", "title": "Facet enumeration from file to output", "statement": "For a file of points (at least one) and rays, facet enumeration by double description prints equations and inequalities whose common rational solutions are exactly the convex hull of the points in the file plus the conical hull of the rays in the file; with SafeInteger (-i safe) it prints such a description or stops with status 1. With maps that permute the points and (up to length) the rays, one inequality of every class of facets that the maps carry to each other is printed, and a point is in the hull iff it satisfies the equations and all its images satisfy the inequalities.", "quantifier": "every file of the grammar without maps (or with maps that are symmetries) whose contents agree, every command line naming it, every integer type but int16 and BigInteger, every sorting; provided the exact results fit int (and, for machine integers, nothing overflows)", "why_tests_cant": "A statement about all polyhedra and all rational points, from the characters of the file to the characters printed.", "anchors": ["src/method_double_description.cpp: FacetEnumerationDoubleDescription::call", "src/input.cpp: vertices", "src/algorithm_fourier_motzkin_elimination.cpp", "src/algorithm_row_operations.cpp: prettyPrint"]}
{"id": "C49", "title": "A file of equations and inequalities is read as what it says, or rejected", "statement": "A file in the documented format (sections of equations and inequalities, names, maps, a dimension, with empty lines, comments and END lines between them, in any order) with a keyword among its first 20 lines is read as rows whose common solutions are exactly the solutions of its equations and inequalities, the inequalities in the requested order, when there is an inequality and the inequalities, the names and the dimension agree; otherwise the program stops with an error. (Refined while proving: the number of variables in the equations is not checked, so an equation of another width yields rows of different lengths.)", "quantifier": "every file of the grammar (any number and order of sections, lines, constraints, names and maps), every command line that names it, every sorting", "why_tests_cant": "the set of files, of section orders and of constraint texts is infinite", "anchors": ["src/input.tpp", "src/input_constraint.cpp", "src/input_common.cpp", "src/input_keywords.cpp"]}
{"id": "C50", "title": "Vertex enumeration from file to output", "statement": "For a file of equations and inequalities whose solutions contain no line, vertex enumeration by double description prints points and rays that generate exactly the rational solutions; the points are exactly the vertices and the rays exactly the extreme directions, each once; with SafeInteger (-i safe) it prints them or stops with status 1. With maps that permute the inequalities up to positive factors and the equations up to factors, one vertex and one direction of every class is printed, and their images generate the solutions. (Refined while proving: when the solutions contain a line, the line is silently missing from the output.)", "quantifier": "every file of the grammar without maps (or with maps that are symmetries) whose contents agree, every command line naming it, every integer type but int16 and BigInteger, every sorting; provided the exact result can be printed", "why_tests_cant": "a test compares the output for some files; the claim is about every point of an infinite solution set for every file", "anchors": ["src/main.cpp", "src/input.tpp", "src/method_double_description.cpp", "src/algorithm_fourier_motzkin_elimination.cpp", "src/integer_type_selection.tpp"]}
{"id": "C51", "title": "Distributed adjacency decomposition finds everything once and ends", "statement": "With several MPI processes, whatever the interleaving of all threads of all processes: no row is printed or handed out twice, when the threads of the master have ended every reachable row has been printed and processed, no state is a deadlock, every run ends after a bounded number of steps in a state where all threads of all processes have ended and no message is left. (The last part needs equal thread counts: with more worker threads on a slave than on the master no run ever ends.)", "quantifier": "every neighbour function, number of processes and threads, schedule", "why_tests_cant": "Schedules over several processes are not controllable in a test.", "anchors": ["src/job_manager.cpp: JobManager::JobManager", "src/job_manager_proxy.cpp: put, get", "src/communication.cpp", "src/list.cpp"]}
{"id": "C52", "title": "Adjacency decomposition from vertices to output", "statement": "Facet enumeration by adjacency decomposition of a polyhedron with at least three facets prints, for every number of threads, every schedule and every list of known facets, each inequality of double description exactly once (and at most 0 <= 1 besides, only when no facet is known), so that the printed text describes exactly the convex hull plus the cone of the rays. If maps that permute the vertices and rays of a full-dimensional polyhedron are given, exactly one inequality of each class, the largest, is printed, the same as the classes of the double description rows, and a point lies in the polyhedron iff all its images under the maps satisfy the printed inequalities. With exact integers no run fails and every run can be finished.", "quantifier": "every vertex list with three facets, every number of threads, schedule, known facets, maps, integer type but int16 and BigInteger, every sorting", "why_tests_cant": "schedules are not controllable and the statement compares an infinite point set with a text for every input", "anchors": ["src/method_adjacency_decomposition.cpp", "src/method_adjacency_decomposition_implementation.cpp", "src/list.cpp", "src/job_manager.cpp", "src/algorithm_rotation.cpp", "src/algorithm_classes.cpp"]}
{"id": "C53", "title": "The whole program: from the command line and the file to the output and the status", "statement": "What the file announces decides the operation: a file with a section of points or rays (or none at all) is taken for facet enumeration, one with a section of inequalities only for vertex enumeration, and one with both is refused with status 1 and nothing on the standard output, as is a file that cannot be opened. For a well-formed file the process prints the hull's facets (the system's vertices and rays) on the standard output and ends with status 0, for double description in exactly one way, for adjacency decomposition (the default) for every schedule that ends with status 0; with -i safe double description does so or ends with status 1, and no run of adjacency decomposition has undefined behaviour. With maps that are symmetries the printed facets, vertices and rays together with their images are all there are, and the section is called reduced. Vertex enumeration by adjacency decomposition prints only vertices and rays, and all of them when no edge is hidden.", "quantifier": "every command line of the documented form, every file of the documented grammar, every file system, number of processors, schedule, integer type but int16 and BigInteger", "why_tests_cant": "unboundedly many command lines, files and schedules; the output is compared with an infinite point set", "anchors": ["src/main.cpp", "src/method_facet_enumeration.cpp", "src/method_vertex_enumeration.cpp", "src/input_detection.cpp", "src/integer_type_selection.tpp", "src/method_double_description.cpp", "src/method_adjacency_decomposition.cpp"]}
{"id": "C54", "title": "Help for an option", "statement": "Asked for the help for an option in any of the four documented ways (-h x, -h=x, --help=x, --help-command=x), wherever on the command line, the program prints the text for that option, which may be given by its letter or its name with or without dashes, and ends with status 0; for an unknown word it prints nothing on the standard output and ends with status 1. The general help and the version go to the error stream with status 0.", "quantifier": "every option, spelling, way of asking, and every command line before and after", "why_tests_cant": "unboundedly many command lines and unknown words", "anchors": ["src/help.cpp", "src/main.cpp", "src/input_detection.cpp"]}
{"id": "C55", "title": "Output as input: the round trip", "statement": "What facet enumeration prints, with the section of names added if there are names, is a valid input file whose solutions are the hull of the points and rays of the first file; vertex enumeration of it lists exactly the vertices and extreme directions of that hull, each once (so points and rays that are not needed are gone). What vertex enumeration prints is a valid input file, and facet enumeration of it prints constraints with exactly the solutions of the first system. (An output without any inequality, such as that for a single point, is refused as an input: C55_no_inequality_refused.)", "quantifier": "every readable file with points and rays whose hull contains no line, or with equations and inequalities that have solutions without a line; every integer type except int16 and BigInteger, every ordering, every option, different ones in both runs", "why_tests_cant": "compositions of two runs over all files, all syntactic forms of the printed numbers, and all types and orderings", "anchors": ["src/method_double_description.cpp: FacetEnumerationDoubleDescription::call, VertexEnumerationDoubleDescription::call", "src/input.tpp: vertices, inequalities", "src/input_constraint.cpp", "src/algorithm_row_operations.cpp: prettyPrint, printFractional"]}
{"id": "C56", "title": "A larger integer type never changes the result", "statement": "Whenever a double description call ends normally (status 0) with the default type int or with the safe type, the same call with a larger type (int64 or safe instead of int, int64 instead of safe) ends normally and prints exactly the same; on the level of the elimination the same holds for every two types other than int16 of which the second represents all values of the first, including unbounded integers. For adjacency decomposition (the default), whatever a call prints when it ends with status 0 the call with the larger type can print too, ending with status 0; and if no schedule of the call ends otherwise, the call with the larger type has exactly the same possible outputs and endings. The converse is false (int gives nothing where the safe type gives the facets), and int64 followed by safe is not such a pair: int64 prints numbers outside int modulo 2^32 without notice (C56_int64_refuted).", "quantifier": "every command line, file, sorting, symmetry maps and names; every input matrix and every ordering of the elimination", "why_tests_cant": "ranges over all inputs and all intermediate values of two runs with different arithmetic", "anchors": ["src/integer_type_selection.tpp", "src/method_double_description.cpp", "src/algorithm_fourier_motzkin_elimination.cpp", "src/safe_integer.cpp", "src/algorithm_row_operations.cpp: prettyPrint", "src/input.tpp", "src/method_adjacency_decomposition_implementation.cpp"]}
{"id": "C57", "title": "Vertex enumeration by adjacency decomposition prints only vertices and rays, each once", "statement": "For a system of inequalities whose solutions contain no line, vertex enumeration by adjacency decomposition at every moment of every run has printed only homogeneous rows of vertices and extreme directions, each at most once (with symmetry maps: one member per class, no two of the same class). A finished run prints all of them (with maps: one of every class) whenever no edge is hidden, i.e. no edge leaves a vertex straight away from the origin, and none leaves the origin along the negative last axis; then points and rays printed generate exactly the solution set. With exact integers and enough memory for the classes, from every reachable state the run can be completed. (Where an edge is hidden, vertices may be missing: C43_program_refuted.)", "quantifier": "every matrix without line that contains the row of the positive homogeneous coordinate, every dimension, every integer type except int16, every ordering, every set of symmetry maps, known vertices and rays, number of threads and schedule", "why_tests_cant": "ranges over all polyhedra, symmetry groups, numbers of threads and interleavings", "anchors": ["src/method_adjacency_decomposition.cpp: VertexEnumerationAdjacencyDecomposition::call", "src/method_adjacency_decomposition_implementation.cpp", "src/algorithm_rotation.cpp: rotation", "src/list.cpp: put, get", "src/joining_thread.h"]}
{"id": "C58", "title": "Known data change only the way to the result", "statement": "With -k (or --known-data, --known-facets, --known-vertices) the named file is read next to the input. Double description prints with readable known data, whatever they say, exactly what it prints without. Adjacency decomposition with known facets that are facets of the hull, whenever it ends with status 0, has printed a description of exactly the hull of the input (with symmetry maps: up to the maps), for every number of threads, schedule and moment at which the known facets are put; with known vertices and rays that are vertices and extreme directions it has printed only vertices and extreme directions, each once, and all of them (with maps: one of every class) if no edge is hidden. With the safe integer type nothing is undefined. Known data that cannot be used (a file that cannot be opened; a file of known facets whose first section is not one of inequalities) make the program print nothing and end with status 1. (Observation: that includes the program's own output of facets if it contains equations or is reduced; its own output of vertices and rays by adjacency decomposition is accepted but ignored.)", "quantifier": "every command line, input file, file with known data, symmetry maps and names, every ordering, integer type except int16, number of threads and interleaving", "why_tests_cant": "ranges over all files, all sets of known facets or vertices and all interleavings of the task that puts them with the worker threads", "anchors": ["src/input.cpp: knownFacets, knownVertices", "src/input.tpp", "src/method_adjacency_decomposition_implementation.cpp: initializationOnMaster, addKnownData", "src/method_adjacency_decomposition.cpp", "src/method_double_description.cpp"]}
{"id": "C59", "title": "-c never changes an output, and an accepted input is what it claims to be", "statement": "The flag -c (or --check) on an otherwise unchanged command line leaves everything as it is, or makes the program print nothing and end with status 1 (the checks calculate with int and are undefined if int overflows). If the program with -c ends with status 0, then: symmetry maps that stand before the points and rays (respectively the inequalities) map the points onto the points, the rays onto the rays up to positive factors (the inequalities onto the inequalities up to positive factors); known facets are facets (or the trivial inequality, if it is a facet of the cone over the input) and known vertices and rays are vertices and extreme directions. So with -c the output describes the hull (the solutions) without assuming that maps and known data are right, for both methods. (Observations: files whose maps are symmetries may be refused, since rows are compared with reduced images without being reduced; maps that stand after the points are not checked; nor are maps checked against equations.)", "quantifier": "every command line, position of the flag, input file, symmetry maps and known data, every ordering, integer type, number of threads and interleaving", "why_tests_cant": "ranges over all command lines, all files and all maps and known data that pass the checks; what the checks overlook needs a proof that nothing else is overlooked", "anchors": ["src/input.cpp: vertices, inequalities, knownFacets, knownVertices", "src/input_validity.cpp: checkValidityOfVertexClasses, checkValidityOfInequalityClasses, checkValidityOfInequalities, checkValidityOfVertices", "src/main.cpp"]}
{"id": "C60", "title": "Reduced sections stand for all images of what they list", "statement": "A section \"reduced vertices\" (\"reduced rays\") read after the maps yields, for every listed point (ray), each of its images under the maps and their compositions exactly once (points: equal as rational points; rays: up to a positive factor) and nothing else; a section \"reduced inequalities\" (read after the maps, before any equations) yields inequalities that a point satisfies if and only if all its images under the maps satisfy the listed ones. So the hull of the file is the hull of all images of the listed points and rays. If no map identifies two points (every point is an image) and the listed rows are in lowest terms, the maps are symmetries of the file; facet enumeration by either method, whenever it ends with status 0, prints a description (up to the maps) of exactly that hull, and vertex enumeration by double description prints points and rays whose images generate exactly those solutions. A reduced section before which no maps are declared makes the program print nothing and end with status 1. (Observations: a listed row that is not in lowest terms gives a duplicate; an infinite class ends in an overflow of int.)", "quantifier": "every file, dimension, set of maps with finite classes, every listed point, ray and inequality, command line, method, integer type except int16, ordering, number of threads and interleaving", "why_tests_cant": "ranges over all files and all groups generated by the maps; the class is a closure under arbitrarily long compositions", "anchors": ["src/input.cpp: vertices, inequalities, expandVertices, expandInequalities", "src/algorithm_classes.cpp: getClass", "src/algorithm_map_operations.cpp: apply, normalize"]}
{"id": "C61", "title": "Systems whose solutions contain lines", "statement": "Vertex enumeration by double description without maps prints, for any system of equations and inequalities whose parts fit together (also when the solutions contain lines), points and rays such that a point is a solution if and only if it differs by a line of the solutions from a point generated by them. Up to the lines, the printed points are exactly the solutions that do not lie between two others and the printed rays are exactly the extreme directions, and nothing is printed twice. (The lines themselves are not printed: C50.) Two points differ by a line if every constraint has the same left hand side at both, which, for a solution, holds if and only if the solutions contain the whole line through them.", "quantifier": "every file, dimension, system, command line asking for double description, integer type except int16, ordering", "why_tests_cant": "ranges over all systems and all of their (infinitely many) solutions; unbounded sets with lines are rarely tried", "anchors": ["src/method_double_description.cpp: vertexEnumeration", "src/algorithm_fourier_motzkin_elimination.cpp", "src/algorithm_row_operations.cpp: printFractional, operator<<"]}
{"id": "C62", "title": "The default method on systems whose solutions contain lines", "statement": "Vertex enumeration by adjacency decomposition (the default), without maps and known data, for any system that depends on at least one coordinate, also when the solutions contain lines: at every moment of every schedule of the threads, only vertices and extreme directions (up to the lines of the solutions) have been printed, and up to the lines none of them twice. If no edge of the solutions is hidden (up to lines: no edge leaves a vertex straight away from the origin, and none leaves the origin against the last axis on which the constraints depend), then whenever the program ends with status 0 no vertex and no extreme direction is missing, and a point is a solution if and only if it differs by a line from a point generated by the printed points and directions. No edge is hidden, for instance, if the origin is a solution and the last coordinate the constraints depend on is nowhere negative. With unbounded integers every run can be continued to a normal end; with -i safe nothing is undefined.", "quantifier": "every file, dimension, system, command line asking for adjacency decomposition, number of threads, schedule, integer type except int16, ordering", "why_tests_cant": "ranges over all systems, all of their infinitely many solutions and all schedules of any number of threads; unbounded sets with lines are rarely tried", "anchors": ["src/method_adjacency_decomposition.cpp: VertexEnumeration", "src/method_adjacency_decomposition_implementation.cpp", "src/algorithm_rotation.cpp: rotation", "src/algorithm_fourier_motzkin_elimination.cpp", "src/list.cpp: put, get"]}
{"id": "C63", "title": "Reduced output can be read again", "statement": "Let a file describe, with names and maps, a system that has a solution, whose solutions contain no line and whose maps are symmetries of it. Vertex enumeration prints one vertex of every class of vertices under the maps and one direction of every class of extreme directions. If that printed text, with the names and the maps put before it, is itself used as an input file, it is read as a file whose points are all the vertices of the system, each exactly once, whose rays are all the extreme directions, each exactly once up to scaling, and whose maps are the same maps and symmetries of it; a point is a solution of the system if and only if points and rays of that file generate it. Facet enumeration of that file prints equations and inequalities such that a point is a solution of the original system if and only if it satisfies the printed equations and all its images under the maps satisfy the printed inequalities. The two runs may use different integer types, orderings and options. Conversely, if the points and rays of a file with maps lie in no hyperplane, facet enumeration prints one facet of every class; that text with the names and maps put before it is read as a system whose solutions are exactly the hull of the first file, whose inequalities are all the facets, each once, and whose maps are the same maps and symmetries of it; vertex enumeration of it prints one vertex of the hull of every class and one direction of every class of its extreme directions, if the hull contains no line.", "quantifier": "every file with names and maps, points and rays or system, dimension, command line asking for double description, integer type except int16, ordering; every further run on the output", "why_tests_cant": "ranges over all systems, all groups of maps, all infinitely many solutions and pairs of runs; a class that is read back too small or with a vertex twice shows only for particular groups", "anchors": ["src/input.cpp: expandVertices", "src/input_common.cpp", "src/algorithm_classes.h: classes", "src/method_double_description.cpp: VertexEnumeration", "src/matrix.h", "src/algorithm_row_operations.cpp", "src/input.cpp: expandInequalities"]}
{"id": "C64", "title": "Shifts of arbitrary precision integers", "statement": "An arbitrary precision integer shifted left by one is doubled, and shifted left by a multiple of the width of its digits it is multiplied by that power of two, whatever its value. For other distances the left shift is always defined, and it multiplies by the power of two if and only if in every digit from which bits are moved out the lowest of these bits is set (the code looks at that bit only); for each such distance there is a number for which the result is wrong. The right shift divides by the power of two and rounds towards zero as long as the distance is less than the width of all digits together; otherwise it is undefined or leaves an object without digits. A right left shift is undone by the right shift of the same distance. (The shifts are private; the program only shifts left by one, in multiplication and division.)", "quantifier": "every integer with any number of digits, every digit width of at least 32 bits, every distance", "why_tests_cant": "ranges over all integers of any length and all distances; the bits are lost only if a digit has a particular pattern", "anchors": ["src/big_integer.cpp: operator<<=, operator>>=, operator<<", "src/big_integer.h"]}
{"id": "C65", "title": "The output depends only on the set described", "statement": "With the double description method, two inputs that describe the same set are answered with the same text, character by character: two lists of points and rays with the same convex and conical hull (in any order, with repetitions, redundant points, rays of another length, and with any sorting option) give the same equations and inequalities, with or without maps, and two systems of equations and inequalities with the same solutions (if there are any) give the same vertices and rays, provided that names and maps are the same and no overflow stops a computation. The same holds if another order of elimination is chosen. With adjacency decomposition (facets of a set with at least three) the same inequalities are printed, each once, but not always in the same order, for every number of threads, every schedule and all known facets, without maps and with maps that are symmetries of both lists; only 0 <= 1 may be printed in one run and not in the other.", "quantifier": "every pair of inputs that describe the same set, every list of maps, every integer type, every order of elimination, any dimension", "why_tests_cant": "ranges over all pairs of descriptions of the same set; it needs that equations and normalised rows are canonical", "anchors": ["src/algorithm_fourier_motzkin_elimination.cpp: fourierMotzkinElimination", "src/algorithm_matrix_operations.cpp: extractEquations, gaussianElimination", "src/algorithm_classes.cpp: classes", "src/method_double_description.cpp: FacetEnumeration::call, VertexEnumeration::call"]}
{"id": "C66", "title": "The output of an interrupted run as known data", "statement": "Adjacency decomposition prints facets while it runs. Whenever such a run is interrupted, at any moment of any schedule, the lines that have been printed are different facets of the hull (if facets were known at its start or there are no rays, so that 0 <= 1 is not among them), and for a file without maps whose hull is full-dimensional the output as it is can be given to another run on the same file with -k: whenever that run ends with status 0, for every number of threads and every schedule, it has printed the hull, and with -i safe nothing in it is undefined. If there are maps or equations, the output from the word \"Inequalities:\" on can be used in this way, whereas the whole output is refused: nothing is printed and the status is 1. Only whole lines may be kept: if the last line is cut within a number, the other run can end with status 0 and print an inequality that does not hold. In vertex enumeration the printed rows are not in the format of known vertices: given with -k, the output of an interrupted run changes nothing, the other run can print and end exactly as without it.", "quantifier": "every file, dimension, number of threads of either run, schedule, moment of the interruption, integer types except int16, ordering, known facets of the first run", "why_tests_cant": "ranges over all moments at which a run can be interrupted, in all schedules, and over all continuations", "anchors": ["src/method_adjacency_decomposition_implementation.cpp: initializationOnMaster, method, reduce", "src/list.cpp: put", "src/input.cpp: knownFacets", "src/algorithm_row_operations.h: prettyPrintln", "src/input.cpp: knownVertices"]}
{"id": "C67", "title": "Changing coordinates changes the output only by that change", "statement": "Apply an affine change of coordinates to the input: integer coefficients, every point has a preimage (the inverse may have fractions). If the hull of the points and rays of a second input consists of the images of the points of the hull of the first one - in particular if every point and ray is replaced by its image - then facet enumeration prints inequalities that correspond one to one to those printed for the first input, with the same slacks at corresponding points up to a positive factor for each pair, and the solutions of the equations printed correspond as well; with adjacency decomposition without maps the same holds for the printed inequalities, except for 0 <= 1, whatever the threads, schedules and known facets of the two runs. If the solutions of two systems of inequalities correspond in this way, there are some and they contain no line, the vertices printed for the second system are the images of the vertices printed for the first, one to one, and the rays have the directions in which the change of coordinates carries the rays. Whatever the integer types of the two computations, unless an overflow stops one.", "quantifier": "every dimension, change of coordinates, pair of inputs, integer types except int16, ordering, schedule, number of threads", "why_tests_cant": "ranges over all inputs and all changes of coordinates", "anchors": ["src/algorithm_fourier_motzkin_elimination.cpp: fourierMotzkinElimination", "src/algorithm_matrix_operations.cpp: extractEquations", "src/method_double_description.cpp: FacetEnumeration::call, VertexEnumeration::call", "src/method_adjacency_decomposition_implementation.cpp: adjacencyDecomposition", "src/algorithm_rotation.cpp: rotation"]}
{"id": "C68", "title": "A map in an input file is accepted exactly if it is one", "statement": "Whatever the file and the command line: a word is accepted as the image of a variable exactly if it consists of terms (an optional factor and the name of a known variable) and constants, each of which ends at a sign or at the end of the word, with factors that fit an int, and it is read as these terms and constants in this order (a lone sign is the constant 1 or -1); every other word is an error, and nothing is undefined. A line of a map is read as the images that its words spell, in this order, nothing being assumed for variables without one. All maps that the program works with have one image per coordinate, fix the constant, are not empty and refer only to coordinates that exist. (Refined while proving: the words may continue on the next line and may be too few or too many, see C47.)", "quantifier": "every file (inside and outside of the grammar), every list of names, every command line, both kinds of input", "why_tests_cant": "the texts of images and of files are infinitely many, and rejection has to be shown for all that are outside of the grammar", "anchors": ["src/input_map.cpp: extractFactor, extractName, image, map, maps", "src/input_common.cpp: toInt", "src/input.cpp: vertices, inequalities"]}
