{
 "claims": [
  {
   "property": "C01",
   "status": "proved",
   "theorems": [
    "C01_description",
    "C01_no_failure"
   ],
   "note": "Exact equality of the printed system with the generated cone for every integer type except int16_t, whenever the run returns; C01_no_failure says when it returns."
  },
  {
   "property": "C02",
   "status": "proved",
   "theorems": [
    "C02_rows_valid",
    "C02_equations_valid"
   ],
   "note": "All types except int16_t (refuted there by C21_int16_silently_wrong)."
  },
  {
   "property": "C03",
   "status": "proved",
   "theorems": [
    "C03_rows_are_facets",
    "C03_no_facet_twice",
    "C03_every_facet_found"
   ],
   "note": "Completeness up to the trivial row that the program drops on purpose (C04)."
  },
  {
   "property": "C04",
   "status": "proved",
   "theorems": [
    "C04_trivial_row_not_printed",
    "C04_rays_only_loses_facet"
   ],
   "note": "Includes the counterexample for ray-only input (the code loses a facet)."
  },
  {
   "property": "C05",
   "status": "proved",
   "theorems": [
    "C05_equations",
    "C05_total"
   ],
   "note": ""
  },
  {
   "property": "C06",
   "status": "proved",
   "theorems": [
    "C06_dimension_is_rank",
    "C06_total"
   ],
   "note": ""
  },
  {
   "property": "C07",
   "status": "proved",
   "theorems": [
    "C07_start_facets",
    "C07_at_least_one",
    "C07_total"
   ],
   "note": ""
  },
  {
   "property": "C08",
   "status": "proved",
   "theorems": [
    "C08_rotation",
    "C08_terminates",
    "C08_single_point_undefined"
   ],
   "note": "All types except int16_t. C08_single_point_undefined: for a single point the code evaluates an empty matrix."
  },
  {
   "property": "C09",
   "status": "proved",
   "theorems": [
    "C09_finds_every_facet",
    "C09_same_rows_as_double_description",
    "C09_any_start",
    "C09_exact_never_fails",
    "C09_polytopes",
    "C09_pointed",
    "C09_segment_misses_facet",
    "C09_slab_misses_facet"
   ],
   "note": "Needs three different facets; C09_polytopes and C09_pointed give them from dimension >= 2. The code misses facets otherwise: C09_segment_misses_facet, C09_slab_misses_facet. Symmetries: see C26/C27."
  },
  {
   "property": "C10",
   "status": "proved",
   "theorems": [
    "C10_no_row_twice",
    "C10_printed_rows",
    "C10_put_prints"
   ],
   "note": "Critical sections are atomic steps; the unprotected insertion of the sentinel is atomic in the model (its races: C13)."
  },
  {
   "property": "C11",
   "status": "proved",
   "theorems": [
    "C11_complete"
   ],
   "note": "Same reading of the unprotected insertion as in C10."
  },
  {
   "property": "C12",
   "status": "proved",
   "theorems": [
    "C12_no_deadlock",
    "C12_all_runs_end",
    "C12_can_finish"
   ],
   "note": "No deadlock without relying on spurious wake-ups, bound on the length of every run, every reachable state can finish."
  },
  {
   "property": "C13",
   "status": "partial",
   "theorems": [
    "C13_known_rows_in_time_partial",
    "C13_start_rows_complete",
    "C13_known_rows_found_anyway",
    "C13_known_rows_lost",
    "C13_one_worker_no_race_partial",
    "C13_only_aborts_race_partial",
    "C13_two_workers_race",
    "C13_known_rows_race"
   ],
   "note": "False of the code: C13_known_rows_lost, C13_two_workers_race, C13_known_rows_race exhibit runs. Proved: known rows put in time are processed (C13_known_rows_in_time_partial), with no known rows (or known rows that the search finds anyway) the result is complete (C13_start_rows_complete, C13_known_rows_found_anyway), one worker without known rows does not race, and without known rows only the two unprotected insertions race."
  },
  {
   "property": "C14",
   "status": "proved",
   "theorems": [
    "C14_add",
    "C14_sub",
    "C14_negate_abs",
    "C14_int_min_undefined"
   ],
   "note": "Any digit width W >= 32, any number of digits, with and without wrapping of -INT_MIN; C14_int_min_undefined shows that by the letter of the standard the operand INT_MIN is undefined."
  },
  {
   "property": "C15",
   "status": "proved",
   "theorems": [
    "C15_mul",
    "C15_int_min_undefined"
   ],
   "note": "As C14; C15_int_min_undefined shows an intermediate sum INT_MIN."
  },
  {
   "property": "C16",
   "status": "partial",
   "theorems": [
    "C16_div_partial",
    "C16_div_by_zero",
    "C16_wrong_sign",
    "C16_refuted"
   ],
   "note": "The full statement is false (C16_refuted: (-2^70)/2 = 2^69). C16_div_partial: right outside the set wrong_sign; C16_wrong_sign: always negated inside it; division by zero throws."
  },
  {
   "property": "C17",
   "status": "partial",
   "theorems": [
    "C17_mod_partial",
    "C17_not_positive",
    "C17_refuted",
    "C17_negative_remainder"
   ],
   "note": "The full statement is false (C17_refuted: (-6) % 3 = 3; C17_negative_remainder). Proved: congruent, in (-b, b], in [0, b) for non-negative dividends and for the negative ones described in C17_mod_partial; b <= 0 throws."
  },
  {
   "property": "C18",
   "status": "partial",
   "theorems": [
    "C18_compare",
    "C18_compare_int_partial",
    "C18_int_min_refuted"
   ],
   "note": "BigInteger against BigInteger: full. Against int: all ints except INT_MIN, where it is false (C18_int_min_refuted)."
  },
  {
   "property": "C19",
   "status": "proved",
   "theorems": [
    "C19_canonical",
    "C19_unique",
    "C19_construct",
    "C19_convert",
    "C19_round_trip"
   ],
   "note": "All histories of constructors and operators (built). Constructors from 64 bit integers need digits of 64 bits."
  },
  {
   "property": "C20",
   "status": "proved",
   "theorems": [
    "C20_add",
    "C20_sub",
    "C20_mul",
    "C20_div",
    "C20_mod",
    "C20_neg_abs",
    "C20_compare",
    "C20_convert"
   ],
   "note": ""
  },
  {
   "property": "C21",
   "status": "proved",
   "theorems": [
    "C21_safe_elimination",
    "C21_machine_elimination",
    "C21_int16_silently_wrong",
    "C21_safe_rotation",
    "C21_machine_rotation"
   ],
   "note": "Elimination, heuristic, equations, rotation. int16_t refuted by C21_int16_silently_wrong."
  },
  {
   "property": "C22",
   "status": "proved",
   "theorems": [
    "C22_gcd_exact",
    "C22_gcd_all_types",
    "C22_lcm_exact",
    "C22_lcm_of_zeros_undefined",
    "C22_row_gcd_exact",
    "C22_row_lcm_all_types",
    "C22_row_lcm_exact",
    "C22_row_gcd_all_types",
    "C22_lcm_all_types"
   ],
   "note": "lcm(0,0) divides by zero in the code: C22_lcm_of_zeros_undefined."
  },
  {
   "property": "C23",
   "status": "proved",
   "theorems": [
    "C23_normalize"
   ],
   "note": ""
  },
  {
   "property": "C24",
   "status": "proved",
   "theorems": [
    "C24_normal_form_unique"
   ],
   "note": ""
  },
  {
   "property": "C25",
   "status": "proved",
   "theorems": [
    "C25_point",
    "C25_inequality",
    "C25_adjoint",
    "C25_linear",
    "C25_defined"
   ],
   "note": "For every map whose terms refer to existing coordinates, all integer types but int16_t (which wraps; see C21): the mapped point is the substituted point up to a positive factor, the mapped inequality is adjoint to it, results are primitive (or zero), application is linear up to the removed positive factors, exact arithmetic never fails and SafeInteger returns the same or throws."
  },
  {
   "property": "C26",
   "status": "proved",
   "theorems": [
    "C26_class_is_orbit",
    "C26_returns",
    "C26_returns_iff_finite"
   ],
   "note": "For all integer types (int16_t included): if getClass returns, the set is the orbit; it returns whenever the orbit is finite and no application fails; with unbounded integers it returns if and only if the orbit is finite. The model bounds the number of rows taken from the work list by fuel and the theorems quantify over it."
  },
  {
   "property": "C27",
   "status": "proved",
   "theorems": [
    "C27_representative",
    "C27_representative_constant",
    "C27_classes",
    "C27_covering",
    "C27_returns",
    "C27_injectivity_needed"
   ],
   "note": "For all integer types: one row per class of the input, the largest, pairwise non-equivalent, when the maps are injective on the classes; the representative is constant on the class; termination for finite classes; covering without any hypothesis; injectivity shown to be needed."
  },
  {
   "property": "C28",
   "status": "partial",
   "theorems": [
    "C28_action_partial",
    "C28_leading_coefficient_breaks",
    "C28_class_never_returns",
    "C28_two_terms_undefined",
    "C28_int64_narrowed"
   ],
   "note": "Proved for equations with leading coefficient 1 (any number of them) and every type except int16_t and int64_t, whenever a map is returned (C28_action_partial). The general claim is FALSE of the code: a symmetry of a triangle is turned into a map that produces rows violated by vertices and whose class computation never returns (C28_leading_coefficient_breaks, C28_class_never_returns), images with two terms are undefined behaviour (C28_two_terms_undefined), int64_t narrows factors (C28_int64_narrowed)."
  },
  {
   "property": "C29",
   "status": "partial",
   "theorems": [
    "C29_result_partial",
    "C29_no_zero_terms_partial",
    "C29_defined_iff_partial",
    "C29_leaves_the_image",
    "C29_zero_terms_stay"
   ],
   "note": "Result characterised (C29_result_partial, C29_no_zero_terms_partial) and exact condition for staying inside the image (C29_defined_iff_partial); the full claim is FALSE of the code: C29_leaves_the_image (out-of-range access) and C29_zero_terms_stay."
  },
  {
   "property": "C30",
   "status": "proved",
   "theorems": [
    "C30_build",
    "C30_variable",
    "C30_count",
    "C30_contains",
    "C30_equals",
    "C30_merge",
    "C30_unionCount",
    "C30_unionContains",
    "C30_popcount"
   ],
   "note": ""
  },
  {
   "property": "C31",
   "status": "proved",
   "theorems": [
    "C31_vertex",
    "C31_vertex_sound",
    "C31_unique",
    "C31_convex_section",
    "C31_conical_section"
   ],
   "note": "The scanner (label, blanks, integers, fractions, ends of line) on every line of the grammar; the row returned is the unique homogeneous vector with the least common denominator; an overflow (UB) happens exactly when that vector does not fit int. Whole sections are read in order and the rest of the file is left for the next section."
  },
  {
   "property": "C32",
   "status": "partial",
   "theorems": [
    "C32_large_denominator_refuted",
    "C32_trailing_refuted",
    "C32_truncated_refuted",
    "C32_hangs_refuted",
    "C32_convex_terminates_partial",
    "C32_zero_denominator_partial",
    "C32_complete_partial"
   ],
   "note": "False as stated. Refuted in general: after any sequence of well-formed lines, a line that starts with a word ends a Vertices section silently (C32_truncated_refuted) and makes a Rays section loop forever (C32_hangs_refuted). Proved: well-formed sections are read completely; a Vertices section is read to an end for every text; zero denominators are rejected. Also refuted: a large last denominator is read as 2147483647 (C32_large_denominator_refuted), and what follows a number ends the section (C32_trailing_refuted)."
  },
  {
   "property": "C33",
   "status": "proved",
   "theorems": [
    "C33_named",
    "C33_repeated_rejected",
    "C33_wrong_kind_rejected",
    "C33_unnamed",
    "C33_unnamed_wrong_kind_rejected",
    "C33_raw",
    "C33_named_section",
    "C33_unnamed_section",
    "C33_right_variables_refuted",
    "C33_both_sides_refuted",
    "C33_glued_refuted",
    "C33_name_order_refuted",
    "C33_mixed_refuted",
    "C33_sign_refuted",
    "C33_term",
    "C33_least_int_refuted"
   ],
   "note": "Single lines and whole sections, with and without names and in raw format; rejections of repeated variables and wrong relations. Refutations record what is read differently from what is meant: variables on the right hand side, unspaced sums, names in prefix order, mixed sections, a sign at the end of the file."
  },
  {
   "property": "C34",
   "status": "proved",
   "theorems": [
    "C34_permutation",
    "C34_same_object",
    "C34_ordered",
    "C34_unique",
    "C34_reverse",
    "C34_default"
   ],
   "note": "Every order option: permutation, same cone and same solution set, ordered by the documented key (rows of equal length), the result is the only such list."
  },
  {
   "property": "C35",
   "status": "proved",
   "theorems": [
    "C35_points_accepted",
    "C35_points_rejected",
    "C35_inequalities_accepted",
    "C35_inequalities_rejected",
    "C35_exact",
    "C35_all_maps",
    "C35_symmetry",
    "C35_unreduced_rejected"
   ],
   "note": "Accepted iff the rows are distinct and the reduced images of the rows are the rows in some order (both kinds of rows, all integer types, rejected only for that reason unless overflow); for primitive distinct rows this is: the map permutes the rays. C35_unreduced_rejected: rows with a common factor make every map fail."
  },
  {
   "property": "C36",
   "status": "proved",
   "theorems": [
    "C36_accepted",
    "C36_rejected",
    "C36_exact",
    "C36_facet",
    "C36_vertices_accepted",
    "C36_vertices_rejected",
    "C36_vertices_exact",
    "C36_filter"
   ],
   "note": "Accepted iff valid, touching, codimension one; = facet when the rank is at least 2; vertices: accepted iff extreme ray; filter keeps exactly the facets (dead code)."
  },
  {
   "property": "C37",
   "status": "partial",
   "theorems": [
    "C37_threads",
    "C37_threads_positive",
    "C37_numeral_unique",
    "C37_method",
    "C37_integer_type",
    "C37_defined",
    "C37_sorting_partial",
    "C37_sorting_reads_past_the_end",
    "C37_sorting_undefined_iff",
    "C37_sorting_misspelt_accepted",
    "C37_sorting_directions_partial",
    "C37_filename_partial",
    "C37_filename_refuted",
    "C37_known_facets",
    "C37_mode",
    "C37_flags"
   ],
   "note": "Threads, method, integer type, flags, mode, known data: full characterisation for every argument vector, no undefined behaviour. Sorting: documented words right (C37_sorting_partial); false in general: some words read past the end of the argument (C37_sorting_undefined_iff gives exactly which), misspelt words are accepted. File name: right for documented command lines (C37_filename_partial); \"-x=p\" hides the next argument (C37_filename_refuted)."
  },
  {
   "property": "C38",
   "status": "partial",
   "theorems": [
    "C38_dimension_partial",
    "C38_dimension_refuted"
   ],
   "note": "Proved: a dimension given as \"DIM=\" (or a variant) with the number on the following line is honoured. Refuted: \"DIM=<n>\" in one line is ignored for every n (the line is not recognised as a keyword), so the property as stated is false of the code."
  },
  {
   "property": "C39",
   "status": "partial",
   "theorems": [
    "C39_row",
    "C39_safe_row",
    "C39_matrices_partial",
    "C39_delivered_partial",
    "C39_steps_partial",
    "C39_arrives_partial",
    "C39_empty_refuted",
    "C39_dangling_refuted",
    "C39_int64_refuted"
   ],
   "note": "False in general: the empty matrix is undefined behaviour (C39_empty_refuted), the buffers of two of the messages are dead before the send has completed (C39_dangling_refuted), int64_t entries are cut to int (C39_int64_refuted). Proved: rows (including the empty row that stops a slave) round-trip, SafeInteger rows round-trip or throw; matrices that are not empty arrive complete, unchanged and in order for every interleaving (C39_matrices_partial: unless a dead buffer is read) and all of them arrive if MPI copies small messages when they are posted (C39_delivered_partial, C39_steps_partial, C39_arrives_partial)."
  },
  {
   "property": "C40",
   "status": "proved",
   "theorems": [
    "C40_fractions",
    "C40_grammar",
    "C40_conversion",
    "C40_safe_rejected",
    "C40_int64_refuted"
   ],
   "note": "For all entries in [-(2^31-1), 2^31-1]. C40_conversion/C40_safe_rejected: the conversion to int before printing; C40_int64_refuted: int64_t entries that do not fit are printed modulo 2^32."
  },
  {
   "property": "C41",
   "status": "proved",
   "theorems": [
    "C41_generators",
    "C41_extreme_rays"
   ],
   "note": ""
  },
  {
   "property": "C42",
   "status": "partial",
   "theorems": [
    "C42_inf_refuted",
    "C42_right_signs_partial",
    "C42_as_int_partial",
    "C42_as_int_program_partial",
    "C42_main_partial",
    "C42_ad_facets_partial",
    "C42_ad_vertices_partial",
    "C42_ad_main_partial",
    "C42_program_refuted"
   ],
   "note": "False as stated: C42_inf_refuted (triangle with corners (0,0), (100000,0), (0,100000)) because of C16. Proved instead: whenever no division with the wrong sign (C16) occurs in the computation with unbounded integers, -i inf computes exactly the ideal result (C42_right_signs_partial); whenever the default type int ends normally, -i inf gives and prints the same (C42_as_int_partial, C42_as_int_program_partial, C42_main_partial), also for adjacency decomposition: what int can print -i inf can print, and nothing else if int never fails (C42_ad_facets_partial, C42_ad_vertices_partial, C42_ad_main_partial). C42_program_refuted: the same for the whole program, with both methods."
  },
  {
   "property": "C43",
   "status": "partial",
   "theorems": [
    "C43_origin_inside_partial",
    "C43_refuted",
    "C43_no_hidden_edge_partial",
    "C43_program_refuted"
   ],
   "note": "Proved whenever no edge is hidden (C43_no_hidden_edge_partial: no edge leaves a vertex straight away from the origin, and none leaves the origin along the negative last axis), in particular when the origin is inside and not a vertex; every integer type except int16_t. False in general: C43_refuted and, for the whole program, C43_program_refuted (vertices of a quadrilateral that no run prints although no rotation fails)."
  },
  {
   "property": "C44",
   "status": "proved",
   "theorems": [
    "C44_constraints",
    "C44_generators",
    "C44_constant_refuted"
   ],
   "note": "Every list of printable rows under every title for such a section, with every following section; generators likewise. C44_constant_refuted: a row without variables prints as \" <= 1\" and cannot be read back (facet enumeration never prints one: C45)."
  },
  {
   "property": "C45",
   "status": "proved",
   "theorems": [
    "C45_facets",
    "C45_reduced",
    "C45_reduced_ends"
   ],
   "note": "Text level: the printed lines denote constraints whose solution set is the hull of the input. C45_reduced: with maps that permute the input (up to positive factors, last coordinate kept) exactly one facet of every class is printed and the images of a point decide membership; equations must have leading coefficient 1 and the type must not be int64_t then (C28), ending with unbounded integers is C45_reduced_ends."
  },
  {
   "property": "C46",
   "status": "proved",
   "theorems": [
    "C46_vertices",
    "C46_reduced",
    "C46_reduced_ends"
   ],
   "note": "Text level: generates exactly the solutions; exactly the vertices and extreme directions, each once. C46_reduced: with maps that permute the inequalities (up to positive factors, last coordinate kept) exactly one vertex and one direction of every class is printed and their images generate the solutions; ending with unbounded integers is C46_reduced_ends."
  },
  {
   "property": "C47",
   "status": "proved",
   "theorems": [
    "C47_consistency",
    "C47_outer_consistency",
    "C47_read",
    "C47_no_keyword",
    "C47_repeated_section_refuted",
    "C47_missing_image_refuted",
    "C47_joined_lines_refuted",
    "C47_further_image_refuted",
    "C47_maps_without_names_refuted"
   ],
   "note": "Refinements recorded as refutations: repeated sections replace each other; maps without names never end."
  },
  {
   "property": "C48",
   "status": "proved",
   "theorems": [
    "C48_facets",
    "C48_safe",
    "C48_reduced",
    "C48_reduced_ends"
   ],
   "note": "With maps: C48_reduced (if the run succeeds), C48_reduced_ends (unbounded integers); the equations must be solvable with leading coefficient 1 (C28). Files with rays only are excluded (C04)."
  },
  {
   "property": "C49",
   "status": "proved",
   "theorems": [
    "C49_read",
    "C49_order",
    "C49_equations_refuted"
   ],
   "note": "The rows read, their order, and acceptance exactly when the checked parts agree. C49_equations_refuted: the widths of equations are not checked."
  },
  {
   "property": "C50",
   "status": "proved",
   "theorems": [
    "C50_reduced",
    "C50_reduced_ends",
    "C50_vertices",
    "C50_safe",
    "C50_lines_refuted"
   ],
   "note": "With maps: C50_reduced (if the run succeeds), C50_reduced_ends (unbounded integers). Solutions without lines. C50_lines_refuted: the half plane x <= 1 prints one vertex and one ray, its line is missing."
  },
  {
   "property": "C51",
   "status": "partial",
   "theorems": [
    "C51_no_row_twice",
    "C51_complete",
    "C51_no_deadlock_partial",
    "C51_all_runs_end",
    "C51_can_finish_partial",
    "C51_no_message_left",
    "C51_more_slave_threads_refuted"
   ],
   "note": "C51_no_row_twice, C51_complete and C51_all_runs_end hold for all thread counts; C51_no_deadlock_partial and C51_can_finish_partial need as many worker threads on each slave as on the master (C51_more_slave_threads_refuted: otherwise a slave thread can wait forever) and that rotation always returns a row (C39_empty_refuted). Message transport as in C39."
  },
  {
   "property": "C52",
   "status": "proved",
   "theorems": [
    "C52_rows",
    "C52_facets",
    "C52_full_dimensional",
    "C52_symmetric_rows",
    "C52_symmetric_facets",
    "C52_ends"
   ],
   "note": "Facet enumeration on one process; critical sections of the list are atomic (the unprotected insertions: C13). Needs three different facets (C09: segments and slabs miss facets); with maps and equations, leading coefficients 1 and not int64_t because of C28. int16 and BigInteger excluded as in C01."
  },
  {
   "property": "C53",
   "status": "proved",
   "theorems": [
    "C53_mode",
    "C53_refused",
    "C53_terminated",
    "C53_facets",
    "C53_safe",
    "C53_vertices",
    "C53_vertices_safe",
    "C53_adjacency",
    "C53_adjacency_safe",
    "C53_vertex_adjacency",
    "C53_vertex_adjacency_safe",
    "C53_facets_reduced",
    "C53_adjacency_reduced",
    "C53_adjacency_reduced_safe",
    "C53_vertices_reduced"
   ],
   "note": "Files without known data (see C58). For adjacency decomposition that a run ends with status 0 is not claimed (an overflow in a worker thread terminates the process even with -i safe); vertex enumeration by adjacency decomposition is complete only without hidden edges (C43, C57), which the statement says. Several names or an unknown method or type terminate the process (C53_terminated)."
  },
  {
   "property": "C54",
   "status": "partial",
   "theorems": [
    "C54_help_partial",
    "C54_unknown",
    "C54_known_data_refuted",
    "C54_general"
   ],
   "note": "False for the option for known data by its names (C54_known_data_refuted); proved for all the others. The wording of the texts is a parameter."
  },
  {
   "property": "C55",
   "status": "proved",
   "theorems": [
    "C55_facets_reread",
    "C55_facets_then_vertices",
    "C55_vertices_then_facets",
    "C55_no_inequality_refused",
    "C55_single_point_refuted"
   ],
   "note": "Double description in both runs, files without maps; at least one facet inequality is needed because vertex enumeration refuses files without inequalities (C55_no_inequality_refused, C55_single_point_refuted). The names have to be added to the printed text by the user, the program does not print them."
  },
  {
   "property": "C56",
   "status": "proved",
   "theorems": [
    "C56_elimination",
    "C56_facets",
    "C56_vertices",
    "C56_program",
    "C56_int64_refuted",
    "C56_main",
    "C56_ad_facets",
    "C56_ad_vertices",
    "C56_ad_main"
   ],
   "note": "Double description programs and adjacency decomposition (without known data), with maps. C56_int64_refuted shows why int64 is not followed by the safe type."
  },
  {
   "property": "C57",
   "status": "proved",
   "theorems": [
    "C57_any_time",
    "C57_text",
    "C57_vertices",
    "C57_ends"
   ],
   "note": "Soundness, no repetition at any moment of any schedule, completeness when no edge is hidden, possibility to end with exact integers; hidden edges are the subject of C43."
  },
  {
   "property": "C58",
   "status": "proved",
   "theorems": [
    "C58_refused",
    "C58_refused_vertices",
    "C58_double_description",
    "C58_double_description_vertices",
    "C58_adjacency",
    "C58_adjacency_reduced",
    "C58_adjacency_safe",
    "C58_adjacency_reduced_safe",
    "C58_vertex_adjacency",
    "C58_vertex_adjacency_safe"
   ],
   "note": "Known data of adjacency decomposition are assumed to be facets resp. vertices and extreme directions (the program does not check this without -c). That a run ends with status 0 is not claimed. Example C58_own_facets_refused: output of the program that contains equations or is reduced is refused as known facets."
  },
  {
   "property": "C59",
   "status": "proved",
   "theorems": [
    "C59_only_refuses",
    "C59_symmetries",
    "C59_facets",
    "C59_adjacency",
    "C59_known_facets",
    "C59_constraint_symmetries",
    "C59_vertices",
    "C59_known_vertices",
    "C59_symmetric_refused_refuted",
    "C59_maps_after_refuted",
    "C59_equations_refuted"
   ],
   "note": "The maps are required to stand before the sections they are checked against, and, for vertex enumeration, the equations are required to be symmetric: the checks do not cover these (C59_maps_after_refuted, C59_equations_refuted). A symmetric file may be refused: C59_symmetric_refused_refuted. Known data are required to be different from the trivial inequality (rows of a facet list); see the statements."
  },
  {
   "property": "C60",
   "status": "proved",
   "theorems": [
    "C60_points",
    "C60_rays",
    "C60_hull",
    "C60_symmetric",
    "C60_facets",
    "C60_refused",
    "C60_solutions",
    "C60_constraint_symmetric",
    "C60_vertices",
    "C60_constraints_refused"
   ],
   "note": "Classes are required to be finite and within int (class_of); reduced inequalities are required to precede the equations and no image may mention a coordinate twice (otherwise the normalisation of the maps can be undefined, C28)."
  },
  {
   "property": "C61",
   "status": "proved",
   "theorems": [
    "C61_program",
    "C61_main",
    "C61_lines"
   ],
   "note": "Double description; adjacency decomposition is the subject of C62."
  },
  {
   "property": "C62",
   "status": "proved",
   "theorems": [
    "C62_any_time",
    "C62_text",
    "C62_ends",
    "C62_main",
    "C62_safe",
    "C62_nothing_hidden"
   ],
   "note": "Without maps and known data. Completeness only without hidden edges (C43), which the statement says. Systems that depend on no coordinate are excluded: Example C62_whole_plane shows undefined behaviour."
  },
  {
   "property": "C63",
   "status": "proved",
   "theorems": [
    "C63_vertices_reread",
    "C63_vertices_then_facets",
    "C63_facets_reread",
    "C63_facets_then_vertices"
   ],
   "note": "Both directions: vertices first, then facets, and facets first, then vertices. Classes are required to be within int (image_load, facet_load), as in C60; for the second direction no image of a map mentions a coordinate twice and there are no equations."
  },
  {
   "property": "C64",
   "status": "proved",
   "theorems": [
    "C64_left",
    "C64_left_one",
    "C64_left_digits",
    "C64_left_wrong",
    "C64_right",
    "C64_right_beyond",
    "C64_there_and_back"
   ],
   "note": "Refined: where the left shift is wrong is part of the statement (C64_left, C64_left_wrong)."
  },
  {
   "property": "C65",
   "status": "proved",
   "theorems": [
    "C65_rows",
    "C65_facets",
    "C65_vertices",
    "C65_facet_files",
    "C65_vertex_files",
    "C65_adjacency",
    "C65_adjacency_symmetric"
   ],
   "note": "For both methods; with adjacency decomposition up to the order of the lines (and the line 0 <= 1). Provided that no overflow stops a computation."
  },
  {
   "property": "C66",
   "status": "proved",
   "theorems": [
    "C66_text",
    "C66_resumed",
    "C66_resumed_safe",
    "C66_resumed_section",
    "C66_refused",
    "C66_cut_line_refuted",
    "C66_vertices",
    "C66_vertices_ignored"
   ],
   "note": "C66_cut_line_refuted shows what a partial line does (part of the statement). The inputs are read with C58; one node."
  },
  {
   "property": "C67",
   "status": "proved",
   "theorems": [
    "C67_facets",
    "C67_adjacency",
    "C67_vertices",
    "C67_images",
    "C67_vertex_files",
    "C67_facet_files"
   ],
   "note": "Provided that no overflow stops a computation; adjacency decomposition without maps."
  },
  {
   "property": "C68",
   "status": "proved",
   "theorems": [
    "C68_image",
    "C68_unambiguous",
    "C68_map",
    "C68_vertex_files",
    "C68_inequality_files"
   ],
   "note": "C47 has the refutations about the number of images on a line."
  }
 ]
}