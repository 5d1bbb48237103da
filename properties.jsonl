{"id": "C01", "title": "Generated loops run every statement instance exactly once", "statement": "For every list of statement domains and every context, whenever code generation (cloog_program_generate / cloog_loop_generate) returns, the loop structure it produces, scanned for any parameter values in the context, executes each integer point of each statement's (scattered) domain exactly as many times as the input list contains it (once for an ordinary input), and executes nothing else; when the scattering ends with scalar dimensions, statements with equal scalar dates must be listed deeper ones first (C03 is about inputs that are not).", "quantifier": "all lists of domains, all contexts, all parameter valuations, all scalar-dimension layouts, all values of -f, -l, -sh, -backtrack, per-statement fs/ls; any polyhedral library obeying the stated set laws", "why_tests_cant": "There are infinitely many polyhedra, parameter values and option combinations; the generator recurses over levels, splits domains and rebuilds lists, and a lost or duplicated point shows up only for particular shapes.", "anchors": ["source/loop.c:cloog_loop_generate", "source/loop.c:cloog_loop_generate_general", "source/loop.c:cloog_loop_recurse", "source/loop.c:cloog_loop_restrict_all", "source/loop.c:cloog_loop_project_all"]}
{"id": "C02", "title": "Generated loops respect the scattering order", "statement": "If statement instance A has a lexicographically smaller scattering (logical date, scalar and non-scalar dimensions interleaved as given) than instance B then the generated loop structure executes A before B.", "quantifier": "all pairs of instances of all inputs, all parameter valuations, every option setting whose -l covers the scattering dimensions", "why_tests_cant": "Ordering is a relation over all pairs of points of unbounded sets; tests compare a few finite scans.", "anchors": ["source/loop.c:cloog_loop_generate_general", "source/loop.c:cloog_loop_sort", "source/loop.c:cloog_loop_generate_scalar", "source/loop.c:cloog_loop_generate_components", "source/isl/domain.c:cloog_domain_sort"]}
{"id": "C03", "title": "Statements with different scalar vectors or depths are never dropped", "statement": "Statements whose scattering consists of the same scalar dates are all kept by code generation, whatever their depths and textual order.", "quantifier": "all lists of statements of arbitrary (mixed) depth sharing scalar dates", "why_tests_cant": "The loss only happens for particular combinations of depths, positions in the list and scalar dates (linked-list surgery on a sublist).", "anchors": ["source/loop.c:cloog_loop_generate_scalar", "source/loop.c:cloog_loop_add", "source/loop.c:cloog_loop_more"]}
{"id": "C04", "title": "Separation yields disjoint pieces with the same union and payload", "statement": "Separating a list of domains returns pairwise disjoint domains whose union is the union of the inputs, and at every point the payload attached to the piece covering that point is exactly the concatenation, in input order, of the payloads of the inputs covering it.", "quantifier": "all lists of (possibly non-convex, overlapping, equal or empty) domains and all points", "why_tests_cant": "Quillere separation is an iterated difference/intersection with lazy shortcuts; overlap patterns are unbounded.", "anchors": ["source/loop.c:cloog_loop_separate", "source/loop.c:cloog_loop_add_disjoint", "source/loop.c:cloog_loop_disjoint", "source/loop.c:cloog_loop_combine"]}
{"id": "C05", "title": "Merging (-f beyond the level) keeps every instance and its order", "statement": "Replacing a list of loops at one level by bounding loops (merge, constant level, split by bound splitter) neither loses nor duplicates inner instances and keeps them in the order of the iterator at that level.", "quantifier": "all lists of loops, both hull operators, all splitters", "why_tests_cant": "The hull over-approximates; correctness depends on the interplay with later guards for every point outside the union.", "anchors": ["source/loop.c:cloog_loop_merge", "source/loop.c:cloog_loop_constant", "source/loop.c:cloog_loop_is_constant"]}
{"id": "C06", "title": "Final simplification preserves execution in context", "statement": "cloog_loop_simplify changes neither the instances executed nor their relative order for any parameter values satisfying the context, although it removes every constraint implied by outer loops.", "quantifier": "all loop trees, all contexts, all parameter valuations in the context", "why_tests_cant": "Dropped constraints may matter only for rare parameter values or outer iterations.", "anchors": ["source/loop.c:cloog_loop_simplify", "source/loop.c:loop_simplify"]}
{"id": "C07", "title": "Domain sort returns a permutation compatible with every comparison", "statement": "cloog_domain_sort fills the permutation array with each index exactly once, and whenever the comparison says domain i must come after domain j, j is placed before i; it finishes for every acyclic comparison.", "quantifier": "all numbers of domains and all acyclic comparison outcomes", "why_tests_cant": "The incremental transitive closure skips comparisons; errors depend on the order in which pairs are met, with n unbounded.", "anchors": ["source/isl/domain.c:cloog_domain_sort", "source/loop.c:cloog_loop_sort"]}
{"id": "C08", "title": "Domain sort terminates on every input", "statement": "cloog_domain_sort terminates whatever pairwise comparison results the polyhedral library reports for disjoint domains.", "quantifier": "all comparison matrices", "why_tests_cant": "Non-termination needs a cyclic comparison among at least three domains, which random inputs rarely show.", "anchors": ["source/isl/domain.c:cloog_domain_sort"]}
{"id": "C09", "title": "Strongly connected components are a correct, ordered partition", "statement": "The component decomposition used for code generation puts every loop in exactly one component, two loops share a component iff each (transitively) has to follow the other, components are emitted so that no member of an earlier component has to follow a member of a later one, and each component keeps the input order.", "quantifier": "all graph sizes and all follow relations", "why_tests_cant": "A graph algorithm with stack and low-link bookkeeping; only universally quantified reasoning covers all graphs.", "anchors": ["source/loop.c:cloog_loop_components_tarjan", "source/loop.c:extract_component", "source/loop.c:sort_component", "source/loop.c:cloog_loop_generate_components", "source/loop.c:cloog_loop_decompose_inner"]}
{"id": "C10", "title": "Scalar dimensions: stable sort by scalar vector", "statement": "Sorting loops on consecutive scalar dimensions terminates, yields a permutation ordered by the lexicographic order of the scalar vectors, and keeps the input order of loops with equal vectors.", "quantifier": "all lists of loops and all integer vectors", "why_tests_cant": "Bubble sort on a linked list through double pointers; list lengths and values are unbounded.", "anchors": ["source/loop.c:cloog_loop_scalar_sort", "source/loop.c:cloog_loop_constant_cmp", "source/loop.c:cloog_loop_scalar_gt"]}
{"id": "C11", "title": "Scalar extraction loses no scheduling information", "statement": "After cloog_program_extract_scalars every statement's original scattering vector can be rebuilt from its block's scalar values and the remaining scattering dimensions, a dimension is extracted iff it is scalar for all statements, and the recorded run lengths count the consecutive scalar dimensions.", "quantifier": "all numbers of statements and scattering dimensions and all patterns of scalar dimensions", "why_tests_cant": "The renumbering and run-length post-processing must be right for every pattern of scalar/non-scalar dimensions.", "anchors": ["source/program.c:cloog_program_extract_scalars"]}
{"id": "C12", "title": "Unit-stride replacement: strided loops run the same iterations", "statement": "A loop given stride s and an adjusted lower bound visits exactly those values of the original loop that satisfy the stride congruence, in the same order, and the stride found is implied by every inner domain.", "quantifier": "all strides, offsets, bounds (including negative ones) and all lists of inner congruences", "why_tests_cant": "Alignment of negative lower bounds and gcd combinations of several congruences range over all integers.", "anchors": ["source/loop.c:cloog_loop_stride", "source/clast.c:update_lower_bound", "source/isl/domain.c:cloog_domain_stride_lower_bound", "source/isl/domain.c:constraint_stride_lower"]}
{"id": "C13", "title": "Loop bounds are exact", "statement": "For a loop on one iterator, the generated lower bound (max of ceilings) and upper bound (min of floors) delimit exactly the integer values of the iterator that satisfy all inequality constraints on it, for every value of outer iterators and parameters.", "quantifier": "all constraint systems, levels, outer iterator and parameter values", "why_tests_cant": "Rounding of negative numerators and sign normalisation has to be right for every coefficient and value.", "anchors": ["source/clast.c:clast_bound_from_constraint", "source/clast.c:clast_minmax", "source/clast.c:valid_bound", "source/clast.c:collect_bounds"]}
{"id": "C14", "title": "Guards are exact", "statement": "The guard generated before a loop or statement is true exactly when all constraints of the domain that do not involve the loop's own iterator hold (grouping several bounds into min/max, moving coefficients to the left and sorting the conditions change nothing).", "quantifier": "all constraint sets, levels, and variable values", "why_tests_cant": "Constraints are visited per first-involved variable with min/max de-duplication; a skipped constraint is visible only for particular systems.", "anchors": ["source/clast.c:insert_guard", "source/clast.c:insert_guard_constraint", "source/clast.c:clast_guard_sort"]}
{"id": "C15", "title": "Equality levels: assignment plus modulo guard is exact", "statement": "When a level is fixed by an equality a*x+e=0 (or by a pair of opposite inequalities), the generated modulo guard and assignment run the body exactly when an integer x exists and with exactly that x.", "quantifier": "all coefficients, expressions and variable values", "why_tests_cant": "Requires divisibility reasoning for all integers, including negative numerators and coefficients.", "anchors": ["source/clast.c:insert_equation", "source/clast.c:insert_modulo_guard", "source/clast.c:insert_modulo_guard_constraint", "source/clast.c:insert_computed_modulo_guard", "source/isl/constraints.c:cloog_constraint_set_defining_inequalities"]}
{"id": "C16", "title": "The clast executes exactly the loop structure", "statement": "Executing the statement list produced by cloog_clast_create calls the user statements with exactly the iterator values, and in exactly the order, given by scanning the loop structure it was built from.", "quantifier": "all loop trees over constraint domains, all parameter values, all settings of the clast options otl, esp, fsp, block", "why_tests_cant": "It composes guards, bounds, one-time loops, equality spreading and sibling insertion through pointer-to-pointer lists over unbounded trees.", "anchors": ["source/clast.c:insert_loop", "source/clast.c:insert_for", "source/clast.c:insert_otl_for", "source/clast.c:insert_guarded_otl_for", "source/clast.c:insert_block", "source/clast.c:clast_equal", "source/clast.c:cloog_clast_create"]}
{"id": "C17", "title": "Expression comparison is a total order and equality means equal value", "statement": "clast_expr_equal is an equivalence; equal expressions evaluate to the same number in every environment; the order used by sorting is transitive and antisymmetric up to that equivalence.", "quantifier": "all expression trees, including NULL sub-expressions and one-element reductions", "why_tests_cant": "qsort needs a consistent order on all expressions; recursive comparison with special cases cannot be exhausted by tests.", "anchors": ["source/clast.c:clast_expr_cmp", "source/clast.c:clast_term_cmp", "source/clast.c:clast_binary_cmp", "source/clast.c:clast_reduction_cmp", "source/clast.c:clast_expr_equal"]}
{"id": "C18", "title": "Empty-loop elimination only removes empty loops", "statement": "A loop is dropped by the constant comparison of its bounds only if it has no iteration for any variable values.", "quantifier": "all bound expressions and environments", "why_tests_cant": "The check recurses through reductions of bounds; soundness is over all environments.", "anchors": ["source/clast.c:clast_expr_is_bigger_constant", "source/clast.c:insert_for"]}
{"id": "C19", "title": "Rounding macros and expression printing agree with the intended arithmetic", "statement": "The floord, ceild, min and max macros written by -compilable/-callable compute mathematical floor, ceiling, minimum and maximum for every argument and positive divisor, and evaluating a printed C bound with them gives the value of the expression.", "quantifier": "all integers (no overflow), all expressions, all environments", "why_tests_cant": "Signed division corner cases are spread over all negative numerators; textual precedence problems appear only for particular nestings.", "anchors": ["source/program.c:print_macros", "source/pprint.c:pprint_binary", "source/pprint.c:pprint_sum", "source/pprint.c:pprint_term", "source/pprint.c:pprint_reduction", "source/pprint.c:pprint_minmax_c"]}
{"id": "C20", "title": "Printed C text parses back to the same expression", "statement": "The character string printed for an expression in C, read back with C's precedence, denotes the same value as the expression in every environment.", "quantifier": "all expressions the generator builds, all names, all environments", "why_tests_cant": "Strings are unbounded; sign/parenthesis handling depends on term order and coefficients.", "anchors": ["source/pprint.c:pprint_expr", "source/pprint.c:pprint_sum", "source/pprint.c:pprint_term"]}
{"id": "C21", "title": "Printed modulo guards mean the modulo constraint", "statement": "The modulo guard printed in C or Fortran is true exactly when the corresponding congruence or residue bound holds.", "quantifier": "all dividends (positive and negative), moduli and bounds", "why_tests_cant": "The printed % truncates toward zero while the constraint uses floor remainders; it differs only for negative dividends.", "anchors": ["source/pprint.c:pprint_binary", "source/clast.c:insert_computed_modulo_guard"]}
{"id": "C22", "title": "Fortran DO loops carry their stride", "statement": "A strided loop printed in Fortran has the loop bounds and stride of the clast loop.", "quantifier": "all bounds and strides", "why_tests_cant": "Concatenation without a separator changes the upper bound only when stride>1 in Fortran mode.", "anchors": ["source/pprint.c:pprint_for"]}
{"id": "C23", "title": "Fixed-width division helpers are floor/ceiling division", "statement": "With fixed-width integers, the floor-quotient, floor-remainder, ceiling-quotient, gcd, and divisibility helpers return the mathematical values for all arguments for which no intermediate overflows, and the result of the remainder is in [0,d).", "quantifier": "all 64-bit integers within the stated ranges", "why_tests_cant": "2^128 argument pairs.", "anchors": ["include/cloog/int.h.in:cloog_int_fdiv_q", "include/cloog/int.h.in:cloog_int_fdiv_r", "include/cloog/int.h.in:cloog_int_cdiv_q", "source/int.c:cloog_gcd"]}
{"id": "C24", "title": "Fixed-width comparison orders all representable values", "statement": "cloog_int_cmp on fixed-width integers has the sign of the mathematical difference.", "quantifier": "all pairs of representable integers", "why_tests_cant": "Subtraction overflow only shows for operands far apart.", "anchors": ["include/cloog/int.h.in:cloog_int_cmp"]}
{"id": "C25", "title": "Vector helpers preserve the constraint they rewrite", "statement": "Normalising, scaling down, negating or combining coefficient vectors keeps the set of integer solutions (normalise divides by the gcd of the row; combine yields the linear combination), for rows of any length.", "quantifier": "all vectors and all points", "why_tests_cant": "Vector lengths and values are unbounded.", "anchors": ["source/int.c:cloog_vec_normalize", "source/int.c:cloog_seq_combine", "source/int.c:cloog_seq_gcd", "source/int.c:cloog_seq_normalize"]}
{"id": "C26", "title": "Stride construction solves its congruence", "statement": "Extended gcd used to build strides returns Bezout coefficients and the true gcd, and the constant offset derived from a stride equality is the residue class of exactly the iterator values that satisfy the equality.", "quantifier": "all integer coefficients", "why_tests_cant": "Iterated Euclid over all integers, negative values included.", "anchors": ["source/isl/domain.c:Euclid", "source/isl/domain.c:construct_stride", "source/matrix/constraintset.c:Euclid"]}
{"id": "C27", "title": "Default option values and command-line parsing", "statement": "Parsing a command line sets each option to the value given by its last occurrence, leaves all other options at their defaults, and rejects malformed numeric values.", "quantifier": "all argument vectors", "why_tests_cant": "Argument vectors are unbounded; interactions of repeated and unknown options are combinatorial.", "anchors": ["source/options.c:cloog_options_read", "source/options.c:cloog_options_set", "source/options.c:cloog_options_malloc"]}
{"id": "C28", "title": "Option sanitising keeps the scattering order valid", "statement": "Unless -override is given, the values of -f and -l after sanitising in cloog_program_generate always let code generation separate (or merge) all scattering dimensions, so the target order is respected; values that are already safe are unchanged.", "quantifier": "all f, l and numbers of scattering dimensions", "why_tests_cant": "Pure decision logic over unbounded integers with negative sentinels.", "anchors": ["source/program.c:cloog_program_generate"]}
{"id": "C29", "title": "Generated names are distinct", "statement": "Automatically generated scattering, iterator and parameter names are pairwise distinct, so printed code never confuses two variables.", "quantifier": "all counts of iterators, scatterings and parameters", "why_tests_cant": "Collisions need particular counts (character ranges meeting each other).", "anchors": ["source/names.c:cloog_names_generate", "source/names.c:cloog_names_generate_items"]}
{"id": "C30", "title": "Name scalarisation removes exactly the scalar dimensions", "statement": "cloog_names_scalarize keeps the names of the non-scalar scattering dimensions in order and drops exactly the scalar ones, so the name at every loop level is the one of that dimension.", "quantifier": "all patterns of scalar dimensions", "why_tests_cant": "Index arithmetic over all patterns.", "anchors": ["source/names.c:cloog_names_scalarize", "source/names.c:cloog_names_name_at_level"]}
{"id": "C31", "title": "Blocks, statements, lists, strides and loops are freed exactly once", "statement": "For any sequence of allocation, copy, link, merge and free calls by a caller who gives away only references it holds and never merges a block with itself: each block, statement, list node, stride and loop is freed exactly once, only when the last reference to it is dropped, and freed memory is never touched.", "quantifier": "all histories of operations on any number of structures", "why_tests_cant": "Use-after-free and double free depend on the whole history.", "anchors": ["source/block.c:cloog_block_free", "source/block.c:cloog_block_copy", "source/block.c:cloog_block_merge", "source/block.c:cloog_block_list_free", "source/statement.c:cloog_statement_free", "source/stride.c:cloog_stride_free", "source/loop.c:cloog_loop_free", "source/loop.c:cloog_loop_free_parts", "source/statement.c:cloog_statement_copy"]}
{"id": "C32", "title": "Leak counters balance", "statement": "After any history of allocations and frees the difference between the allocated and freed counters equals the number of live objects, and the max counter is the historical maximum of live objects.", "quantifier": "all histories", "why_tests_cant": "Histories are unbounded.", "anchors": ["source/block.c:cloog_block_leak_up", "source/statement.c:cloog_statement_leak_up", "source/loop.c:cloog_loop_leak_up", "source/state.c"]}
{"id": "C33", "title": "Building a union domain rejects inconsistent use", "statement": "Through the union-domain API, statements are kept in insertion order, recorded dimensions are the maxima of what was added, and out-of-range or late naming is rejected instead of corrupting names.", "quantifier": "all histories of API calls", "why_tests_cant": "Order-dependent API contract over unbounded call sequences.", "anchors": ["source/union_domain.c:cloog_union_domain_add_domain", "source/union_domain.c:cloog_union_domain_set_name"]}
{"id": "C34", "title": "Blocking statements keeps their execution order", "statement": "When adjacent statements are merged in one block (program_block / loop_block), executing the merged block runs the statements in textual order at each point, and every statement still runs on exactly its own domain.", "quantifier": "all statement lists and scatterings", "why_tests_cant": "Depends on runs of adjacent equal domains and scalar vectors of any length.", "anchors": ["source/program.c:cloog_program_block", "source/loop.c:cloog_loop_block", "source/block.c:cloog_block_merge"]}
{"id": "C35", "title": "clast_filter finds all matching loops", "statement": "clast_filter returns every loop under the node whose iterator and statement set match the filter, and all statement numbers under the node.", "quantifier": "all clast trees and filters", "why_tests_cant": "Trees are unbounded and of mixed node kinds.", "anchors": ["source/clast.c:clast_filter", "source/clast.c:list_compare", "source/clast.c:concat_if_new"]}
{"id": "C36", "title": "Unrolling runs the same iterations in the same order", "statement": "Replacing a loop by one fixed-offset copy per value executes the same instances in the same order.", "quantifier": "all loops over one convex set that the library reports as unrollable with n iterations, all n", "why_tests_cant": "n is unbounded and lower bounds are parametric.", "anchors": ["source/loop.c:loop_unroll", "source/loop.c:cloog_loop_unroll", "source/isl/domain.c:cloog_domain_can_unroll"]}
{"id": "C37", "title": "-stop truncates the scan", "statement": "With -stop, code generation stops at the requested depth and each statement runs exactly once for each point of the context at that depth where its loop was kept.", "quantifier": "all inputs and stop depths", "why_tests_cant": "Quantifies over inputs and depths.", "anchors": ["source/loop.c:cloog_loop_stop", "source/loop.c:cloog_loop_generate_restricted_or_stop"]}
{"id": "C38", "title": "Array-based constraint rows: equality propagation preserves solutions", "statement": "In the matrix constraint-set back end, normalising constraints and simplifying them with the recorded equalities keeps exactly the integer points that satisfy those equalities, and drops only duplicated rows.", "quantifier": "all matrices and all points", "why_tests_cant": "Matrices are unbounded; elimination is by cross multiplication with sign cases.", "anchors": ["source/matrix/constraintset.c:cloog_constraint_set_normalize", "source/matrix/constraintset.c:cloog_equal_vector_simplify", "source/matrix/constraintset.c:cloog_constraint_set_simplify"]}
{"id": "C39", "title": "Defining inequalities really fix the iterator", "statement": "When a level is reported as defined by a pair of inequalities, for all values of the other variables at most one integer value of that iterator satisfies both, and it is the value assigned.", "quantifier": "all pairs of constraints and all variable values", "why_tests_cant": "Over all coefficients and values; rounding gap must stay below the coefficient.", "anchors": ["source/isl/constraints.c:cloog_constraint_set_defining_inequalities", "source/matrix/constraintset.c:cloog_constraint_set_defining_inequalities"]}
{"id": "C40", "title": "Division expressions printed for existential dimensions have the right value", "statement": "The floord expression printed for an existentially quantified dimension floor(e/d) evaluates to floor(e/d).", "quantifier": "all expressions e, denominators d, and variable values", "why_tests_cant": "Common factors between coefficients and denominator trigger reductions only for particular values.", "anchors": ["source/isl/constraints.c:div_expr"]}
{"id": "C41", "title": "Matrix text format round-trips", "statement": "A matrix printed by cloog_matrix_print and read by the matrix reader is the same matrix, whatever its size and contents; comments and blank lines are skipped.", "quantifier": "all matrices", "why_tests_cant": "Sizes and digits are unbounded.", "anchors": ["source/matrix.c:cloog_matrix_print", "source/matrix.c:cloog_matrix_read"]}
{"id": "C42", "title": "The conditions of a guard never overflow their array", "statement": "Building the guard of a loop or statement never stores more conditions than the array allocated for it (one per constraint of the domain), for any domain and any level.", "quantifier": "all constraint systems of any size, all levels, all numbers of iterators and parameters", "why_tests_cant": "a test sees only finitely many constraint systems; an overflow needs a particular mixture of equalities and bounds per dimension", "anchors": ["source/clast.c:insert_guard", "source/clast.c:insert_guard_constraint", "source/clast.c:new_clast_guard"]}
{"id": "C43", "title": "Every statement is scanned with its own scattering", "statement": "A union domain in which statements have scattering functions gives each statement the scattering it was added with; if scatterings are missing or have different dimensions the input is rejected.", "quantifier": "all unions of domains with or without scatterings", "why_tests_cant": "Quantifies over all mixtures of scattered and unscattered statements; a shifted assignment shows up only for particular mixtures.", "anchors": ["source/program.c:cloog_program_alloc", "source/program.c:cloog_program_scatter", "source/union_domain.c:cloog_union_domain_add_domain"]}
{"id": "C44", "title": "A dumped input file is read back as the same input", "statement": "Writing an input with cloog_input_dump_cloog and reading the file with cloog_input_read gives the same language, context, iteration domains, scatterings and names.", "quantifier": "all inputs made with the union-domain calls, all histories of those calls, all contents of polyhedra", "why_tests_cant": "Inputs, their sizes and their names are unbounded, and the reader is a hand-written line parser with fixed buffers.", "anchors": ["source/input.c:cloog_input_dump_cloog", "source/input.c:cloog_input_read", "source/union_domain.c:cloog_union_domain_read", "source/names.c:cloog_names_read_strings"]}
{"id": "C45", "title": "Code generation ends with a result", "statement": "cloog_program_alloc and cloog_program_generate return on every well-formed input: no endless loop, no failed assertion, no NULL dereference; and the one result they return runs every iteration of every statement exactly once for all values of the parameters in the context.", "quantifier": "all inputs with scatterings of equal dimension, all options but -stop and unrolling from level 0, all polyhedral libraries that obey the stated laws", "why_tests_cant": "The generator recurses over levels, re-sorts, separates and backtracks until nothing changes; that these loops end for every input cannot be seen from finitely many runs.", "anchors": ["source/program.c:cloog_program_generate", "source/program.c:cloog_program_alloc", "source/loop.c:cloog_loop_generate", "source/loop.c:cloog_loop_separate", "source/loop.c:cloog_loop_sort", "source/isl/domain.c:cloog_domain_sort"]}
{"id": "C46", "title": "Files printed with -compilable and -callable are correct C and report every instance", "statement": "The file cloog_program_pprint writes with -compilable is a correct C file whose main prints a line with the number and coordinates of every instance the generated statements run, in their order, with all parameters set to the value given to the option, and then the number of instances. With -callable it is a correct C file of a function test of the parameters that calls hash with the number and coordinates of every instance in order, and with 0 when there are no statements.", "quantifier": "all generated programs, all names of iterators, scattering dimensions and parameters, all blocks and statements, all values of the parameters", "why_tests_cant": "Programs, names and parameter values are unbounded; a clash of names, a missing declaration or a macro with the wrong arguments shows up only for some of them.", "anchors": ["source/program.c:cloog_program_pprint", "source/program.c:print_callable_preamble", "source/program.c:print_macros", "source/program.c:print_scattering_declarations", "source/program.c:print_iterator_declarations", "source/pprint.c:clast_pprint"]}
{"id": "C47", "title": "Union domains made from isl sets and union maps", "statement": "cloog_union_domain_from_isl_set gives one statement with the name and the domain of the set, whose iterators have the names of the set's dimensions (made up where there are none), all different from each other and from the parameters. cloog_union_domain_from_isl_union_map gives one statement for every map, with the map's name, domain and own scattering.", "quantifier": "all isl spaces with any names or without names, all union maps", "why_tests_cant": "The numbers of dimensions, parameters and maps and their names are unbounded; clashes of made-up names happen only for particular names.", "anchors": ["source/isl/domain.c:cloog_union_domain_from_isl_set", "source/isl/domain.c:add_domain", "source/isl/domain.c:count_same_name", "source/isl/domain.c:cloog_union_domain_from_isl_union_map", "source/isl/domain.c:add_domain_from_map"]}
{"id": "C48", "title": "Programs printed in Fortran run the same statements", "statement": "The file printed when the language of the input is Fortran is, apart from the statement lines, a Fortran program that can be read in one way only; run with the values of the parameters it executes every instance of the statements, each as often as the input has it, in the order of the schedule, however the processor rounds quotients of reals to nearest.", "quantifier": "all generated programs, all names, all values of the parameters, all roundings to nearest", "why_tests_cant": "Floors and ceilings are computed through default reals, names lose their case, lines have a largest length: each goes wrong only for particular values, names and sizes, and the repository has no test that compiles Fortran output.", "anchors": ["source/pprint.c:pprint_binary", "source/pprint.c:pprint_for", "source/pprint.c:pprint_guard", "source/pprint.c:pprint_minmax_f", "source/program.c:print_comment", "source/program.c:cloog_program_pprint"]}
{"id": "C49", "title": "Remainder conditions are tested exactly", "statement": "When a domain restricts remainders (i = 1 mod 3, i mod 4 <= 1, N even), the conditions generated in front of a loop or statement hold exactly at the points of the domain: the statement runs for every integer point that satisfies the congruences and for no other, also inside loops with strides, whose known remainders are substituted.", "quantifier": "all systems of constraints with existential dimensions, all values of iterators and parameters, all strides of enclosing loops", "why_tests_cant": "Each existential dimension is found from an equality or a pair of inequalities, reduced modulo its coefficient, simplified with the strides of outer loops and removed from the system; an error shows only for some remainders of some coefficients.", "anchors": ["source/clast.c:insert_extra_modulo_guards", "source/clast.c:insert_modulo_guard", "source/clast.c:insert_modulo_guard_constraint", "source/clast.c:insert_guard", "source/isl/constraints.c:cloog_constraint_set_drop_constraint"]}
{"id": "C50", "title": "The command as a whole writes a correct program", "statement": "Running the cloog command with -compilable or -callable on an input file with scattering functions writes, to the file named by -o or to the standard output, the text of a correct C file. Compiled and run, it executes every iteration of every statement of the input file exactly once, with the statement's number and coordinates, in the order of the dates given by the scattering functions (where statements are put in one block: if the dates of its statements differ only as the block's order says).", "quantifier": "all command lines and input files that are read without an error, all context, domain and scattering values the polyhedral library can represent, all values of the parameters", "why_tests_cant": "It composes option parsing, input reading, naming, block and scalar detection, loop generation, conversion to a syntax tree and printing; two parts can each be right and disagree about numbering, names, dimensions or the position of parameters for inputs that no test contains.", "anchors": ["source/cloog.c:main", "source/options.c:cloog_options_read", "source/input.c:cloog_input_read", "source/program.c:cloog_program_alloc", "source/program.c:cloog_program_generate", "source/program.c:cloog_program_pprint", "source/clast.c:cloog_clast_create"]}
{"id": "C51", "title": "Creating the code tree comes to an end", "statement": "Turning the loops of a generated program into a code tree (for, if, assignment and statement nodes) never stops with a failed assertion: every loop whose bounds can be written gets a tree.", "quantifier": "all loop structures with linear bounds, strides and remainder conditions, all numbers of iterators and parameters, all options of the syntax tree", "why_tests_cant": "The conversion is full of assertions about the shape of constraint systems (an equality exists, a remainder condition has one constraint, two bounds are opposite); each holds only because of what earlier steps found or removed, and fails for some combination of bounds, strides and existential dimensions.", "anchors": ["source/clast.c:cloog_clast_create", "source/clast.c:insert_for", "source/clast.c:insert_otl_for", "source/clast.c:insert_modulo_guard", "source/clast.c:insert_extra_modulo_guards", "source/isl/constraints.c:cloog_equal_add"]}
{"id": "C52", "title": "A program using the library gets the code it asked for", "statement": "A program creates a union domain, adds statements with optional names, scatterings and user pointers, optionally names dimensions, and calls cloog_clast_create_from_input. The resulting code tree, walked or printed as C and run with the given parameter values, executes every added statement at every point of its domain exactly once, under the name it was added with (or S and its position), in the order of the dates of the scatterings (lexicographically if there are none); every user statement node carries the pointer it was added with.", "quantifier": "all sequences of calls that do not die, all domains, scatterings, names, pointers and contexts, all values of the parameters and all initial values of other variables, all options that affect the generated code", "why_tests_cant": "Statements are renumbered, grouped into blocks, reordered and split on the way to the tree; a name or pointer attached to the wrong copy, or a dimension name used for another dimension, shows only for particular combinations of statements, blocks and names.", "anchors": ["source/union_domain.c:cloog_union_domain_add_domain", "source/union_domain.c:cloog_union_domain_set_name", "source/clast.c:cloog_clast_create_from_input", "source/program.c:cloog_program_alloc", "source/program.c:cloog_program_generate", "source/pprint.c:clast_pprint"]}
{"id": "C53", "title": "Domains and scatterings made from matrices and bounds", "statement": "cloog_domain_from_cloog_matrix returns the domain of exactly the integer points that satisfy every row of the matrix (first column: equality or inequality; then the dimensions, the parameters, the constant). cloog_scattering_from_cloog_matrix returns the relation between points and dates that satisfies every row (scattering dimensions, dimensions, parameters, constant). cloog_domain_cube and cloog_domain_from_bounds return exactly the points between the bounds.", "quantifier": "all matrices of any size with any entries, all numbers of parameters and scattering dimensions, all bounds, all points", "why_tests_cant": "The points of a domain are unbounded in number and depend on the parameters; a test looks at the generated code for a few matrices.", "anchors": ["source/isl/domain.c:cloog_domain_from_cloog_matrix", "source/isl/domain.c:cloog_scattering_from_cloog_matrix", "source/isl/domain.c:isl_constraint_read_from_matrix", "source/isl/domain.c:cloog_domain_cube", "source/isl/domain.c:cloog_domain_from_bounds"]}
{"id": "C54", "title": "A loop is unrolled only into copies that cover it", "statement": "When cloog_domain_can_unroll answers yes with a lower bound and a trip count n, the domains cloog_domain_fixed_offset gives for the offsets 0 to n-1 have together exactly the points of the domain, no two share a point, and n is the smallest trip count over the usable lower bounds.", "quantifier": "all domains given by any constraints with any number of dimensions, parameters and existentially quantified variables, all levels, all parameter values", "why_tests_cant": "Lower bounds are parametric and rational; whether a point is lost depends on all constraints and parameter values.", "anchors": ["source/isl/domain.c:cloog_domain_can_unroll", "source/isl/domain.c:basic_set_can_unroll", "source/isl/domain.c:constraint_can_unroll", "source/isl/domain.c:is_valid_unrolling_lower_bound", "source/isl/domain.c:cloog_domain_fixed_offset"]}
{"id": "C55", "title": "Splitting for bounds cuts space into pieces in which merged loops are bounded", "statement": "cloog_domain_bound_splitter(dom, level) returns sets such that every combination of iterators and parameters is in exactly one of them; and when every part of dom has bounds for the iterator at level, the convex hull of the points of dom in one of the returned sets has linear lower and upper bounds for it.", "quantifier": "all domains (unions of any number of basic sets, with any constraints), all levels, all numbers of parameters, all values of iterators and parameters", "why_tests_cant": "Whether pieces overlap or leave gaps, and whether a convex hull is bounded, depends on the signs of all the parameters and on which constraints are met first; a test fixes a few domains and parameter values.", "anchors": ["source/isl/domain.c: cloog_domain_bound_splitter, basic_set_bound_split, constraint_bound_split", "source/loop.c: cloog_loop_merge"]}
{"id": "C56", "title": "The code is right for every value of the parameters", "statement": "The generator runs once, on domains with parameters: whatever values the parameters take (among those the context allows), the loops it returns, and the code created from them, run every instance of every statement exactly once. The polyhedral operations it calls (cloog_domain_union, _difference, _cut_first, _project, _extend, _convex, _simple_convex, _bound_splitter, _can_unroll, _fixed_offset, _simplify, ...) do what it expects of them when isl's own functions do what their documentation says.", "quantifier": "all numbers and values of the parameters, all domains, all inputs of the generator, all options but -strides and -stop", "why_tests_cant": "A test runs the generated code for a few parameter values; that splits, hulls and unrolled copies are valid for all of them is a statement about infinitely many programs.", "anchors": ["source/isl/domain.c: cloog_domain_cut_first, cloog_domain_isconvex, cloog_domain_convex, cloog_domain_simple_convex, cloog_domain_project, cloog_domain_extend, cloog_domain_union, cloog_domain_difference, cloog_domain_intersection, cloog_domain_bound_splitter, cloog_domain_can_unroll, cloog_domain_fixed_offset", "source/loop.c: cloog_loop_generate", "source/program.c: cloog_program_generate"]}
{"id": "C57", "title": "Callable code has no loop without bounds", "statement": "With -callable every loop of the generated program has a lower and an upper bound: a missing one is put 1000 away from the other one, both missing ones are -1000 and 1000. Nothing else changes: a program whose loops all have bounds is the same with and without -callable, and one that runs without it does the same with it. Without -callable bounds come from the constraints only.", "quantifier": "all loop structures, all constraints of the domains, all other options, all depths", "why_tests_cant": "Bounds are put together in two places (equalities turned into loops, ordinary loops) from constraints of any number and form; a test sees a few loops.", "anchors": ["source/clast.c: clast_for_bound, insert_for, insert_equation_as_loop", "include/cloog/options.h: callable"]}
{"id": "C58", "title": "Simplified modulo guards let the same iterations through", "statement": "Guards on remainders are simplified with the equalities of the enclosing loops: for outer iterators that satisfy those equalities, the simplified constraints have a solution for the guard's variable exactly when the constraints given have one, and the guard made from them says so.", "quantifier": "all constraints, all equalities of enclosing levels, all values of iterators and parameters", "why_tests_cant": "Whether a simplification relative to equalities is valid is a statement about all points satisfying them, and it depends on which equalities are used and on how the projected variable is brought back.", "anchors": ["source/isl/constraints.c: cloog_constraint_set_reduce, cloog_constraint_set_for_reduction, equality_to_basic_set", "source/clast.c: insert_modulo_guard, insert_modulo_guard_constraint"]}
{"id": "C59", "title": "Generated code can be built, copied and freed in any order without invalid access or leak", "statement": "As long as each node of generated code (clast) is passed on or freed only by its owner and only empty fields are written, every call of the node constructors, of the expression copy, of free_clast_expr, free_clast_stmt and cloog_clast_free and of the reference counting of name tables accesses allocated memory only. At every moment the allocated nodes are those the user owns, none is in two places, a copy reads like the original and shares no node with it, a table of names lives until its last holder (program or root of generated code) gives it up, each set, statement copy and number belongs to a node or the user, and when nothing is owned nothing is allocated.", "quantifier": "every history of calls that keeps the ownership rules, trees of any size and shape", "why_tests_cant": "tests run a few programs to the end and free in one order; the claim is about every history and every tree", "anchors": ["source/clast.c: new_clast_name, new_clast_term, new_clast_binary, new_clast_reduction, new_clast_root, new_clast_assignment, new_clast_user_stmt, new_clast_block, new_clast_for, new_clast_guard, free_clast_expr, free_clast_stmt, cloog_clast_free, clast_expr_copy", "source/names.c: cloog_names_malloc, cloog_names_copy, cloog_names_free"]}
{"id": "C60", "title": "The dump of a program is an input file for it", "statement": "cloog_program_dump_cloog writes an input file from which cloog_input_read obtains the same program: the language, the context, the iteration domains in order, the names of parameters, iterators and scattering dimensions, and the scattering relations when they are passed.", "quantifier": "all programs with any number of statements, domains, names and scatterings; both languages; every printer and reader of polyhedra that agree with each other", "why_tests_cant": "the set of programs and names is unbounded, and whether a line is swallowed by a comment or read as another item depends on what is printed before and after it", "anchors": ["source/program.c: cloog_program_dump_cloog", "source/isl/domain.c: cloog_domain_print_constraints, cloog_scattering_print_constraints", "source/input.c: cloog_input_read", "source/union_domain.c: cloog_union_domain_read", "source/names.c: cloog_names_read_strings"]}
{"id": "C61", "title": "The user is told about changed options and unusual inputs, and only then", "statement": "With -q, nothing but errors reaches the standard error output; without it, every warning and information is printed, in order. Unless -override is given, a run warns exactly when it uses another depth -l than the one asked for, and with -override it warns that nothing was changed. A warning about similar scatterings appears exactly when two of the scatterings read are recognised as equal. Setting up a program warns exactly when some statements have a scattering and others have none, and reports how many dimensions are scalar, how many statements were put in blocks, and how many of the scatterings applied are no functions, whenever these numbers are not zero. Messages do not change the result.", "quantifier": "all options, all numbers of scattering dimensions, all lists of statements with or without scatterings, all answers of the polyhedral library", "why_tests_cant": "the conditions are about all combinations of -l, -f and the number of dimensions and all positions in lists of any length; a test sees some combinations", "anchors": ["source/options.c: cloog_vmsg, cloog_msg, cloog_die", "source/program.c: cloog_program_generate, cloog_program_block, cloog_program_extract_scalars, cloog_program_scatter", "source/union_domain.c: cloog_union_domain_read", "source/isl/domain.c: cloog_scattering_list_lazy_same, cloog_scattering_fully_specified"]}
{"id": "C62", "title": "Coefficients are read and written where the polyhedral library has them", "statement": "Every iterator, existentially quantified variable and parameter of a constraint has exactly one number below the total dimension, in this order, and there are no other numbers. Reading the coefficient of a number gives the column of that dimension; writing one changes this column and nothing else; copying a constraint gives all columns and then the constant. Whether a constraint involves a variable or bounds it from below or above is decided by that column, and is false for numbers that are no dimension. The variable named for a level is the one whose coordinate the column multiplies. So the rows from which code is made have the same value as isl's constraint at every point.", "quantifier": "all constraints with any numbers of iterators, quantified variables and parameters, all dimensions and all values", "why_tests_cant": "the numbering depends on three counts, and a mistake in one of them shows only for constraints with quantified variables or parameters; the property is about all counts and all positions", "anchors": ["source/isl/constraints.c: constraint_cloog_dim_to_isl_dim, basic_set_cloog_dim_to_isl_dim, cloog_constraint_coefficient_get, cloog_constraint_coefficient_get_val, cloog_constraint_coefficient_set, cloog_constraint_copy_coefficients, cloog_constraint_total_dimension, cloog_constraint_variable_expr, cloog_constraint_involves, cloog_constraint_is_lower_bound, cloog_constraint_is_upper_bound, cloog_constraint_needs_reduction"]}
{"id": "C63", "title": "With rows as constraints, every constraint is visited once and dropped ones are not found", "statement": "In the back end for PolyLib's format, going through the constraints of a set calls the given function once for each constraint, in order, until it returns a negative number, which gives -1; changes go to the constraint that was passed and constraints after a stop stay as they were. The accessors read and write the coefficient of the given dimension and nothing else, and a copy has all coefficients and the constant. After a constraint is dropped, the other constraints are unchanged and every search for a defining equality, for a pair of defining inequalities or for constraints with a dimension gives what it gives for the set without that constraint.", "quantifier": "all lists of rows, all functions and user data, all rows of any length, all dimensions and levels, all positions of the dropped row", "why_tests_cant": "the callback is arbitrary and sets have any number of rows; off-by-one errors at the ends of a row or of the set show only for particular shapes", "anchors": ["source/matrix/constraintset.c: cloog_constraint_set_foreach_constraint, cloog_constraint_first, cloog_constraint_next, cloog_constraint_coefficient_get, cloog_constraint_coefficient_set, cloog_constraint_constant_get, cloog_constraint_copy_coefficients, cloog_constraint_clear, cloog_constraint_set_drop_constraint, cloog_constraint_set_defining_equality, cloog_constraint_set_defining_inequalities"]}
{"id": "C64", "title": "Integers pass between CLooG and isl unchanged", "statement": "An integer handed to isl is the integer isl gets, and an integer read from isl (a coefficient, a constant, a stride) is the integer isl has, for every configuration of the two integer types; values that are no integers are never read.", "quantifier": "all integers and all values of isl, all configurations of CLooG's integers (int, long, long long, GMP with isl using GMP or not)", "why_tests_cant": "the conversions differ per configuration and go wrong only for large values, of which there are infinitely many", "anchors": ["source/isl/constraints.c: cloog_int_to_isl_val, isl_val_to_cloog_int"]}
{"id": "C65", "title": "Lists of loops are joined, extended, filtered and reordered without losing a loop", "statement": "Joining two lists of loops that share no loop gives one list with all loops of the first and then all of the second, and no other loop changes its successor. Adding a loop or a list at the end keeps what is there and puts the new loops behind it. Adding the loops of a list one by one appends this list. Sorting links the loops in exactly the order found, whatever they pointed to before. Removing loops keeps the others in their order and frees exactly the removed ones; picking loops gives the list in the order picked; sorting by scalar dimensions in place gives the order of the bubble sort on lists. Counting gives the number of loops, and an array of that size takes all of them. Combining neighbours with the same domain keeps all their inner loops in order and frees exactly the loops absorbed. All these walks end.", "quantifier": "all memories and all lists of loops of any length in them", "why_tests_cant": "lists and the other contents of memory are unbounded; a lost or shared successor shows only for particular shapes", "anchors": ["source/loop.c: cloog_loop_add, cloog_loop_add_list, cloog_loop_concat, cloog_loop_sort, cloog_loop_generate_backtrack, cloog_loop_remove_empty_domain_loops, cloog_loop_restrict_inner, extract_component, cloog_loop_scalar_sort, cloog_loop_count, cloog_loop_combine"]}
