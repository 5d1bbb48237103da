{
 "C23": {
  "status": "proved",
  "note": "For the fixed-width builds, under the explicit no-intermediate-overflow precondition; the precondition is shown necessary by C23_fdiv_q_overflow_refuted."
 },
 "C24": {
  "status": "partial",
  "note": "Comparison by subtraction is right on the half range; refuted on the full range (signed overflow)."
 },
 "C25": {
  "status": "proved",
  "note": "Vector helpers over exact integers."
 },
 "C07": {
  "status": "proved",
  "note": "Under acyclicity of the pairwise comparisons (necessary: see C08_sort_terminates_refuted); the comparison itself (isl) is a parameter."
 },
 "C08": {
  "status": "partial",
  "note": "Terminates within n*n iterations when the comparisons are acyclic; refuted in general by four disjoint interlocking segments."
 },
 "C09": {
  "status": "proved",
  "note": "For an arbitrary follows relation."
 },
 "C01": {
  "status": "proved",
  "note": "For every library obeying LoopSpec.Laws, without -stop / -first-unroll / -strides, whenever generation returns a result; inputs must satisfy depth_order, whose necessity is C03_statement_lost_refuted. With -strides: C01_instances_exactly_once_strides_partial (loops with strides must not be combined, see C12). From statements with scatterings to generated loops: C01_program_instances_exactly_once (every iteration has one date)."
 },
 "C02": {
  "status": "partial",
  "note": "Proved for libraries obeying OrderLaws (comparisons of convex sets decide the order); refuted without: C02_order_refuted (crossing integer-disjoint sets). From statements with scatterings to generated loops: C02_program_order_partial (without blocks or without scalar extraction; with both see C34). Without scatterings: C02_lexicographic_without_scattering (-f 1 and -l negative or at least the number of iterators); with -f -1 the lexicographic order is lost (C02_unscattered_no_separation_refuted)."
 },
 "C03": {
  "status": "partial",
  "note": "Proved when statements with equal scalar dates come deeper first; refuted in general by C03_statement_lost_refuted (a shallower statement before a deeper one with the same scalar dates)."
 },
 "C04": {
  "status": "proved",
  "note": "separate, for every library obeying Laws."
 },
 "C05": {
  "status": "proved",
  "note": "merge and constant levels; order through C05_merge_order (OrderLaws)."
 },
 "C06": {
  "status": "partial",
  "note": "Instances and order kept for convex loops (the generator's output); refuted for non-convex loops given by a user: C06_order_nonconvex_refuted."
 },
 "C10": {
  "status": "proved",
  "note": ""
 },
 "C12": {
  "status": "partial",
  "note": "C12_strided_loop_partial: the generated strided loop visits exactly the stride values (constant offset, constant lower bounds). C12_lower_bound_alignment: the aligned bound, constant or affine offset. C12_stride_common_to_inner_domains: the stride found holds in every inner domain. C12_combine_loses_stride_refuted: combining adjacent loops drops a stride. C12_aligned_domain, C12_aligned_start: the same down to the constraints of a domain (cloog_domain_stride_lower_bound), constant or affine offset: it keeps every point on the stride, adds none, and its bounds start on the stride. C12_can_stride: strides are looked for exactly when no lower bound has an existentially quantified variable; C12_start_when_allowed: then the points of every aligned basic set start at the least value on the stride above all its lower bounds. C12_aligned_same_points: a stride that comes from an equality of the domain, or from a constant offset, leaves the points as they are. Missing: statement generation for affine offsets."
 },
 "C28": {
  "status": "proved",
  "note": "Together with C02_scattering_order; without sanitising (-override) the order fails: C28_override_refuted."
 },
 "C36": {
  "status": "proved",
  "note": "One unrolled loop over a convex set (the only ones the generator unrolls) whose body is a list of statements. That the library answers as assumed here is C54."
 },
 "C37": {
  "status": "partial",
  "note": "C37_stop_program_partial: the whole generator with -stop alone (no -l/-ls/-strides/-backtrack): every statement is inside stop_depth loops (or all its own), its block runs there at most once for each loop it came in with, and every instance is inside an iteration where its block runs. C37_stop_depth says what the depth is. C37_stop_and_l_refuted: with -l at most the stop depth, loops below the stop depth are generated. C37_stop_partial: cloog_loop_stop by itself, exactly. Missing: order of the truncated scan, -stop with -strides or -backtrack. That a block runs only where it has an instance is not claimed: merged loops (constant levels, -f) run it on the whole merged domain."
 },
 "C13": {
  "status": "proved",
  "note": "Constraints without existential dimensions."
 },
 "C14": {
  "status": "proved",
  "note": "Constraints without existential dimensions (for these see C49); the order in which qsort leaves conditions is any permutation."
 },
 "C15": {
  "status": "partial",
  "note": "Exact with -otl 1 (default), for any reduction of the modulo guard satisfying reduce_right; refuted with -otl 0: C15_otl0_refuted (truncated bounds, no modulo guard)."
 },
 "C16": {
  "status": "proved",
  "note": "For loop structures satisfying ClastSpec.ready0 (domains given exactly by their constraints, constant strides, bounded loops; existential dimensions only in remainder conditions, of which some point lies on the strides of the enclosing loops); C16_generated_code composes it with C01 and C02."
 },
 "C17": {
  "status": "partial",
  "note": "Equality is an equivalence, implies equal values, comparison antisymmetric; transitivity refuted on the conditions of a realistic guard (C17_transitivity_refuted), proved for expressions without one-operand min/max, which covers the bounds sorted inside one min or max."
 },
 "C18": {
  "status": "proved",
  "note": ""
 },
 "C42": {
  "status": "proved",
  "note": "Without existential dimensions (their modulo conditions are put in guards of their own)."
 },
 "C19": {
  "status": "proved",
  "note": "Exact integers (no overflow of the C program). The macro texts of print_macros are lexed and parsed by an independent reader."
 },
 "C20": {
  "status": "partial",
  "note": "C text only (for Fortran see C48). Round trip for every printable expression and program; what cloog_clast_create makes is printable except for bounds on remainders (levels or existential dimensions fixed by two inequalities, see C21). Refuted for arbitrary hand-built trees: C20_any_expression_refuted. C20_generated_text_runs goes from statement domains to the calls of the printed program."
 },
 "C21": {
  "status": "partial",
  "note": "C. Congruences (== 0) exact for all dividends; bounds (<= b) exact for non-negative dividends and refuted for negative ones on a generated program (C21_residue_bound_refuted). Fortran MOD text is not read back."
 },
 "C22": {
  "status": "partial",
  "note": "Refuted for strides above 1: C22_stride_refuted; right for unit strides."
 },
 "C11": {
  "status": "proved",
  "note": "For every library whose scattering operations obey ScatLaws; statements whose scattering has fewer dimensions than the first one are outside (cloog_program_scatter rejects them)."
 },
 "C34": {
  "status": "partial",
  "note": "Blocks are consecutive statements and every statement runs exactly on its own domain (C01_program_instances_exactly_once, no condition on blocks). Order: kept by cloog_program_block always, by cloog_loop_block when no two iterations of a statement share a date and no remaining scattering dimension is constant for a statement; both conditions are needed: C34_equal_domains_refuted, C34_constant_dimension_refuted."
 },
 "C33": {
  "status": "proved",
  "note": "Acceptance exactly characterised, contents after any accepted history."
 },
 "C26": {
  "status": "partial",
  "note": "Extended gcd: proved for all integers. Residue class: proved when the iterator's coefficient and the stride have no common factor (C26_stride_is_residue_class_partial); refuted otherwise (C26_stride_offset_refuted: 2i - j + 8e = 0). cloog_domain_stride's offset: proved."
 },
 "C35": {
  "status": "partial",
  "note": "Soundness proved for all trees; completeness proved for trees without assignments and blocks on the paths (C35_filter_partial); refuted otherwise: clast_filter has no case for clast_assignment and clast_block (C35_after_assignment_refuted, C35_inside_block_refuted)."
 },
 "C29": {
  "status": "partial",
  "note": "Distinct for at most 28 parameters and 228 iterators, identifiers for at most 14 and 18; both refuted beyond (C29_names_collide_refuted, C29_names_are_identifiers_refuted)."
 },
 "C30": {
  "status": "proved",
  "note": ""
 },
 "C43": {
  "status": "partial",
  "note": "Proved when every statement has a scattering; refuted when only some have (C43_partial_scattering_refuted)."
 },
 "C27": {
  "status": "partial",
  "note": "Last occurrence wins and defaults proved for well-formed values; malformed values are accepted (C27_malformed_numbers_refuted) and the documented default of -esp is wrong (C27_documented_default_refuted)."
 },
 "C31": {
  "status": "proved",
  "note": "Statements, blocks, block lists, strides and loops, for every history that keeps the ownership rules of HeapSpec.user; C31_self_merge_refuted shows why a block must not be merged with itself. Domains, names and constraints inside these structures are not modelled."
 },
 "C32": {
  "status": "partial",
  "note": "Proved for the statement, block and loop counters. The domain counters are never updated by the code (only initialised in state.c:28-30 and printed in cloog.c:66-67), so for domains the claim fails; domains are not in the model."
 },
 "C38": {
  "status": "proved",
  "note": "For rows long enough for their columns, and equalities recorded with increasing levels and removed in reverse order (what insert_loop does). Also the kinds of equalities, the bound taken by a loop that runs once (only when the inequality is about that iterator alone: C38_once_refuted) and the reduction of modulo guards."
 },
 "C39": {
  "status": "proved",
  "note": "Array back end: C39_rows. isl back end as used by the clast generator: C39_assigned (isl's own search is replaced by its documented result)."
 },
 "C40": {
  "status": "partial",
  "note": "When no coefficient or constant of the quotient has a factor in common with its denominator. As soon as an iterator's coefficient has one, the expression built by the code is wrong for some values: C40_common_factor_refuted."
 },
 "C41": {
  "status": "partial",
  "note": "For lines that fit in the buffer of 1024 characters and at least one column. A matrix with rows but no columns and a matrix with a longer line are not read back: C41_no_columns_refuted, C41_long_line_refuted."
 },
 "C44": {
  "status": "partial",
  "note": "For polyhedra that isl reads back from what it printed (a hypothesis per polyhedron, shown for the matrix format), names that are all given or not of each kind, fit their buffers and are words, and scatterings for all statements or none. Statement names are not in the file. Outside of that the file loses scatterings, cannot be written, or is read differently: the C44_..._refuted theorems."
 },
 "C45": {
  "status": "partial",
  "note": "Needs laws of the polyhedral library on top of those of C01: exact emptiness, difference in disjoint parts, and comparisons of disjoint convex sets that have no cycle. Without the last one the sort does not return (C08_sort_terminates_refuted). Options -stop and unrolling from level 0 are left out, and for the whole program also -strides."
 },
 "C46": {
  "status": "partial",
  "note": "For names that are identifiers, that do not clash with each other or with what the file itself defines, and a first line that does not end the comment. Integers of the C program are unbounded. With -compilable, statements that have names are called by these names but get no macros (C46_named_statements_refuted), and together with -callable an empty program uses an undefined macro (C46_empty_program_refuted); an input file name with a closing comment in it breaks the file (C46_file_name_refuted). C46_generated_compilable and C46_generated_callable go from the input statements to the output of the printed program; they are for programs without -strides whose loops are ready for statement generation (ready0: exact rows, no loop is unbounded)."
 },
 "C47": {
  "status": "partial",
  "note": "Union maps: in full. Sets: iterator names are distinct when no given name is another one followed by an underscore and a number and no dimension has the default name of an earlier unnamed one; otherwise they can coincide (C47_names_distinct_refuted). A name that starts the name of a parameter or of an earlier dimension is changed (C47_names_kept_refuted)."
 },
 "C48": {
  "status": "partial",
  "note": "Proved for programs generated without -strides, -block and -callable, with names of at most 31 characters that stay different without their case and are no C keywords, all lines at most 132 characters long, and runs in which every floor or ceiling is taken of a quotient x/d with |x|+d <= 2^24 (no restriction without floors and ceilings: C48_small_is_exact). Reals have 24 bits and no overflow; integers are unbounded. Refuted without these conditions: C48_block_refuted (braces), C48_large_quotient_refuted, C48_case_refuted, C48_long_line_refuted, and C22_stride_refuted for -strides."
 },
 "C49": {
  "status": "partial",
  "note": "For conditions that some point on the strides of the enclosing loops satisfies; without that the code can drop a false condition and keep its body (C49_unsatisfiable_refuted, on a loop structure written down by hand: the loop generator would normally have removed that statement). Constraints with two existential dimensions, or with quotients, are left out of the model."
 },
 "C50": {
  "status": "partial",
  "note": "For input files in C with a scattering for every statement, or for none (C50_*_unscattered_partial: then the order is lexicographic), and no statement names, commands without -strides, -override, -f 0, -stop, -leaks and -structure, whose loops are ready for statement generation (writable_loops: the rows of a domain describe it exactly, no loop is unbounded, no constraint pair hides an equality), names that fit into the file (names_fit) and, for the order with blocks, the conditions of C34. The readers of domains, contexts and scatterings are parameters (isl). That a text is written at all (C50_command_answers_partial, C50_unscattered_answers_partial) needs moreover what C45 and C51 need: isl's answers are exact, scatterings of one dimension, names that can be made up, loops without hidden equalities."
 },
 "C51": {
  "status": "partial",
  "note": "For loops with linear bounds (ready0, as in C16) in which each existential dimension occurs in one equality or one pair of opposite inequalities, and no two bounds always leave exactly one value (isl should have found the equality, constraints.c:414-416). Without the last condition it is false of the model: an aligned lower bound can equal the upper bound (C51_aligned_bound_refuted, on a loop structure written down by hand; not shown to come out of the loop generator)."
 },
 "C52": {
  "status": "partial",
  "note": "For calls that give a scattering to every statement, or to none; same conditions on options, loops and names as C50 (writable_loops, names_fit, C34's conditions for the order with blocks), no -callable for the text, statement names that are identifiers and none of floord, ceild, max, min. That a code tree comes out at all is C52_library_answers_partial and C52_unscattered_answers_partial, with the conditions of C45 and C51. Freeing is C31 and C32."
 },
 "C53": {
  "status": "partial",
  "note": "Domains, cubes and bounds: proved for all matrices and bounds. Scatterings: false (C53_scattering_refuted): the number of columns is taken from the output dimensions only, so the scattering dimensions never get a coefficient (C53_scattering_unconstrained) and the others get the wrong columns; right only without scattering dimensions (C53_scattering_partial). Reading sets from text (isl_set_read_from_file) is in isl and not modelled."
 },
 "C54": {
  "status": "partial",
  "note": "Proved for domains of one basic set (C54_unroll_exact, C54_trip_count, C54_answer). For unions the answer is no when the first basic set has a usable bound (C54_union_partial); when only a later one has, the answer is yes and points can be lost (C54_union_refuted). The generator only unrolls convex domains, so this is not reached from it. Of isl it is assumed that removing redundant constraints keeps the points and that isl_set_max_val returns an upper bound (for the last clause: the maximum)."
 },
 "C55": {
  "status": "partial",
  "note": "C55_pieces: exactly one piece for every point, for all domains. C55_hull_bounded_partial: the hull is bounded in every piece when the bounds of the basic sets depend on the parameters only. With bounds in terms of outer iterators it need not be: C55_outer_bounds_refuted (the code splits parameters only)."
 },
 "C56": {
  "status": "partial",
  "note": "C56_right_for_all_parameters (the loops) and C56_code_right_for_all_parameters (the code made from them by clast.c, executed): for all domains and parameters, from facts about isl's own functions (BackendSpec.IslLaws), which a small library of constraint systems with parameters meets (BackendSets.v). Without -strides and -stop; -sh needs that simple hulls stay in the polyhedron. For the code: the conditions of BackendCode.writable0 on the generated loops (no parameter values in them). Missing: the same for strides, and for the order of the instances (OrderLaws is not derived from isl's functions)."
 },
 "C57": {
  "status": "proved",
  "note": "C57_callable_closes compares the trees made with and without -callable, for all loop structures and options; C57_bounded_code_unchanged: what runs without it does the same with it."
 },
 "C58": {
  "status": "partial",
  "note": "C58_reduction_same_guard: the reduced constraints are solvable for the same outer iterators, given what isl documents for projecting, gist and adding an equality (ReduceSpec.GistOk, met by ReduceSets.v). C58_reduction_usable: with a result of the form the caller handles, it is what C16 asks of the reduction. The guard made from the result is wrong when the simplification finds that a pair of inequalities is an equality (C58_equality_found_refuted, for an isl that meets the laws; not observed with the real one). C58_code_right_with_reduction: whole generated programs, their guards reduced this way, run every instance as often as asked, for all parameter values (under the same conditions)."
 },
 "C59": {
  "status": "proved",
  "note": "Histories of all constructors, the copy, writes into empty fields and all destructors. Not modelled: the four strings a client may set in a for node, sorting the elements of a reduction or guard, and shrinking n. That the generator itself keeps the rules is not shown."
 },
 "C60": {
  "status": "partial",
  "note": "Proved: dumps without scatterings, and dumps with scatterings whose first one isl can read without the first line of its text, are read back as the same program, if isl reads its polyhedra back, the names are words of less than 50 characters that fit on a line, one for each dimension, and there is a statement. Missing, because false: a program without statements (C60_no_statement_refuted), and scatterings whose first text needs its first line, which the dump prints behind a comment (C60_first_line_refuted)."
 },
 "C61": {
  "status": "proved",
  "note": "C61_quiet: with -q no warning or information is printed, errors always. C61_depth_change_is_announced: one warning if and only if the depth -l is changed. C61_similar_scatterings: exactly when isl finds two equal ones. C61_setup_messages: the warning about missing scatterings and the numbers of scalar dimensions, of blocked statements and of applied scatterings that are no functions (isl's answer) are right, and setting up a program is not changed by them. C61_few_constraints_as_given: the last number in terms of the input, without blocks and scalar extraction. Left out: the message about allocation counters (C32), OpenScop, and gettimeofday."
 },
 "C62": {
  "status": "proved",
  "note": "C62_numbers: the numbers below the total dimension are the dimensions of isl, each once. C62_coefficients: reading, writing and copying. C62_rows: the rows of the code generator (C15, C16, C56) are what these functions read, and have the value of the constraint at every point. C62_variables: the name printed for a level has the value of its coordinate (for quantified variables: which quotient is printed; its value is C40). Sharing of constraints inside isl and negative numbers are not modelled."
 },
 "C63": {
  "status": "proved",
  "note": "C63_every_row_once, C63_rows_seen: the traversal. C63_columns: the accessors. C63_dropped_rows_are_not_found: the searches by level. A dropped row keeps its kind and constant, so that the set is no description of the points any more (0 = 3 in C63_example). The only callers of the drop, in clast.c:1013-1025, ask for dimensions between iterators and parameters, which this back end does not have."
 },
 "C64": {
  "status": "partial",
  "note": "Proved: for all integers with GMP (C64_same_integer_gmp), and for all integers that CLooG's type can hold in every configuration (C64_same_integer_partial); values that are no integers are refused by the assertion (C64_no_fractions). Missing, because false: without GMP every integer of isl that does not fit is read as another one (C64_same_integer_refuted)."
 },
 "C65": {
  "status": "proved",
  "note": "C65_concat, C65_add, C65_build, C65_add_each, C65_rebuild, C65_filter, C65_extract, C65_sort_in_place, C65_count, C65_combine and C65_sort, over a memory with the field next of every loop. They justify the lists of LoopModel at these places; that the generator calls them with lists that share no loop is not shown. cloog_loop_add leaves now at the first of the loops added, so that a second one in the added list is lost by the next addition (C65_example); most calls in loop.c add a single loop or walk the list, but loop.c:2077 may add several at once, which is how C03_statement_lost_refuted loses a statement."
 }
}