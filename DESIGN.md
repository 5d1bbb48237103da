# Formal model of CLooG (periscop/cloog) in Rocq

## What the code is

CLooG takes statement domains (unions of polyhedra), optional scattering functions and
a context, and produces code that scans every integer point of every domain in the
lexicographic order of the scattering.  The pipeline is

    input / union_domain -> program (names, blocks, scalar extraction, scattering)
      -> loop.c   (separation, components, sort, recursion, strides, unrolling, simplify)
      -> clast.c  (guards, bounds, assignments, user statements)
      -> pprint.c (C / Fortran text)

All polyhedral computation is delegated to isl through `source/isl/domain.c` and
`source/isl/constraints.c`.

## How it is modelled

* Pure total Gallina functions, one per C function, each with a comment that cites the
  file and the lines it models and says what is simplified.  Linked lists become lists,
  in-place updates become returned values, loops become structural recursion, folds, or
  fuel with an explicit `None`.  `None` is also the outcome of a failed assertion, of
  `cloog_die` and of the accesses that are undefined in C (NULL, out of bounds, freed).
  Every theorem that says something about a result says it of `Some r`; where running out
  of fuel or failing matters, there is a separate theorem that it does not happen
  (`C45`, `C16`: `ClastTotal.v`, `C42_guard_fits`, `C08_sort_terminates_partial`,
  `C31_no_invalid_access`).
* Memory: only blocks, statements, lists, strides and loops have a heap model
  (`HeapModel.v`); everywhere else a value is a value.
* isl is a record of operations (`LoopModel.Poly`, `ProgramModel.Scat`) and its documented
  behaviour is a record of laws (`LoopSpec.Laws`, `OrderLaws`, `StrideLaws`, `ClastSpec.otl_sound`,
  `ProgramSpec.ScatLaws` ...).  The laws are *hypotheses in the theorem statements*, never
  axioms.  They are met by two concrete libraries written here, finite point sets with
  boxes as convex sets (`LoopBox.v`, `ProgramBox.v`, `StrideBox.v`) and cubes
  (`LoopCube.v`), and every theorem is followed by an example on such a library, so none
  is vacuous.  Some of the laws are about code of cloog that calls isl (isl/domain.c), and are proved
  for models of that code one level down, on constraints: `L_unroll_range`, `L_fixed` (C54),
  `L_splitter`, `L_splitter_disj` (C55), `SL_lb` (C12_aligned_domain), `SL_dom` (C26_domain_stride_offset).
  C56 derives all of `LoopSpec.Laws` from `BackendSpec.IslLaws`, which is only about isl's own functions, for
  every value of the parameters; `OrderLaws` and `StrideLaws` are not derived.  The law that a hull stays in a
  convex set is asked only of convex sets that are polyhedra (`polyh`: no existentially quantified variables),
  as it is false for sets such as the even numbers.
* Each area has four kinds of files: `XModel.v` (the code), `XSpec.v` (what the English
  property means, without reference to the code), proofs, and `PropertiesX.v` (the
  theorems named `Cnn_...`, each followed by `Print Assumptions` and an example).
* Specifications: executing a loop structure is an inductive relation with explicit
  times (`LoopSpec.Exec`); clast programs have a relational semantics (`ClastSpec`); printed
  C is given back to an independent lexer, precedence parser and evaluator (`CReader.v`)
  which knows nothing about the printer; whole C files are given to `FileReader.v`, which adds
  directives, macros, declarations and `printf` (macros are replaced as trees, which is what
  replacing text gives for macros with parenthesised parameters); input files are given
  back to the modelled readers.

## Trusted base

* Coq 8.16.1's kernel (`coqc`; `vm_compute` is used in examples and in the proofs of some
  `_refuted` theorems, so the kernel's virtual machine is included).
* `Print Assumptions` of every theorem named in `MANIFEST.json` says "Closed under the
  global context": no axiom of the standard library or of any other library is used by
  any of them.  (Some files load `Coq.ssr.ssrunder` through the standard library, whose seven
  opaque constants `Under_rel.*` the checker lists as loaded.  No theorem depends on them.)
* The reading of the C code in the `*Model.v` files.  It was done by hand from the text;
  nothing was executed.
* The reading of isl's and libc's documented behaviour in the law records and in these
  models: `strtol`, `atoi`, `sscanf`, `fgets`, `getc` on character lists (`TextModel.v`,
  `OptionsModel.v`), `qsort` as any permutation that is sorted if the comparison is a total
  order (`ClastModel.v`), C's truncating `/` and `%` (`CReader.v`, `IntModel.v`), unbounded
  integers for GMP and two's complement ranges for the fixed-width builds (`IntModel.v`).
* `tools/` (the scripts that write `MANIFEST.json` and run the seeded edits) is not trusted
  for any proof.

## What is modelled, property by property

The theorem names and the exact extent of each are in `MANIFEST.json`; status `partial`
means that the full English statement is false of the code and a `_refuted` theorem shows
it, or that the note says what is missing.

| id | code | files | how it is proved |
|----|------|-------|------------------|
| C01 C02 C03 C05 | loop.c: separate, merge, constant, sort, nest, project, disjoint, restrict, recurse, backtrack, generate_general / scalar / components / restricted / restricted_or_stop / generate, simplify; program.c: generate | LoopModel, LoopSpec, LoopLists, LoopCount, LoopKeys, LoopOrder, LoopGen, LoopMain, LoopBridge, LoopFun, LoopBox, LoopCube, PropertiesLoop, PropertiesPlain (no scattering) | the number of executions of an instance is invariant under every pass; the order follows from keys attached to every time; induction on fuel |
| C04 | add_disjoint, disjoint, separate | LoopCount, PropertiesLoop | induction over the list with the set laws |
| C06 | loop_simplify | LoopSimplify | induction over trees, gist law |
| C07 C08 C09 | isl/domain.c domain_sort; loop.c Tarjan | SortModel, DomainSortProofs, TarjanProofs, PropertiesSort | transitive closure invariant, progress from acyclicity; invariant of Tarjan's algorithm |
| C10 | scalar_gt, scalar_sort | LoopLists, PropertiesLoop | inversions, stability |
| C11 C34 C43 | program.c: program_alloc (blocks), block, extract_scalars, scatter; loop.c: scalar tests, loop_block; isl/domain.c: lazy_block | ProgramModel, ProgramSpec, ProgramScalars, ProgramBlock, ProgramLoopBlock, ProgramMain, ProgramBox, PropertiesProgram | dates of instances invariant under each pass |
| C12 C26 | isl/domain.c: stride, can_stride, stride_lower_bound, Euclid, construct_stride; loop_stride; matrix stride code | StrideModel, StrideProofs, StrideBox, PropertiesStride, ClastHeader; for the constraints of a domain StrideLowerModel, PropertiesStrideLower | number theory on Z |
| C13 C14 C15 C16 C18 C39 C42 | clast.c: bounds, minmax, guards, equations, modulo guards, user statements, insert_loop, clast_create; isl/constraints.c | ClastModel, ClastSpec, ClastBounds, ClastGuards, ClastModulo, ClastHeader, ClastMain, ClastTotal, ClastReady, ClastEnd, PropertiesClast | exactness of each bound and guard; induction on the loop tree |
| C49 | clast.c: insert_extra_modulo_guards, insert_guard with existential dimensions; isl/constraints.c: drop_constraint | ClastModel, ClastDivs, ClastMain, PropertiesClast | the constraints of each dimension have a solution exactly when the remainder condition holds, given the strides of the enclosing loops; the rest by C14 |
| C50 | cloog.c: main, and with it options.c, input.c, names.c, program.c, loop.c, clast.c, pprint.c as in C02, C34, C36, C42, C44, C46 | ToolModel, ToolSpec, ToolProofs, ToolPlain, ToolTotal, LoopFuel, PropertiesTool, PropertiesPlain, PropertiesAnswer | composition of C01/C02/C34 (iterations and order), C20 (syntax tree) and C46 (text), with the numbering of statements and names carried through; that it ends: C45 and C51, and the names split at the scalar dimensions (ToolTotal); more fuel never changes a result (LoopFuel) |
| C51 | clast.c: cloog_clast_create and what it calls (as in C16, C49); isl/constraints.c: cloog_equal_add | ClastModel, ClastSpec (clear), ClastReturns, PropertiesReturns | induction over the loops: each step that can stop (guards, bounds, the equality of a degenerate loop) is shown to find what it asserts |
| C52 | union_domain.c: alloc, add_domain, set_name; clast.c: cloog_clast_create_from_input; program.c: names and pointers of statements; pprint.c: clast_pprint | LibraryModel, LibrarySpec (what was asked for), ToolProofs/ToolPlain (api_history), ToolTotal, PropertiesLibrary | composition of C33 (what the calls leave), C01/C02/C34, C16, C20; termination from C45 and C51 |
| C53 | isl/domain.c: isl_constraint_read_from_matrix, isl_basic_set_read_from_matrix, isl_basic_map_read_from_matrix, cloog_domain_from_cloog_matrix, cloog_scattering_from_cloog_matrix, cloog_domain_cube, cloog_domain_from_bounds | ImportModel, ImportSpec (meaning of rows and of isl constraints), PropertiesImport | column by column equality of the scalar products; induction on rows and dimensions |
| C54 | isl/domain.c: is_valid_unrolling_lower_bound, constraint_can_unroll, basic_set_can_unroll, cloog_domain_can_unroll, cloog_domain_fixed_offset | UnrollModel (isl_basic_set_remove_redundancies and isl_set_max_val are parameters), UnrollSpec, PropertiesUnroll | invariant of the loop over the constraints (smallest usable count so far); ceiling of the bound through the variable added for it |
| C55 | isl/domain.c: constraint_bound_split, basic_set_bound_split, cloog_domain_bound_splitter | SplitModel, SplitSpec (convex hulls, bounds), PropertiesSplit | induction on the splits (each point in one piece, each parameter of a taken bound of one sign in every piece); then one linear bound for all basic sets, which holds for weighted means |
| C56 | isl/domain.c: the cloog_domain_* functions the generator calls | BackendModel (isl's functions are a record), BackendSpec (IslLaws: what isl documents, for all parameter values), BackendSets (a library meeting them), PropertiesBackend; BackendCode (cloog_domain_constraints, when the loops can be written as code), PropertiesBackendCode | the laws of LoopSpec are derived from those of isl's functions for each value of the parameters; then C01; for the code, the conditions of C16 are derived from ones without parameter values |
| C57 | clast.c: clast_for_bound and its two callers | ClastModel, ClosedSpec, PropertiesClosed | induction on the loops: the two runs of cloog_clast_create return trees that differ in missing bounds only |
| C58 | isl/constraints.c: cloog_constraint_set_reduce | ReduceModel (isl's functions are a record), ReduceSpec (what they do), ReduceSets (a library meeting it), PropertiesReduce, PropertiesReduceCode | translate constraints to basic sets and back; the projected dimension is free in the simplified set, so it can be tied to the quantified variable |
| C59 | clast.c: constructors and destructors of nodes, clast_expr_copy; names.c: reference counts | TreeHeapModel, TreeHeapSpec (who owns what), TreeHeapOwn (each primitive as a change of a multiset of owned items), TreeHeapProofs, TreeHeapInv, PropertiesTreeHeap | invariant of all histories: memory is the multiset of the nodes of the owned trees; induction on trees for freeing, copying and filling a field |
| C60 | program.c: cloog_program_dump_cloog; the reader of C44 | PDumpModel, PDumpSpec, PDumpProofs, PropertiesPDump | the printed text is decomposed into lines the reader skips and lines it reads; induction on statements and scatterings |
| C61 | options.c: cloog_vmsg, cloog_msg; the calls in program.c and union_domain.c; isl/domain.c: cloog_scattering_list_lazy_same | MessageModel (the functions of ProgramModel and LoopModel with the counters that only messages use), PropertiesMessage | refinement of the functions without messages; counters against lengths |
| C62 | isl/constraints.c: numbering of dimensions, coefficients, copies, bounds | ColumnModel over UnrollModel's constraints, PropertiesColumn | counting, lists; agreement with the rows of ClastModel |
| C63 | matrix/constraintset.c: traversal, accessors of one row, dropping a row | RowWalkModel over RowModel's rows, PropertiesRowWalk | induction on the rows visited; look-ups skip rows with coefficient 0 |
| C64 | isl/constraints.c: cloog_int_to_isl_val, isl_val_to_cloog_int | ConvertModel (the five configurations; isl's getters as documented, decimal strings), PropertiesConvert | arithmetic; reading back decimal strings (standard library) |
| C65 | loop.c: cloog_loop_add, cloog_loop_add_list, cloog_loop_concat, the linking loops of cloog_loop_sort and cloog_loop_generate_backtrack, cloog_loop_remove_empty_domain_loops, extract_component, cloog_loop_scalar_sort, cloog_loop_count, cloog_loop_combine | ChainModel (a memory of successors), SlotModel (pointers to pointers), CombineModel (successors and inner lists), PropertiesChain, PropertiesSlot, PropertiesCombine | lists of cells as an inductive predicate, frame lemmas, induction on the list |
| C17 | clast.c: expression and guard comparisons | ClastCmp | induction on expressions |
| C19 C20 C21 C22 | pprint.c; program.c: print_macros | PprintModel, CReader, PprintSpec, PprintLex, PprintParse, PprintExpr, PprintStmt, ClastPrint, PprintEnd, PropertiesPprint | round trip by induction on trees |
| C23 C24 C25 | int.c, int.h | IntModel, IntProofs, PropertiesInt | lia / nia |
| C27 C28 | options.c | OptionsModel, OptionsSpec, OptionsProofs, PropertiesOptions | induction on the command line |
| C29 C30 C33 | names.c, union_domain.c, program.c: names | NamesModel, NamesSpec, NamesProofs, PropertiesNames | injectivity of decimal printing, invariants over call histories |
| C31 C32 | block.c, statement.c, stride.c, loop.c: allocation, copies, frees, counters | HeapModel, HeapSpec, HeapProofs, HeapInv, PropertiesHeap | invariant over all histories of calls |
| C35 | clast.c: clast_filter, clast_get_body_of_loop helpers | FilterModel, FilterSpec, FilterProofs, PropertiesFilter | induction on the tree |
| C36 | loop_unroll | LoopGen, PropertiesLoop | count and order of copies |
| C37 | loop.c: loop_stop, generate_restricted_or_stop and the generator above them | StopSpec, StopProofs, PropertiesLoop, PropertiesStop | every level keeps at most as many copies of a block as it was given, and covers its instances' prefixes; the position in the scattering fixes the depth |
| C38 C39 | matrix/constraintset.c | RowModel, RowSpec, RowProofs, RowDefine, RowReduce, PropertiesRow | elimination preserves the solutions |
| C40 | isl/constraints.c: div_expr | DivModel, DivSpec, DivProofs, PropertiesDiv | value of the printed quotient |
| C41 | matrix.c: read and print | TextModel, TextSpec, TextProofs, PropertiesText | round trip over character lists |
| C44 | input.c, union_domain.c: read and dump; names.c: read_strings | InputModel, InputSpec, InputProofs, PropertiesInput | round trip over character lists |
| C45 | program.c: alloc and generate; loop.c: the generator; isl/domain.c: domain_sort | TerminateSpec, TerminateLists, TerminateProofs, TerminateBox, TerminateAlloc, PropertiesTerminate | measure on levels and parts, every list that reaches an assertion is shown non-empty; on top of C01 |
| C46 | program.c: cloog_program_pprint, print_callable_preamble, print_macros, declarations | FileModel, FileReader, FileSpec, FileLex, FileParse, FileText, FileRead, FileMain, FileCall, FileRun, FileEnd, PropertiesFile; ClastNames, LoopFrom, LoopOtl, EndSpec, EndProofs, PropertiesEnd | a reader and an interpreter of whole C files (directives, macros with arguments, declarations, printf); round trip and simulation of the statements through the macros; C46_generated_* compose generation, C statements and printing: what the printed file prints, from the input statements |
| C47 | isl/domain.c: cloog_union_domain_from_isl_set, from_isl_union_map, count_same_name | IslModel, IslSpec, IslProofs, PropertiesIsl | on top of the union-domain model; the last underscore of a name decides |
| C48 | pprint.c for Fortran; program.c: print_comment, cloog_program_pprint | FReader (lexer, parser and interpreter of free-form Fortran 90, default reals of 24 bits), FReal, FSpec, FParse, FExpr, FStmt, FEnd, FExact, FFile, LoopNoStride, FClast, PropertiesFortran | round trip by induction on expressions and statements; every rounding to nearest gives the floor of a small quotient; the generated expressions have a restricted shape, without -strides no loop has a stride |

## What is not modelled

* isl itself, and the functions of `isl/domain.c` and `isl/constraints.c` that only forward
  to isl (intersection, union, convex hulls, gist, projections, dimension queries, reading
  a polyhedron from text): they are the operations of `Poly` and `Scat`.
* Existential dimensions (divs) in clast generation, except where they state a remainder and are
  used up by `insert_extra_modulo_guards` (C16, C49); bounds and conditions with quotients
  (`div_expr`) make the model of `insert_guard` return `None`, the quotient expression alone is
  C40.  C13-C15 and C42 speak of constraints without them.
* The OpenScop path (`#ifdef OSL_SUPPORT`), in all files.
* from `cloog.c`: -leaks, -structure and OpenScop (the rest is in ToolModel, C50); `backend.c`, `version.c`; help, version, and debugging output
  (`*_print`, `*_print_structure`, `options_print`); allocation of names (but for their
  reference counts, C59), options, state, input and their frees.
* Fortran: `FReader.v` reads only the subset that `pprint.c` prints (DO, IF,
  instance lines, assignments, comments), with the line rules stated there. Overflow of reals and
  the program unit around the printed text (declarations), which CLooG does not print, are not
  modelled. C22 is about the bounds and stride of DO loops only.
* Execution time, memory use, and allocation failure.

## Findings in the code

Each is a theorem (`..._refuted`) unless noted.

| finding | theorem |
|---------|---------|
| Fortran `DO` loops print a stride without the comma | C22_stride_refuted |
| `clast_filter` stops at assignments and blocks | C35_after_assignment_refuted, C35_inside_block_refuted |
| quotients whose coefficients share a factor with the denominator are printed wrong | C40_common_factor_refuted |
| a dumped program without statements cannot be read | C60_no_statement_refuted |
| the dump of a program prints the first line of the first scattering behind a comment (no newline after `# Scattering functions`) | C60_first_line_refuted |
| a modulo guard is wrong when its simplification finds an equality (depends on isl) | C58_equality_found_refuted |
| `cloog_domain_sort` does not terminate on interlocking segments | C08_sort_terminates_refuted |
| `%` truncates, so guards bounding a remainder fail for negative values | C21_residue_bound_refuted |
| `-otl 0` loses modulo guards | C15_otl0_refuted |
| malformed option numbers are accepted; documented default of `-esp` is wrong | C27_malformed_numbers_refuted, C27_documented_default_refuted |
| generated names collide or are no identifiers | C29_names_collide_refuted, C29_names_are_identifiers_refuted |
| fixed-width comparison by subtraction overflows | C24_cmp_all_values_refuted, C23_fdiv_q_overflow_refuted |
| long names overflow a buffer | C44_long_name_refuted |
| convex sets that cross are run in the wrong order | C02_order_refuted |
| with -f -1 and no scattering the iterations are not run in lexicographic order (-l is set to 0) | C02_unscattered_no_separation_refuted |
| `generate_scalar` loses a statement | C03_statement_lost_refuted |
| combining adjacent loops drops a stride | C12_combine_loses_stride_refuted |
| simplification of user supplied non-convex loops reorders | C06_order_nonconvex_refuted |
| the comparison given to qsort is not transitive | C17_transitivity_refuted |
| a hand-built term over a quotient is printed without parentheses | C20_any_expression_refuted |
| blocks and scalar dimensions: wrong order | C34_equal_domains_refuted, C34_constant_dimension_refuted |
| input where only some statements are scattered | C43_partial_scattering_refuted, C44_lost_scattering_refuted, C44_missing_scattering_refuted |
| affine stride offset wrong when coefficient and stride share a factor | C26_stride_offset_refuted |
| `-override` lets the scattering order be violated | C28_override_refuted |
| matrices without columns or with long lines are not read back | C41_no_columns_refuted, C41_long_line_refuted |
| partly named tables dump `(null)`; a language letter after spaces is read as C | C44_unnamed_refuted, C44_indented_language_refuted |
| merging a block with itself frees it twice | C31_self_merge_refuted |
| a bound taken from an inequality on several iterators | C38_once_refuted |
| `-stop` has no effect below the depth of `-l` | C37_stop_and_l_refuted |
| `-compilable` calls named statements by name but defines macros `S<n>` | C46_named_statements_refuted |
| an input file name containing `*/` ends the header comment | C46_file_name_refuted |
| `-compilable -callable` on an empty program uses an undefined `S0` | C46_empty_program_refuted |
| iterator names made from an isl set can coincide, or change because `count_same_name` compares prefixes | C47_names_distinct_refuted, C47_names_kept_refuted |
| `-block` prints braces in Fortran | C48_block_refuted |
| floors and ceilings in Fortran go through default reals: wrong from 2^24 on | C48_large_quotient_refuted |
| an iterator and a parameter that differ in case are one Fortran variable | C48_case_refuted |
| Fortran lines are never broken | C48_long_line_refuted |
| a remainder condition that the strides make false is dropped, its body is kept (`insert_extra_modulo_guards` ignores the result) | C49_unsatisfiable_refuted |
| a loop with a stride whose aligned lower bound is its upper bound has no equality to assign from: the assertion in `cloog_equal_add` fails (not shown reachable: isl usually finds the equality) | C51_aligned_bound_refuted |
| `cloog_scattering_from_cloog_matrix` never gives the scattering dimensions a coefficient (`isl_space_dim(dim, isl_dim_set)` counts the output dimensions of the map only) | C53_scattering_refuted |
| `cloog_domain_can_unroll` accepts a union whose first basic set has no usable lower bound (not reached from the generator, which unrolls convex domains only) | C54_union_refuted |
| `cloog_domain_bound_splitter` splits the parameters in the bounds it takes but not the outer iterators: the convex hull of a merged loop can be left without a bound although every loop has one | C55_outer_bounds_refuted |
| without GMP, integers of isl that CLooG's type cannot hold are read as other integers: a long is cut to an int, and what is no long is 0 (isl prints a message) | C64_same_integer_refuted |

Read in the code, outside the model: `cloog_names_generate`'s tables may leave the
reference counter of a list uninitialised; the domain
leak counters are never updated; a loop all of whose unrolled copies were empty would
dereference NULL (the model's outcome is `None`; the proof of C45 shows that this cannot
happen if emptiness tests are exact).

## Testing the theorems

`tools/mutate.py` applies an edit that a realistic bug would make to the model in a scratch
copy, rebuilds, and reports which theorems fail; `seeded/LOG.jsonl` has one line per edit.
Survivors led to tighter theorems (named in the log).  See `seeded/README.md`.
