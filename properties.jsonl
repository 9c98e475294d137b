{"id": "C01", "title": "Boolean operators on fl bools compute the pointwise Boolean function", "statement": "For every manager state reachable by any history of BDD calls and any two formulas a, b obtained from it, the value returned by AND / OR / XOR / XNOR / NAND / NOR / NOT / ITE evaluates, under every assignment of the variables, to the corresponding Boolean combination of the values of the operands.", "quantifier": "all manager states (node tables, caches, variable orders) reachable by any history, all operand formulas, all assignments", "why_tests_cant": "The result depends on the contents of the shared operation cache and unique table, i.e. on the whole call history; there are infinitely many formulas and 2^n assignments.", "anchors": ["src/bin/fl/new_bdd.c: bdd_step, B_And, B_Or, B_Xor, B_Not, B_Ite, B_Xnor, B_Nand, find_insert_bdd"]}
{"id": "C02", "title": "BDD canonicity: equal functions have equal handles", "statement": "In every reachable manager state, two live formulas are the same machine word if and only if they denote the same Boolean function; so '==' on fl bools is exact function equality, a tautology is always T and an unsatisfiable formula is always F.", "quantifier": "all reachable manager states, all pairs of live formulas", "why_tests_cant": "A single unnormalised node created in one rare history makes two equal functions unequal; no finite set of examples excludes it.", "anchors": ["src/bin/fl/new_bdd.c: find_insert_bdd, bdd_step", "src/bin/fl/new_bdd.h: ISNOT, NOT, POS, B_Equal"]}
{"id": "C03", "title": "quant_forall / quant_thereis quantify exactly the listed variables", "statement": "Quantifying f over a set of variables returns the formula that holds under an assignment iff f holds for all (some) re-assignments of these variables, the other variables unchanged.", "quantifier": "all reachable states, all formulas, all sets of variables, all assignments", "why_tests_cant": "Quantification shares the operation cache with AND/OR/XOR and has several early exits; correctness depends on cache history.", "anchors": ["src/bin/fl/new_bdd.c: quantify, B_Depends", "src/bin/fl/graph.c: P_FORALL/P_THEREIS cases"]}
{"id": "C04", "title": "relprod_forall / relprod_thereis equal quantification of the operation", "statement": "relprod_thereis vs f g equals the existential quantification over vs of f AND g, and relprod_forall vs f g equals the universal quantification over vs of f AND g, as documented, for all arguments and cache contents; neither call changes the answers of later calls.", "quantifier": "all reachable states, all formulas f and g, all variable sets", "why_tests_cant": "The combined recursion has short-circuits and cache entries whose soundness depends on the earlier calls.", "anchors": ["src/bin/fl/new_bdd.c: Rel_prod", "src/bin/fl/graph.c: P_RELPROD_THEREIS, P_RELPROD_FORALL", "src/bin/fl/builtins.fl: relprod documentation"]}
{"id": "C05", "title": "substitute is simultaneous substitution", "statement": "substitute [(v1,e1),...,(vn,en)] f evaluates under an assignment s exactly as f does under s updated simultaneously with vi := value of ei under s.", "quantifier": "all reachable states, all formulas f, all substitution lists with distinct variables, all assignments", "why_tests_cant": "Sharing, caching per sublist and substituted functions that mention substituted variables give unboundedly many interactions.", "anchors": ["src/bin/fl/new_bdd.c: b_substitute, add_to_subs, B_Substitute"]}
{"id": "C06", "title": "depends returns exactly the support", "statement": "The variable list returned by depends f contains v iff there are two assignments differing only at v on which f differs.", "quantifier": "all reachable states, all formulas", "why_tests_cant": "Semantic dependence quantifies over all pairs of assignments.", "anchors": ["src/bin/fl/new_bdd.c: depends, B_Depends, bdd_support"]}
{"id": "C07", "title": "Truth cover / model count counts satisfying assignments", "statement": "The exact truth-cover count over a variable list covering the support of f is the number of assignments to these variables satisfying f.", "quantifier": "all reachable states, all formulas, all duplicate-free variable lists covering the support", "why_tests_cant": "The count is over 2^n assignments with skipped levels and complement edges.", "anchors": ["src/bin/fl/new_bdd.c: truth_cover_rec, fp_truth_cover_rec"]}
{"id": "C08", "title": "BDD garbage collection is invisible", "statement": "After a garbage collection every protected formula has the same handle and denotes the same function, every stale cache entry is dropped, and canonicity still holds; unreachable nodes become reusable.", "quantifier": "all reachable states, all sets of roots, all later histories", "why_tests_cant": "Use-after-free of a node shows only when later allocation reuses it; depends on the entire history.", "anchors": ["src/bin/fl/new_bdd.c: garbage_collect, B_Mark, B_Clean, gc_update_ref_cnt, clean_cache"]}
{"id": "C09", "title": "Dynamic variable reordering is invisible", "statement": "Swapping two adjacent variables (and so any reordering made from swaps) leaves every live handle denoting the same function, keeps canonicity, and exchanges exactly these two variables in the order.", "quantifier": "all reachable states, all adjacent levels, all live formulas, all sequences of swaps", "why_tests_cant": "The in-place rewrite must be right for every sharing pattern, complement-edge pattern and unique-table state.", "anchors": ["src/bin/fl/new_bdd.c: swap_down, do_swap_down, re_order, user_defined_reorder"]}
{"id": "C10", "title": "Saving and loading BDDs round trips", "statement": "Loading a file written by bdd_save into any manager state gives formulas denoting the same functions (variables matched by name), even when the variable order differs.", "quantifier": "all formulas, all pairs of saving and loading manager states/orders", "why_tests_cant": "Loading into a manager with another order rebuilds all nodes; infinite family of states.", "anchors": ["src/bin/fl/new_bdd.c: Save_BDDs, b_save, Load_BDDs"]}
{"id": "C11", "title": "Big-integer add, subtract, negate, abs and compare are exact", "statement": "fl int addition, subtraction, negation, absolute value and comparison agree with mathematical integers for values of any size and representation, and results are in trimmed canonical form so that equal integers have equal representations.", "quantifier": "all well-formed multi-word integers", "why_tests_cant": "Carry/sign-extension corner cases occur at every word boundary and every length combination.", "anchors": ["src/bin/fl/arb_prec.c: arbi__add, Arbi_add, Arbi_sub, Arbi_neg, Arbi_abs, Arbi_cmp, arbi__trim"]}
{"id": "C12", "title": "Big-integer multiplication is exact", "statement": "fl int multiplication agrees with mathematical integers for operands of every size; in particular the single-word fast path never overflows or traps.", "quantifier": "all pairs of well-formed multi-word integers", "why_tests_cant": "The overflow check on the fast path and the half-word carries are wrong only on isolated operand values among 2^128.", "anchors": ["src/bin/fl/arb_prec.c: Arbi_mlt"]}
{"id": "C13", "title": "Big-integer division and modulus are floor division", "statement": "For non-zero b, fl '/' and '%' return the floor quotient q and r = a - q*b, with r = 0 or of the sign of b, for operands of every size.", "quantifier": "all pairs of well-formed integers with non-zero divisor", "why_tests_cant": "The quotient-guess correction loop runs a data-dependent number of times; guessing errors occur on sparse inputs.", "anchors": ["src/bin/fl/arb_prec.c: arbi__divmod, Arbi_div, Arbi_mod"]}
{"id": "C14", "title": "Integer to string conversion round trips", "statement": "int2str in base 2..16 followed by str2int gives back the same integer and terminates, for every integer.", "quantifier": "all integers, all bases", "why_tests_cant": "Infinite domain; the failing values sit at the word-size boundary of multi-word representations.", "anchors": ["src/bin/fl/arb_prec.c: Arbi_ToString, Arbi_FromString"]}
{"id": "C15", "title": "Symbolic bit-vector addition, subtraction and negation never overflow", "statement": "For symbolic signed bit vectors a and b of any (different) lengths, under every assignment of the BDD variables the integer value of a+b, a-b and -a equals the mathematical result on the values of a and b.", "quantifier": "all bit-vector lengths, all BDD entries, all reachable manager states, all assignments", "why_tests_cant": "Range over all widths and all symbolic functions.", "anchors": ["src/bin/fl/bv.c: gen_add, add_rec, sx2, trim_bv, negate"]}
{"id": "C16", "title": "Symbolic bit-vector multiplication is exact", "statement": "Under every assignment the value of a*b is the product of the values of a and b.", "quantifier": "all lengths, entries, states and assignments", "why_tests_cant": "Range over all widths and all symbolic functions.", "anchors": ["src/bin/fl/bv.c: bv_mult, mult"]}
{"id": "C17", "title": "Symbolic bit-vector comparison and equality are exact", "statement": "a < b, a <= b, a > b, a >= b, a = b on symbolic bit vectors yield a formula that holds under an assignment iff the relation holds between the integer values.", "quantifier": "all lengths, entries, states and assignments", "why_tests_cant": "Range over all widths and all symbolic functions.", "anchors": ["src/bin/fl/bv.c: less_than, less_rec, eq, bv_eq_fn"]}
{"id": "C18", "title": "Symbolic bit-vector division and modulus agree with integer division", "statement": "Under every assignment that makes b non-zero, a/b and a%b have the values of the fl integer division and modulus on the values of a and b.", "quantifier": "all lengths, entries, states and assignments with non-zero divisor value", "why_tests_cant": "The long division is symbolic: each assignment follows a different path; four sign cases and exactness corrections.", "anchors": ["src/bin/fl/bv.c: fixed_ext_bvdiv, signed_bvdiv, bv_div, bv_mod"]}
{"id": "C19", "title": "int2bv and bv2int are inverse", "statement": "int2bv n is the minimal signed bit vector of value n under every assignment, for every integer n, and bv2int returns n for a constant vector.", "quantifier": "all integers", "why_tests_cant": "Infinite domain; negatives are handled by an ad-hoc complement-from-lowest-one loop.", "anchors": ["src/bin/fl/bv.c: Aint2bv, bv2int, trim_bv"]}
{"id": "C20", "title": "Symbolic bit-vector shifts, bitwise operations, min/abs and ITE are exact", "statement": "Under every assignment shifting left/right, bitwise and/or/xor/not, abs and if-then-else on symbolic vectors give the arithmetic value of the corresponding integer operation.", "quantifier": "all lengths, entries, states and assignments", "why_tests_cant": "Range over all widths and all symbolic shift amounts.", "anchors": ["src/bin/fl/bv.c: bv_ashr, shift_left, bv_and, bv_or, bv_xor, bv_not, abs, ite"]}
{"id": "C21", "title": "bexpr operators preserve meaning under structural hashing and SAT merging", "statement": "Every bexpr constructor returns a node whose function under every assignment is the corresponding Boolean combination, whatever nodes already exist, whatever signature collisions occur and whatever the SAT oracle answers (as long as an UNSAT answer is right).", "quantifier": "all reachable bexpr graphs, all signature functions, all oracle behaviours, all assignments", "why_tests_cant": "Merging depends on signature collisions and on the whole history of nodes.", "anchors": ["src/bin/fl/bexpr.c: be_and, be_find_insert, BE_Not, BE_And, BE_Or, BE_Xor, BE_Ite", "src/bin/fl/minisat_ifc.cc: SAT_and_is_same"]}
{"id": "C22", "title": "bexpr to BDD conversion and bexpr substitution preserve meaning", "statement": "Converting a bexpr to a bool gives the BDD of the same function; bsubstitute is simultaneous substitution.", "quantifier": "all reachable graphs, all expressions, all substitutions, all assignments", "why_tests_cant": "Memo tables attached to shared nodes make results history-dependent.", "anchors": ["src/bin/fl/bexpr.c: be2bdd, be_subst, bdd2bexpr"]}
{"id": "C23", "title": "Combinator compilation preserves the meaning of fl programs", "statement": "The combinator graph produced from any expression (small-program path and large-program director path) is beta-eta convertible to the source lambda term; and a compiled lambda applied to an argument, and the compiled body with the argument substituted, have a common reduct under the machine's reduction rules (on the director path the first reduces to the second).", "quantifier": "all source expressions with any nesting of lambdas, applications, lets and constants", "why_tests_cant": "Program space is infinite, and optimisation rules (B*, C', S', eta) interact.", "anchors": ["src/bin/fl/graph.c: Compile, compile_rec, abstract_rec, compile, create_free_tbl, traverse_left"]}
{"id": "C24", "title": "Compile-time renaming and alias removal preserve binding structure", "statement": "Renaming every bound variable apart and removing 'let x = y in' aliases yields a term with the same binding structure (alpha/beta equivalent to the source).", "quantifier": "all source expressions, including those with identifiers of any spelling", "why_tests_cant": "Variable capture appears only for particular nestings and names.", "anchors": ["src/bin/fl/compile.c: Optimise, mk_uniq_names, remove_aliases, substitute"]}
{"id": "C25", "title": "Type unification is sound, most general and terminating", "statement": "If unification of two types succeeds both types are equal after expansion and every unifier factors through the result; if it fails there is no (finite) unifier; bindings are undone exactly when a typing context is rolled back.", "quantifier": "all type graphs (acyclic stores), all pairs of types, all histories of push/pop", "why_tests_cant": "Quantifies over all types and all possible unifiers.", "anchors": ["src/bin/fl/typecheck.c: unify, occurs, get_real_type, push_tc_context, pop_tc_context, record_old_value"]}
{"id": "C26", "title": "Ternary gate operators extend the Boolean ones", "statement": "Each bit-level circuit operator (and, or, not, ite, var, wire, constants, comparisons) on dual-rail encoded Boolean inputs returns exactly the dual-rail encoding of the Boolean result.", "quantifier": "all widths, all input vectors", "why_tests_cant": "All widths and all symbolic values.", "anchors": ["src/bin/fl/fsm.c: op_AND, op_OR, op_NOT, op_ITE, op_EQ, op_GR, op_VAR, op_WIRE, op_CONST, op_IDELAY"]}
{"id": "C27", "title": "Ternary operators are monotone in the information order", "statement": "Making any input less defined (towards X) can only make the outputs less defined; hence the result with X inputs covers the result for every completion of the inputs.", "quantifier": "all widths, all pairs of ordered input vectors, all operators used in models", "why_tests_cant": "Pairs of vectors over a four-valued domain for every width.", "anchors": ["src/bin/fl/fsm.c: op_* functions"]}
{"id": "C28", "title": "Word-level circuit operators compute modular arithmetic", "statement": "On Boolean inputs, the word-level ADD, SUB, MUL, DIV, MOD, SHL, SHR, ASHR, EQ, GR, sign/zero extension, slice and memory read/write operators return the two's complement / unsigned arithmetic result at the declared width.", "quantifier": "all widths, all operand values", "why_tests_cant": "All widths and all values; shift amounts of 32 or more significant bits cannot be enumerated.", "anchors": ["src/bin/fl/fsm.c: op_ADD, op_SUB, op_MUL, op_DIV, op_MOD, op_SHL, op_SHR, op_ASHR, op_SX, op_ZX, op_SLICE, op_MEM_READ, op_MEM_WRITE, sub_fn, geq_fn"]}
{"id": "C29", "title": "Dynamic weakening only loses information", "statement": "With a BDD size limit, every operator result is the un-weakened result or less defined, for every limit and every size measure.", "quantifier": "all operators built from rail AND/OR, all limits, all input values", "why_tests_cant": "Which intermediate results are cut depends on BDD sizes and variable order.", "anchors": ["src/bin/fl/fsm.c: BDD_c_limited_AND, BDD_c_limited_OR, do_wl_op"]}
{"id": "C30", "title": "STE trajectories cover every circuit execution that satisfies the antecedent", "statement": "At every simulated time every node's computed value covers the value the node has in any two-valued circuit execution satisfying the antecedents; hence if checkTrajectory is T the consequent holds in each such execution.", "quantifier": "all circuits (any operators, zero-delay feedback, phase delays), all antecedent/consequent lists, all schedules of the event wheel, all executions", "why_tests_cant": "Soundness of a verifier: quantifies over all circuits, all properties and all executions.", "anchors": ["src/bin/fl/fsm.c: gSTE, update_node, do_wl_op, do_combinational, do_phase, process_event, initialize"]}
{"id": "C31", "title": "Every antecedent and consequent tuple is in force for exactly its interval", "statement": "At each time t, the conditions applied to node n are exactly those of the tuples whose interval [from,to) contains t, irrespective of the order and overlap of tuples on the node.", "quantifier": "all lists of tuples, all times", "why_tests_cant": "Overlap patterns of intervals are unbounded.", "anchors": ["src/bin/fl/fsm.c: create_event_buffer, event_cmp, process_event, add_active_event, delete_active_event"]}
{"id": "C32", "title": "Chained hash tables behave as maps", "statement": "After any sequence of insert / delete / find calls (with any hash function and any number of resizes) find returns the most recently inserted, not yet deleted binding of the key.", "quantifier": "all operation sequences, all hash functions, all table sizes", "why_tests_cant": "Resizes happen at unbounded sizes and collisions depend on the hash function.", "anchors": ["src/lib/hash.c: insert_hash, find_hash, delete_hash, resize"]}
{"id": "C33", "title": "Cached list look-ups are history independent", "statement": "assoc, rev_assoc, mem and el return what a left-to-right scan of the list returns, whatever look-ups were made before on the same list and however far the hidden index of that list has been filled.", "quantifier": "all lists, all sequences of look-ups", "why_tests_cant": "Results depend on the hidden per-list index state, i.e. on history.", "anchors": ["src/bin/fl/list_ops.c: assoc, rev_assoc, mem, el, atp tables"]}
{"id": "C34", "title": "List set operations implement set algebra", "statement": "setify, union, intersect, subtract, overlap and set equality agree with the finite-set operations, results are duplicate free and keep first-occurrence order.", "quantifier": "all lists", "why_tests_cant": "Infinite domain; hash iteration order and duplicates matter.", "anchors": ["src/bin/fl/list_ops.c: setify, list_union, intersect, subtract, overlap, set_eq"]}
{"id": "C35", "title": "List segment functions agree with their specification and stay in bounds", "statement": "firstn, butfirstn, lastn, butlastn, butlast, last, rev, append, length and flat agree with the mathematical list functions for every count and list, and never run off the end of the list.", "quantifier": "all lists, all integer counts", "why_tests_cant": "All lists and all counts including negative ones.", "anchors": ["src/bin/fl/list_ops.c: firstn, butfirstn, lastn, butlastn, butlast, rev, append, flat"]}
{"id": "C36", "title": "fl tables are linear-handle maps", "statement": "tbl_insert / tbl_insertn / tbl_delete / tbl_get / tbl_member / tbl_keys over any history behave as a finite map on the newest handle; an old handle is never usable after an update; a failed operation leaves the table as it was.", "quantifier": "all operation histories, all keys", "why_tests_cant": "History dependent.", "anchors": ["src/bin/fl/table.c: tbl_insert, tbl_insertn, tbl_delete, tbl_get, tbl_member"]}
{"id": "C37", "title": "Generic comparison is a total order", "statement": "gcmp on structural values is reflexive, antisymmetric and transitive, and returns 0 exactly for equal values, so that sorting with it is well defined.", "quantifier": "all pairs and triples of values", "why_tests_cant": "Quantifies over all triples of values.", "anchors": ["src/bin/fl/list_ops.c: Graph_cmp, gcmp"]}
{"id": "C38", "title": "String interning is injective and stable", "statement": "Two strings interned by the string manager get the same pointer iff they are equal, and pointers stay valid and unchanged while further strings are interned.", "quantifier": "all sequences of interned strings", "why_tests_cant": "Depends on table growth and buffer growth over unbounded histories.", "anchors": ["src/lib/strmgr.c: wastrsave, get_string"]}
{"id": "C39", "title": "Record manager never hands out a live record twice", "statement": "new_rec never returns a record that has been handed out and not freed, through any number of block extensions and frees.", "quantifier": "all allocation/free histories", "why_tests_cant": "History dependent.", "anchors": ["src/lib/rec.c: new_rec, free_rec"]}
{"id": "C40", "title": "Symbolic reduction rules are sound and confluent on combinators", "statement": "Each graph rewrite of the evaluator (S, K, I, B, C, S', B', C', B*, Y) replaces a term by one equal in the lambda calculus, and two evaluation orders cannot reach different normal forms.", "quantifier": "all combinator terms, all reduction sequences", "why_tests_cant": "All terms and all schedules of lazy evaluation.", "anchors": ["src/bin/fl/graph.c: traverse_left"]}
{"id": "C41", "title": "Compiling a design preserves its meaning", "statement": "The circuit that traverse_pexlif and compile_expr build for a design (expressions over vectors, leaf by leaf, with temporaries for sub-expressions) has exactly the behaviours of the update functions and phase delays of the design: every two-valued execution of the circuit gives each left-hand side a value of its right-hand side, and every behaviour is that of an execution. Ranks order the composites from sources to fanouts.", "quantifier": "all designs (any expressions, widths, hierarchy of leaves), all executions", "why_tests_cant": "Quantifies over all expressions and all executions over unbounded time.", "anchors": ["src/bin/fl/fsm.c: compile_expr, get_wexpr_size, get_lhs_indices, traverse_pexlif, rank_order, assign_rank"]}
{"id": "C42", "title": "Index lists and vector names denote the right nodes", "statement": "Index lists (runs of node indices) are handled as the sequences they stand for: appending, selecting and slicing agree with list operations. Mapping a vector name, over one or several declarations, gives for each of its scalars, in order, the node that the declaration gave to that scalar, and fails only if a scalar is undeclared. The name of a node and the node of a name are inverse to each other.", "quantifier": "all index lists, all declarations (any number of dimensions and ranges), all names", "why_tests_cant": "Unbounded numbers of dimensions, ranges, widths and declarations.", "anchors": ["src/bin/fl/fsm.c: append_range, translate_range, ilist_sel, vec_size, get_stride, find_index_from_end, map_node, map_vector, find_node_index, get_real_name, name2idx, declare_vector", "src/bin/fl/voss_strings.c: Expand_vector"]}
{"id": "C43", "title": "Vector names keep their scalars through parsing, printing, merging and extraction", "statement": "Parsing a printed vector name gives a vector with the same scalars in the same order. Making ranges canonical loses no index, compressing two lists of ranges is set union. Merging adjacent vectors ends and keeps the multiset of scalars (constants bit by bit), and their order when no vector has more than one index; extracting vectors from a list of vectors ends and keeps the set of scalars. Names with equal signatures differ in their indices only.", "quantifier": "all names, all lists of vectors, all ranges", "why_tests_cant": "Unbounded numbers of dimensions, ranges and vectors; the merge loop runs around a circular list with a counter of fruitless steps whose termination depends on all of it.", "anchors": ["src/bin/fl/voss_strings.c: Split_vector_name, merge_indices, is_valid_index_or_range, show_non_contig_vector, show_contig_vector, make_range_canonical, compress_ranges, Check_range_overlap, gen_merge_vectors, gen_extract_vectors, Get_vector_signature"]}
{"id": "C44", "title": "Signatures of graphs are SHA-256 digests that determine the graph", "statement": "Whatever the pieces in which a message is passed (each below 2^29 bytes), the digest is that of FIPS 180-4. The traversal of a graph ends, also on cyclic graphs; graphs equal up to addresses have equal signatures; and if two graphs without NULL children, whose texts contain no newline and have at most 3900 characters, hash the same bytes, then they are equal up to addresses, including sharing and cycles.", "quantifier": "all messages and ways to cut them, all heaps and roots", "why_tests_cant": "The digest covers all lengths modulo the block size and 64-bit registers holding more than 32 bits; injectivity of the printed form ranges over all pairs of graphs.", "anchors": ["src/bin/fl/sha256.c: SHA256_init, SHA256_update, SHA256_final, sha256_compress, put_bigendian, get_bigendian, do_printf, Get_SHA256_hash, SHA256_traverse_graph, Get_SHA256_signature"]}
{"id": "C45", "title": "The subgraph search delivers every embedding exactly once", "statement": "Successive calls of the resumable search deliver every one-to-one map of the needle's nodes to nodes of the haystack that respects the candidate matrix and sends edges to edges, each exactly once, then the empty list; then the search starts again. The adjacency matrix is symmetric, has no loops and holds exactly the given pairs.", "quantifier": "all needles and haystacks (sizes, adjacencies, signatures), any number of calls", "why_tests_cant": "The search works in place on a matrix with trim and undo records over an unbounded search tree, suspended and resumed between calls; a lost or repeated embedding would only show for particular pairs of graphs.", "anchors": ["src/bin/fl/iso.c: allocate_matrix, trim_matrix, mk_adj, mk_iso_matrix, is_single, is_isomorphism, trim, undo_trim, pick, undo_pick, init_search, lazy_search, internal_search_create_fn, internal_search_step_fn"]}
{"id": "C46", "title": "The rational arithmetic of the LP solver is exact", "statement": "The pairs made are exactly those in lowest terms with positive denominator, one for each rational number; sum, difference, product, negation, quotient, inverse and comparison of such pairs are those of the rational numbers, and division by 0 is an error.", "quantifier": "all rational numbers, of any size", "why_tests_cant": "Signs, common factors and denominators range over all integers; a missed reduction shows only later, as two pairs for one number that compare as different.", "anchors": ["src/bin/fl/lp.c: rat_return, arbi2rat, rat_copy, rat_neg, rat_cmp, rat_add, rat_sub, rat_mlt, rat_inverse, rat_div"]}
{"id": "C47", "title": "LP decides whether linear constraints have a rational solution", "statement": "For every list of constraints with relations =, <, <=, >, >= and <>, LP answers, and the answer is T exactly if some vector of rational numbers satisfies all constraints.", "quantifier": "all lists of constraints, any number of variables and rows, any coefficients", "why_tests_cant": "Infeasibility speaks of all rational vectors; the pivoting goes through an unbounded number of tableaux, and degenerate or dependent systems are rare in tests.", "anchors": ["src/bin/fl/lp.c: LP_feasible, lp_feasible, lp_solution, lp_StandardTableau, standard2, standard3, standard4, eliminate_zeros, FindBfs, simplex, pivot, find_basis, in_basis, drive_out, removeRowFromBasic, find_non_zero, addNE, solveStrictIneq, strict_ineq"]}
{"id": "C48", "title": "LPsol returns a solution", "statement": "LPsol returns [] exactly if the constraints have no solution, and else a list of pairs in lowest terms, one for each variable, that satisfies all the constraints.", "quantifier": "all lists of constraints, any number of variables and rows, any coefficients", "why_tests_cant": "The solution is read off the last of an unbounded number of tableaux through several changes of variables; each sign and strictness combination matters.", "anchors": ["src/bin/fl/lp.c: LP_solution, lp_solution, bfs, FindBfs, simplex, lp_StandardTableau, solveStrictIneq"]}
{"id": "C49", "title": "Bitwise operations and gcd of big integers are exact", "statement": "intAND, intOR, intXOR and intNOT act bit by bit on two's complement numbers of unbounded width, for operands of any, also different, sizes and signs; gcd ends and returns the non-negative greatest common divisor; all results are canonical.", "quantifier": "all well-formed multi-word integers", "why_tests_cant": "Sign extension and trimming act at every word boundary and length combination, and the number of rounds of the gcd depends on the data.", "anchors": ["src/bin/fl/arb_prec.c: arbi__bvop, bv_and, bv_or, bv_xor, bv_not, Arbi_bvAND, Arbi_bvOR, Arbi_bvXOR, Arbi_bvNOT, Arbi_IsNegative, arbi__gcd, Arbi_gcd"]}
{"id": "C50", "title": "Saved graphs load as the same graph", "statement": "save either refuses (exactly when the graph has an object or stream that cannot be saved) or writes an archive, and loading that archive under the same type into any session gives a graph with the same nodes, the same sharing and cycles and the same reference variables, and leaves the rest of the session alone.", "quantifier": "all finite graphs, any sharing and cycles, all sessions, all texts up to the size of the string buffer", "why_tests_cant": "Writer and reader are two recursive traversals with their own tables of pointers and strings; that they agree has to hold for every shape of graph, and the text format for every content.", "anchors": ["src/bin/fl/serialize.c: write_pointer, read_pointer, write_string, read_string, write_int, read_int, write_arbi_T, read_arbi_T, write_formula, read_formula, write_bexpr, read_bexpr, write_g_ptr, read_g_ptr, write_g_rec, read_g_rec", "src/bin/fl/io.c: Save_graph, Load_graph, can_be_saved, Save_get_string_idx, Save_get_bool_idx, Save_get_bexpr_idx", "src/lib/uniq_buf.c: find_insert_uniq_buf", "src/bin/fl/bv.c: save_bv_fn, load_bv_fn"]}
{"id": "C51", "title": "Type inference finds exactly the derivable types", "statement": "TypeCheck answers on every expression without overloading: if it answers with a type, the instances of that type are exactly the types that the typing rules (monomorphic lambda, instances of the types of defined functions and primitives, hints) give to the expression; if it rejects, the rules give it none; and all types that existed before are left as they were.", "quantifier": "all expressions, all stores of types, all types of defined functions, all hints", "why_tests_cant": "Principality speaks about all derivable types of all expressions, and the checker works by side effects on shared type graphs; a missed dereference or a lost binding shows only for particular sharings.", "anchors": ["src/bin/fl/typecheck.c: TypeCheck, build_node_type_struct, get_prim_fun_type, check_hint, make_arrow, make_list, printf_type, sscanf_type, fresh_inst_rec, copy_to_persistent_store_rec", "src/bin/fl/io.h: PROCESS_PRINTF_PAT"]}
{"id": "C52", "title": "Graph reduction with sharing and in-place update computes the answer of tree rewriting", "statement": "Evaluating a node of a shared graph (traverse_left, force, conditionals on BDDs with if-then-else of structures) rewrites the tree of every node of the heap by steps of the primitives' rules, at every assignment of the BDD variables at which no conditional was decided by a path condition false there; data answers are therefore the unique ones (the rules are confluent), concrete programs need no such condition, and a symbolic run agrees with the run on the instance. Without the condition, with catch, with NONE, with the forced marks left by a failure, and after an interrupt, the statement is false.", "quantifier": "all heaps standing for finite trees without catch and NONE (any sharing), all nodes, all assignments, all amounts of fuel", "why_tests_cant": "Sharing makes the effect of an overwrite visible at arbitrary other nodes, under arbitrary assignments; a test sees one graph and one order of evaluation, and a wrong overwrite shows only if the node is used again under another path condition.", "anchors": ["src/bin/fl/graph.c: traverse_left, force, Gen_map2, gen_map2_rec, g_b_ite", "src/bin/fl/graph.h: OVERWRITE, IS_FORCED, MAKE_FORCED", "src/bin/fl/new_bdd.c: bddNOT, bddAND, bddOR, bddXOR"]}
{"id": "C53", "title": "Reference counting and garbage collection never free a node in use and cannot be noticed", "statement": "Counting down, allocating, marking and sweeping keep the invariant that every pointer held by a root, a live node or a named table is to a live node and that every two-bit count covers the pointers there are. Counting down terminates and leaves reachable nodes alone; a collection keeps exactly the reachable nodes (cycles, reference variables and memo tables included), frees all others and recomputes the counts. Evaluation keeps the invariant with collections at any of its steps, and yields the entry node in weak head normal form. Two evaluations of one graph with different memory management (none, counts only, any collections, any free list) either both give no answer or give answers that look the same to any depth from all roots. GC_Unprotect never unprotects, and a dereference leaks.", "quantifier": "all sound stores with cycles and sharing, all root sets containing void, all schedules of collections, all amounts of fuel", "why_tests_cant": "A use after free needs a particular sharing pattern, a count that is one too low, a reuse of the freed node and a collection at one particular step; a test runs one graph with one schedule and mostly reads the old contents of the freed node.", "anchors": ["src/bin/fl/graph.h: INC_REFCNT, GET_MARK, SET_MARK, OVERWRITE", "src/bin/fl/graph.c: dec_ref_cnt, inc_refcnt_children, Mark, Do_garbage_collect, sweep, Get_node, traverse_left, GC_Protect, GC_Unprotect", "src/bin/fl/cache.c: Mark_G_Cache, Make_RefVar, Set_RefVar, Mark_RefVar"]}
{"id": "C54", "title": "printf and sscanf: typed patterns take their arguments, print the text they stand for, and read it back", "statement": "The loop that types a printf/sscanf pattern and the loops that print and scan with it agree for every pattern: arguments of the inferred types are never taken as something else, the arity is their number, and what sscanf delivers has the inferred type. For every pattern built from literals, %% and directives with optional '-', '0', width or '*' and a letter, sprintf gives the text the pattern stands for (sign, padding, number in its base, two's complement for %b, lists) if it has at most 130000 characters, and fails if an argument does not fit its field. If every conversion without width is followed by a character that cannot belong to it (or is a zero-filled field of a number that is not negative), sscanf reads exactly the arguments back. Without these conditions the statement is false: long texts are cut, %4b of -9 is that of 7, %b of a negative number and space-filled numbers read back wrong, \"%d\" reads 0 from a text without digits, \"%10s\" reads past the end of a shorter text, hexadecimal numbers do not end at ':' or 'g', and printf without arguments prints %% as two characters.", "quantifier": "all patterns (as strings for typing, as item lists for meaning), all arguments of any size, all inputs", "why_tests_cant": "Three separate loops interpret the pattern; a disagreement between them reads a pointer as another kind of node, and shows only for particular patterns. Widths, signs, fills and bases multiply to more cases than can be listed, with integers of unbounded size.", "anchors": ["src/bin/fl/io.h: PROCESS_PRINTF_PAT", "src/bin/fl/io.c: Printf, Sscanf, in_range, prs, print_list", "src/bin/fl/graph.c: Make_Printf_Primitive, GET_INT", "src/bin/fl/typecheck.c: Printf_arity, printf_type, sscanf_type", "src/lib/strmgr.c: strtemp, strappend, charappend"]}
{"id": "C55", "title": "Overload resolution counts the ways to resolve exactly", "statement": "For a list of uses of overloaded functions with their types in a store, nbr_succ_overload_res ends, never reaches its DIE, and leaves all types as they were. It answers 0 if and only if no choice of alternatives (with choices for the overloaded implicit arguments of the alternatives, and so on) has an instance of the types of the uses, 1 with the replacements if and only if there is exactly one such choice, and a larger number if and only if there are at least two; the error for infinite loops is given only if as many choices as the depth allows can be made in a row with something then still to be resolved. The function that is blamed when there is none is the last one, which may well have a matching alternative.", "quantifier": "all stores of types, all tables of functions with any numbers of alternatives and implicit arguments (recursive ones included), all lists of uses, all depths, all answers of the shortcut for variables in Type_eq", "why_tests_cant": "The search backtracks over a store with destructive unification and nested trails; a binding that survives from one alternative shows only as a wrong count for a particular combination of uses, and the number of combinations is unbounded because implicit arguments make new uses.", "anchors": ["src/bin/fl/typecheck.c: nbr_succ_overload_res, make_implicit_call, find_core_type, Type_eq, push_tc_context, pop_tc_context"]}
{"id": "C56", "title": "TypeCheck finds the principal type and the only resolution of an expression with overloaded functions", "statement": "For every closed expression with overloaded functions, TypeCheck ends after finitely many rounds of resolution. If it answers without implicit arguments, exactly one choice of alternatives makes the expression typable, the rewritten expression has in the place of every overloaded function the call of its alternative with all implicit arguments supplied, and the instances of the returned type are exactly the types of the expression under that choice and exactly the types of the rewritten expression. If it answers with implicit arguments, at least two choices make it typable, the arguments are the overloaded functions from left to right, the rewritten expression has the types of the arguments in front of the type of the expression, and the instances of the returned type are exactly those. It reports a type error only if no typing exists, and no match only if no choice gives one. All existing types are restored, except after the error for infinite loops, which leaves contexts behind.", "quantifier": "all expressions, all hints, all stores of types, all tables of functions whose alternatives fit their overloaded function, all depths", "why_tests_cant": "The rewriting copies node contents over nodes that still have replacements pending, so an alternative that is itself overloaded is resolved only in a later round; that the rounds end, agree with each other and never reject what an earlier round accepted is a statement about all nestings.", "anchors": ["src/bin/fl/typecheck.c: TypeCheck, build_node_type_struct, nbr_succ_overload_res, copy_to_persistent_store, Reset_TypeChecker"]}
{"id": "C57", "title": "The type of an overloaded function generalises its declared type and all alternatives", "statement": "For every declared type and every list of alternatives, Get_common_type ends, leaves all existing types as they are, and answers with a type of which the declared type and the core type of every alternative is an instance, so that the table of functions after InsertOverloadDef and AddToOpenOverloadDef is again one in which every alternative can be used. The answer is not more general than needed: a part that all the types have at a place reached through arrows is kept. (The instance part is proved when every type variable has one place; it is refuted for alternatives in which a variable occurs twice, and for alternatives added later to an open overload.)", "quantifier": "all stores of types, all declared types, all lists of alternatives, all tables of functions", "why_tests_cant": "The anti-unification shares nodes of its arguments and keeps variables of either of them, and whether the result is still a generalisation depends on how variables are repeated across all the alternatives; tests use the handful of overloads of the standard library.", "anchors": ["src/bin/fl/typecheck.c: find_common_typelist, find_common_type_rec, Get_common_type, find_core_type, Type_eq", "src/bin/fl/symbol.c: InsertOverloadDef, AddToOpenOverloadDef"]}
{"id": "C58", "title": "Find_Overload_Choice picks the only alternative that can have the given type", "statement": "For every function and type, Find_Overload_Choice ends; it answers with no function exactly if the type of the function cannot be made equal to the given type, and then all types are as before. Otherwise it answers with the only alternative that can have the given type together with the function, if there is exactly one, and with the function itself if it is not overloaded or none or several alternatives can. The types of the functions are as before. (The last sentence is refuted: the function is unified itself, not a copy, and the bindings are kept; what is proved is that exactly this constraint is added.)", "quantifier": "all stores of types, all tables of functions, all functions and types", "why_tests_cant": "The effect on the type of the function shows only in later uses of the function at other types, and the choice depends on unifiability of arbitrary types that may share variables.", "anchors": ["src/bin/fl/typecheck.c: Find_Overload_Choice, unify, push_tc_context, pop_tc_context", "src/bin/fl/symbol.c: Add_To_OverloadList"]}
{"id": "C59", "title": "Unfolding an instance keeps the behaviour of a design", "statement": "For every design and every child of it that has children itself, unfold_pexlif puts the children of that child in its place, with the actuals of the child instead of its formals and with new names for its internal wires where their names are taken; the children are the same otherwise. All wires that the new children use are declared in the design, all its internal wires stay declared, and exactly the same values of its formals and internal wires can occur as before, whatever the functions of the leaves are. A leaf is left as it is and other numbers fail. (Names have one index; for names with two indices it is refuted.)", "quantifier": "all designs (trees of instances), all children, all functions of the leaves, all orders of the sort in Extract_Vectors", "why_tests_cant": "The result depends on collisions between names of the two scopes, on vectors that are bound piecewise and on the merging of the substituted bits; a wire that is captured or two bits that are swapped give a design that still looks well formed.", "anchors": ["src/bin/fl/pexlif.c: unfold_pexlif, mk_formal_actuals_substitution, subst_formal, subst_fa_list", "src/bin/fl/voss_strings.c: VDB_Insert_vector, VDB_has_name_collision, Merge_Vectors, Extract_Vectors"]}
{"id": "C60", "title": "Folding instances into one keeps the behaviour of a design", "statement": "For every design and every set of children, fold_pexlif answers with the design in which these children are the children of one new instance with the given name, and the other children follow unchanged; exactly the same values of the formals of the design can occur as before, and all wires are declared in the two instances that use them. (Proved for names with at most one falling range and if every wire between the folded children and the rest is driven and read. Refuted for wires without a driver, rising ranges and several ranges; that wires stay declared is refuted, and so is that a later unfolding keeps the behaviour.)", "quantifier": "all designs, all sets of children, all names, all functions of the leaves, all orders of the hash tables", "why_tests_cant": "The ports of the new instance come from pairwise overlap of names between all children; a missed overlap cuts a connection without any message, and a dropped declaration shows only when another instance with a wire of that name is unfolded later.", "anchors": ["src/bin/fl/pexlif.c: fold_pexlif, mk_adj_tables, record_vector_signatures", "src/bin/fl/voss_strings.c: Check_vector_overlap, Check_range_overlap, Get_vector_signature"]}
{"id": "C61", "title": "Cached functions (clet) have the answers of the functions without caches", "statement": "For every set of cached functions and every computation that calls them, evaluation with the caches ends with the answer v if evaluation without caches ends with v, and only then, whatever the hash function, the growth of the tables, the collisions, and the garbage collections and clean_clets between the calls; the caches never leave their tables, and the pair inserted last is found. (Proved for arguments without reference variables, external objects of one class per place, and up to 1.8 billion calls; refuted for reference variables with equal contents, and for external objects of different classes.)", "quantifier": "all bodies of functions, all computations, all argument values, all hash functions, all schedules of collections", "why_tests_cant": "Whether a line of the cache is hit, overwritten or lost depends on addresses, on collisions and on when a collection happens; a wrong hit needs two calls whose arguments are taken for equal and fall on one line.", "anchors": ["src/bin/fl/cache.c: Find_in_g_cache, Insert_in_g_cache, cache_eq, main_cache_hash, new_prime, Sweep_G_caches, clean_clets", "src/bin/fl/graph.c: P_CACHE in traverse_left"]}
{"id": "C62", "title": "String functions compute what their names say, whatever is left in the temporary buffer", "statement": "For all strings and all contents left in the temporary buffer by earlier calls: the tests for prefix, suffix and part are exact and strstr gives the first place; the last n characters and the others make up the string; butfirstn and substr cut at the given places and fail exactly beyond the end; trim removes the spaces at both ends and nothing else; gen_trim gives what is between the first prefix and the last suffix after it; cluster cuts in pieces of the given size or fails; split cuts at each separator from the left and joining gives the string back; implode joins up to the size of the buffer; tcl2list reads back every list of words and braced texts with balanced braces. (Refuted: negative counts, a count of 2^31-1, an empty suffix, pieces of size 0, backslashes, and the first regular expression of a session.)", "quantifier": "all strings without NUL, all counts, all contents of the temporary buffer", "why_tests_cant": "A wrong end of a string shows only with particular bytes left in the buffer by earlier calls; overlapping separators, suffixes and nested braces give endlessly many cases.", "anchors": ["src/bin/fl/voss_strings.c: str_is_prefix, str_is_suffix, str_is_substr, string_strstr, string_lastn, string_butlastn, string_butfirstn, string_substr, string_trim, string_gen_trim, string_cluster, string_split, string_implode, tcl2list, compile_regexp"]}
{"id": "C63", "title": "Abstract types hide exactly what they do not export", "statement": "After every sequence of definitions and nested begin_abstype/end_abstype blocks, a name means what lexical scoping says: an exported name has the last definition inside of the block, every other name has the meaning it had before the block. (Proved where no block exports a name that an inner block defines and hides; refuted for that case, for types declared in a block, whose constructors stay visible, for repeated and nested export commands, and after an end_abstype with an unknown name.)", "quantifier": "all programs of definitions and blocks, all nestings, all names", "why_tests_cant": "Whether a name leaks or is lost depends on the combination of shadowing, nesting depth, order of the definition list and the flags left by earlier blocks.", "anchors": ["src/bin/fl/symbol.c: Begin_ADT, End_ADT, Export_Fun, update_stbl, New_fn_def, Merge_fn_defs, Find_Function_Def", "src/bin/fl/language.y: BEGIN_ADT, END_ADT, EXPORT, type_decl"]}
{"id": "C64", "title": "Arithmetic on bit vectors over and-inverter graphs", "statement": "For every assignment of the variables the operations on bev values compute on the integers the vectors stand for: sum, difference, negation, product, floor division and remainder, order, equality, the bitwise operations, zero extension, choice, and the conversions to and from integers; the results have no redundant sign bit. (Refuted: bev_ashr by the length of the vector or more gives the empty vector; bev_pow, and with it the shifts by a vector, never returns.)", "quantifier": "all vectors of all lengths, all assignments, all integers, all implementations of the node operations that are right for the assignment", "why_tests_cant": "Vectors of any length with symbolic bits stand for exponentially many integers, and the special cases (trimming, sign extension, powers of two) depend on node identity.", "anchors": ["src/bin/fl/bev.c: trim_bev, sx2, zx2, add_rec, gen_add, negate_bev_list, abs_bev_list, mult_bev_list, less_than_bev_list, bev_eq_list, fixed_ext_bevdiv, signed_bevdiv, bev_ashr, bev2int, int2bev", "src/bin/fl/preamble.fl: bevTHEN, bev_neg, bev_pow, bev_shl, bev_ashr_bevbev"]}
{"id": "C65", "title": "Hash tables with generations", "statement": "When a key is changed at most once in each generation (inserted when unbound, deleted when bound), every look-up in a table with generations gives the answer of a finite map, and the end of a generation gives back the map as it was at its beginning, whatever was done in the generation and in those inside it. (Refuted beyond that use: inserting and deleting a key in one generation crashes at its end; inserting twice, deleting and inserting again, and replacing a binding in an inner generation leave stale bindings; ending the first generation leaves a null pointer.)", "quantifier": "all histories of insertions, deletions, look-ups, beginnings and ends of generations, all nestings, all hash functions and equalities that fit together, all initial sizes", "why_tests_cant": "The tables grow and turn their chains around as they grow, and the restored state depends on the whole nested history; tests see a few nestings and keys.", "anchors": ["src/lib/generation_hash.c: begin_generation, create_gen_hash, find_gen_hash, insert_gen_hash, delete_gen_hash, end_generation", "src/lib/hash.c"]}
{"id": "C66", "title": "Random integers lie where they should", "statement": "Whatever random() answers, random2 n is a number between 0 and 2^n - 1 for n up to 61, and each such number can come; log2 is the integer logarithm and ** the power; random min max lies between min and max unless the size of the interval is a power of two above 2^61, fails exactly for empty intervals, and each number of the interval can come for sizes up to 2^47. (Refuted: for every n from 62 on random2 n can be negative, and random can answer a number below min.)", "quantifier": "all numbers of bits, all intervals of integers, all sequences of answers of random()", "why_tests_cant": "The answers depend on the random sequence; the wrong sign only shows for 62 bits and more, and every interval has its own chunks and rejection limit.", "anchors": ["src/bin/fl/int_ops.c: do_random2", "src/bin/fl/preamble.fl: log2, ipow, random"]}
{"id": "C67", "title": "Growing buffers and buffers of distinct items", "statement": "A buffer answers every sequence of push, pop, store, fetch, resize, locate, top and count as a list of items does, and accesses nothing outside its block; a buffer of distinct items gives the same number to the same item, numbers items in the order of arrival and finds the item under its number. (Refuted: fetching at the count succeeds with stale bytes or reads behind the block; pushing on a full block of 2 GB writes outside a block of size 0; locating behind the end of a buffer of distinct items shifts later items.)", "quantifier": "all sequences of operations, all item sizes and initial sizes, all contents, blocks below 4 GB (2 GB for push)", "why_tests_cant": "The reallocations depend on the whole history, and the wrap of the sizes needs gigabytes.", "anchors": ["src/lib/buf.c", "src/include/buf.h: M_LOCATE_BUF", "src/lib/uniq_buf.c"]}
{"id": "C68", "title": "Bits needed for a number, and ranges of integers", "statement": "sbits_needed n is the least size of a signed (two's complement) vector that holds n, ubits_needed n the least size of an unsigned one and fails exactly for negative n; nearest_power_of_2 n is the first power of two from n on and fails for n <= 0; f upto t, f downto t and f -- t end, and are the integers between f and t in increasing or decreasing order, each once.", "quantifier": "all integers n, f and t", "why_tests_cant": "The sizes change at the powers of two and differ by one between positive and negative numbers; tests try finitely many of them.", "anchors": ["src/bin/fl/preamble.fl: upto, downto, --, sbits_needed, ubits_needed, nearest_power_of_2"]}
{"id": "C69", "title": "param represents a condition parametrically", "statement": "For every condition other than F (a reduced ordered BDD), param answers its variables in the variable order, each with a function. Whatever the values of the variables, the values of these functions meet the condition; values that already meet the condition are left as they are. So the values that come are exactly those that meet the condition. param fails exactly for F.", "quantifier": "all reduced ordered BDDs over any number of variables, all assignments", "why_tests_cant": "A condition over n variables has 2^n assignments and there are doubly exponentially many conditions; that skipped variables are unconstrained depends on depends and top_cofactor using the same order.", "anchors": ["src/bin/fl/preamble.fl: parametric, param", "src/bin/fl/new_bdd.c: top_cofactor, depends, B_Size, B_Width, Get_Var_Name", "src/bin/fl/builtins.fl: find_first"]}
