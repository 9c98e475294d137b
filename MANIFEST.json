{
 "claims": [
  {
   "property": "C01",
   "status": "proved",
   "theorems": [
    "C01_operators",
    "C01_not",
    "C01_ite",
    "C01_variable",
    "C01_session"
   ],
   "note": "Sessions not using relprod (see C04), or any session of the code with its quantifier tags corrected."
  },
  {
   "property": "C02",
   "status": "proved",
   "theorems": [
    "C02_canonical",
    "C02_constants"
   ],
   "note": "Same sessions as C01, including collections and reorderings."
  },
  {
   "property": "C03",
   "status": "proved",
   "theorems": [
    "C03_forall",
    "C03_thereis"
   ],
   "note": "The quantified variables are the support of the first argument, as in the code."
  },
  {
   "property": "C04",
   "status": "partial",
   "theorems": [
    "C04_relprod_forall_refuted",
    "C04_relprod_thereis_refuted",
    "C04_relprod_breaks_and_refuted",
    "C04_relprod_partial"
   ],
   "note": "False of the code: Rel_prod passes a C bool where quantify expects a tag (three witnesses). Proved for the code with the tags corrected."
  },
  {
   "property": "C05",
   "status": "proved",
   "theorems": [
    "C05_substitute",
    "C05_duplicates"
   ],
   "note": "Reordering inside a substitution is not modelled."
  },
  {
   "property": "C06",
   "status": "proved",
   "theorems": [
    "C06_depends"
   ],
   "note": ""
  },
  {
   "property": "C07",
   "status": "proved",
   "theorems": [
    "C07_truth_cover"
   ],
   "note": "Duplicate-free variable lists; also that the error answer is given exactly when the list misses a variable."
  },
  {
   "property": "C08",
   "status": "proved",
   "theorems": [
    "C08_collection"
   ],
   "note": "The roots are the formulas held; finding all roots in the interpreter heap is not modelled."
  },
  {
   "property": "C09",
   "status": "proved",
   "theorems": [
    "C09_reordering"
   ],
   "note": "Any sequence of adjacent exchanges; the sifting heuristic that chooses it is not modelled."
  },
  {
   "property": "C10",
   "status": "proved",
   "theorems": [
    "C10_save_load"
   ],
   "note": "File at record level: fscanf reading back what fprintf wrote is assumed (names without white space)."
  },
  {
   "property": "C11",
   "status": "proved",
   "theorems": [
    "C11_add",
    "C11_sub",
    "C11_neg",
    "C11_abs",
    "C11_cmp",
    "C11_canonical"
   ],
   "note": "For all representations of any length."
  },
  {
   "property": "C12",
   "status": "partial",
   "theorems": [
    "C12_mlt_partial",
    "C12_mlt_refuted"
   ],
   "note": "The claim as stated is false: (-1)*(-2^63) traps (C12_mlt_refuted). C12_mlt_partial proves exactness for every other pair of operands whose word counts fit the C short."
  },
  {
   "property": "C13",
   "status": "partial",
   "theorems": [
    "C13_div_partial",
    "C13_mod_partial",
    "C13_refuted"
   ],
   "note": "The claim as stated is false: 2^63/(-2^63) and 2^63%(-2^63) trap (C13_refuted). The partial theorems prove floor division and termination for every divisor other than 0 and -2^63."
  },
  {
   "property": "C14",
   "status": "partial",
   "theorems": [
    "C14_roundtrip_partial",
    "C14_from_string",
    "C14_refuted_top",
    "C14_refuted_hex"
   ],
   "note": "The claim as stated is false: -2^127 cannot be printed in base 10, and -1 in base 16 reads back as 2^64-1. The partial theorem covers everything else (top word not -2^63, and not a negative single word in base 16), bases 2-36."
  },
  {
   "property": "C15",
   "status": "proved",
   "theorems": [
    "C15_add",
    "C15_sub",
    "C15_neg"
   ],
   "note": "addition, subtraction and negation of bv.c over every reachable BDD manager state"
  },
  {
   "property": "C16",
   "status": "proved",
   "theorems": [
    "C16_mul"
   ],
   "note": "bv_mul"
  },
  {
   "property": "C17",
   "status": "proved",
   "theorems": [
    "C17_less",
    "C17_leq",
    "C17_greater",
    "C17_geq",
    "C17_eq",
    "C17_identical"
   ],
   "note": "comparison, equality and identity of vectors"
  },
  {
   "property": "C18",
   "status": "proved",
   "theorems": [
    "C18_div",
    "C18_mod"
   ],
   "note": "per assignment with non-zero divisor"
  },
  {
   "property": "C19",
   "status": "partial",
   "theorems": [
    "C19_int2bv",
    "C19_bv2int_partial"
   ],
   "note": "int2bv for every integer; bv2int for vectors of up to 1999990 bits (the 16 bit length field of big integers limits multiplication, see C12)"
  },
  {
   "property": "C20",
   "status": "proved",
   "theorems": [
    "C20_and",
    "C20_or",
    "C20_xor",
    "C20_xnor",
    "C20_not",
    "C20_abs",
    "C20_ite",
    "C20_ashr",
    "C20_shl"
   ],
   "note": "bitwise operations, abs, if-then-else and shifts"
  },
  {
   "property": "C21",
   "status": "partial",
   "theorems": [
    "C21_value",
    "C21_var",
    "C21_not",
    "C21_op",
    "C21_ite",
    "C21_clean",
    "C21_total_partial",
    "C21_total_refuted"
   ],
   "note": "Every returned node is right for all signature functions and all solvers sound on UNSAT, also across collections; that a node is always returned needs that no AND signature equals that of TRUE (after a collection TRUE is a merge candidate with solver literal 0): refuted otherwise."
  },
  {
   "property": "C22",
   "status": "partial",
   "theorems": [
    "C22_be2bdd_partial",
    "C22_be2bdd_sub_partial",
    "C22_refuted",
    "C22_subst",
    "C22_subst_total",
    "C22_bdd2bexpr"
   ],
   "note": "Substitution and conversion from BDDs in full; conversion to BDDs for programs whose conversions have empty substitution lists (any interleaving with BDD work) and for first conversions with a list; mixing both is refuted: the node keeps the BDD computed under the substitution."
  },
  {
   "property": "C23",
   "status": "proved",
   "theorems": [
    "C23_convertible",
    "C23_program",
    "C23_apply_large",
    "C23_apply_small",
    "C23_apply_literal_refuted"
   ],
   "note": "Both abstraction algorithms, the free-variable table and the cut-off; user programs through Optimise need names without the compiler's own prefix (see C24). The reading 'the application reduces to the substituted body' holds on the director path and is refuted on the other, where a common reduct exists."
  },
  {
   "property": "C24",
   "status": "partial",
   "theorems": [
    "C24_rename",
    "C24_substitute",
    "C24_aliases",
    "C24_optimise",
    "C24_refuted"
   ],
   "note": "Proved for all programs not using identifiers of the form _ZZ'<n> or _Z'<n>; refuted for those (a lambda variable spelled _ZZ'1 is captured), so the full quantifier over spellings is false of the code."
  },
  {
   "property": "C25",
   "status": "partial",
   "theorems": [
    "C25_success",
    "C25_failure",
    "C25_terminates",
    "C25_rollback",
    "C25_rollback_refuted",
    "C25_arity_refuted"
   ],
   "note": "Soundness, most-generality, failure and termination for all well formed stores. Rolling back is exact for histories whose inner contexts are rolled back as well; it is false when an inner context is closed with pop_tc_context(FALSE) (C25_rollback_refuted)."
  },
  {
   "property": "C26",
   "status": "proved",
   "theorems": [
    "C26_bits",
    "C26_compare",
    "C26_const",
    "C26_idelay",
    "C26_symbolic"
   ],
   "note": "Operators over 0/1 rails, lifted to rails that are Boolean functions by C26_symbolic."
  },
  {
   "property": "C27",
   "status": "proved",
   "theorems": [
    "C27_monotone",
    "C27_covers",
    "C27_lat_leq_refuted",
    "C27_exact",
    "C27_plain_ite_refuted"
   ],
   "note": "All operators but op_LAT_LEQ, which is not monotone (as its comment says). C27_exact: AND, OR, NOT, accurate ITE, EQ, GR, ADD, SUB lose no information, bit by bit."
  },
  {
   "property": "C28",
   "status": "partial",
   "theorems": [
    "C28_add_sub",
    "C28_mul",
    "C28_div_mod",
    "C28_shifts",
    "C28_shifts_wide",
    "C28_shift_refuted",
    "C28_shr_refuted",
    "C28_extend",
    "C28_slice",
    "C28_memory"
   ],
   "note": "All widths, except shifts: left shifts hold up to width 32, right shifts up to 31; beyond, only the low 32 bits of the amount count, and i - cnt overflows an int."
  },
  {
   "property": "C29",
   "status": "proved",
   "theorems": [
    "C29_weakening",
    "C29_any_cut"
   ],
   "note": "Any size measure and limit; the information-flow variant, which replaces the cut function by a fresh variable, is not modelled."
  },
  {
   "property": "C30",
   "status": "partial",
   "theorems": [
    "C30_sound_partial",
    "C30_cancel_refuted",
    "C30_phase_refuted",
    "C30_overlap_refuted",
    "C30_feedback_refuted"
   ],
   "note": "Soundness of gSTE (covering and the consequent check) for circuits without zero-delay loops, non-empty intervals, antecedents not on phase-delay outputs, no consequent or trace starting where an antecedent on the node ends, non-overlapping consequents per node, runs that do not reach RCStep_limit. Each restriction on tuples and circuits has a counterexample (the four _refuted theorems; empty intervals in C31_empty_refuted)."
  },
  {
   "property": "C31",
   "status": "partial",
   "theorems": [
    "C31_exact_partial",
    "C31_buffers",
    "C31_loop",
    "C31_overlap_refuted",
    "C31_empty_refuted",
    "C31_weak_refuted"
   ],
   "note": "Exact for non-empty intervals that do not overlap on a node (per kind of tuple); the value buffers of antecedents and consequents are exact for all overlaps. The full claim is false of the code: overlapping intervals switch the has_ bit off early, an empty interval dereferences NULL, overlapping weakenings are conjoined."
  },
  {
   "property": "C32",
   "status": "partial",
   "theorems": [
    "C32_map",
    "C32_frozen",
    "C32_refuted",
    "C32_delete_refuted"
   ],
   "note": "Proved for all hash functions, sizes and histories that insert only unbound keys, and for all histories (with shadowing) on tables of frozen size. The statement as given is false: when the table grows, the chains are reversed and an older binding of a key hides the latest one (C32_refuted); deleting an unbound key follows a null pointer."
  },
  {
   "property": "C33",
   "status": "proved",
   "theorems": [
    "C33_history",
    "C33_keys"
   ],
   "note": "any history of assoc/rev_assoc/mem/el on any lists, with reuse of addresses of dead lists; hash and equality abstract (C33_keys instantiates G_rec_hash/G_rec_equ on function-free data)"
  },
  {
   "property": "C34",
   "status": "partial",
   "theorems": [
    "C34_setify",
    "C34_union",
    "C34_union_refuted",
    "C34_intersect",
    "C34_subtract",
    "C34_overlap",
    "C34_set_eq"
   ],
   "note": "all operations proved; 'result duplicate free' is false for union with an empty list (refuted) and for subtract when the first list has duplicates"
  },
  {
   "property": "C35",
   "status": "partial",
   "theorems": [
    "C35_firstn",
    "C35_firstn_fails",
    "C35_lastn",
    "C35_lastn_refuted",
    "C35_count_refuted",
    "C35_rest",
    "C35_gather",
    "C35_separate"
   ],
   "note": "proved for counts that fit an int, non-negative for lastn/butlastn; refuted for negative counts (null dereference) and for counts beyond int (truncated)"
  },
  {
   "property": "C36",
   "status": "partial",
   "theorems": [
    "C36_history_partial",
    "C36_linear",
    "C36_frame",
    "C36_atomic_refuted",
    "C36_copy_refuted",
    "C36_create_refuted"
   ],
   "note": "All histories refine a per-handle finite map. Deviations: a failed tbl_insertn keeps the pairs before the duplicate; a copied handle stays usable; a negative size reads out of bounds. Garbage collection of table records not modelled."
  },
  {
   "property": "C37",
   "status": "partial",
   "theorems": [
    "C37_total_order",
    "C37_bool_refuted"
   ],
   "note": "total order on NULL/apply/cons/int/string/uncomplemented bool/primitive/variable values; refuted for T against F"
  },
  {
   "property": "C38",
   "status": "partial",
   "theorems": [
    "C38_intern",
    "C38_refuted"
   ],
   "note": "Proved for all sequences of strings of at most STR_BLOCK_SIZE characters; false for longer ones (C38_refuted)."
  },
  {
   "property": "C39",
   "status": "proved",
   "theorems": [
    "C39_new_rec",
    "C39_elements"
   ],
   "note": "All histories of new_rec/free_rec/writes by the owners, any capacity, any addresses from malloc."
  },
  {
   "property": "C40",
   "status": "proved",
   "theorems": [
    "C40_sound",
    "C40_confluent",
    "C40_normal_unique",
    "C40_evaluator"
   ],
   "note": "Rules on trees (sharing and the cyclic Y node are read as their unwinding); delta rules of the other primitives are not part of the rewrite system."
  },
  {
   "property": "C41",
   "status": "proved",
   "theorems": [
    "C41_compile",
    "C41_expr",
    "C41_ste",
    "C41_ranks",
    "C41_ranks_refuted",
    "C41_memread_refuted",
    "C41_pred_refuted"
   ],
   "note": "Hypotheses: widths fit (shift amounts at the widths of C28), vectors declared, single drivers, no zero-delay loop at the granularity of functions; the code needs two more, shown by C41_memread_refuted (get_wexpr_size of a memory read) and C41_pred_refuted (W_PRED drops the phase delay). Names, ranges and index lists of vectors are abstracted to a look-up function."
  },
  {
   "property": "C42",
   "status": "proved",
   "theorems": [
    "C42_append",
    "C42_select",
    "C42_slice",
    "C42_size",
    "C42_map_vector",
    "C42_declare",
    "C42_names",
    "C42_name2idx",
    "C42_name2idx_refuted",
    "C42_stride_refuted"
   ],
   "note": "Declarations whose inner ranges ascend are excluded: get_stride is wrong for them (C42_stride_refuted). name2idx is right only for vectors with consecutive nodes of their own (C42_name2idx_refuted). int overflow is not modelled."
  },
  {
   "property": "C43",
   "status": "proved",
   "theorems": [
    "C43_split_show",
    "C43_contig",
    "C43_canonical",
    "C43_canonical_refuted",
    "C43_special_refuted",
    "C43_compress",
    "C43_compress_refuted",
    "C43_overlap",
    "C43_overlap_refuted",
    "C43_signature",
    "C43_star_refuted",
    "C43_merge",
    "C43_merge_order",
    "C43_merge_order_refuted",
    "C43_extract"
   ],
   "note": "Ints are unbounded. The refuted theorems record where the code departs from the expected behaviour: out-of-order ranges, the mark [-1:0], duplicated indices, overlap of several ranges, stars in names, order of multi-dimensional scalars."
  },
  {
   "property": "C44",
   "status": "proved",
   "theorems": [
    "C44_digest",
    "C44_count_refuted",
    "C44_signature",
    "C44_total",
    "C44_iso",
    "C44_stream",
    "C44_newline_refuted",
    "C44_long_refuted",
    "C44_null_refuted"
   ],
   "note": "The refuted theorems show that the conditions are needed: pieces of 2^29 bytes, newlines in strings, strings beyond the buffer and NULL children. Formulas, reference variables, external objects and the printf family are not modelled in the traversal."
  },
  {
   "property": "C45",
   "status": "proved",
   "theorems": [
    "C45_adjacency",
    "C45_search",
    "C45_enumeration",
    "C45_symmetric_refuted",
    "C45_sha_refuted"
   ],
   "note": "Symmetry of the needle's matrix is needed (C45_symmetric_refuted) and is established by mk_adj. Candidates are pairs with equal fingerprints or equal SHA sums, so equal fingerprints alone suffice (C45_sha_refuted). How the adjacencies and attributes are read off a pexlif is not modelled."
  },
  {
   "property": "C46",
   "status": "proved",
   "theorems": [
    "C46_normal",
    "C46_operations",
    "C46_return"
   ],
   "note": "Integers and their gcd are those of Z (C11 to C13 and C49 cover the arbitrary precision integers)."
  },
  {
   "property": "C47",
   "status": "partial",
   "theorems": [
    "C47_decides_partial",
    "C47_runs_partial",
    "C47_nonneg_refuted",
    "C47_dependent_stops_refuted",
    "C47_dependent_wrong_refuted",
    "C47_ne_refuted",
    "C47_cycle_refuted"
   ],
   "note": "Correct whenever it answers, without <> and with independent equations; the full statement is false: LP stops the program if all rows are x>=0, loops on Beale's example, and is wrong with <> or with repeated equations."
  },
  {
   "property": "C48",
   "status": "partial",
   "theorems": [
    "C48_shape_partial",
    "C48_solution_partial",
    "C48_negative_refuted",
    "C48_strict_refuted"
   ],
   "note": "Same hypotheses as C47, every variable with a row x>=0 and strict relations relaxed; the full statement is false for negative values and for strict inequalities."
  },
  {
   "property": "C49",
   "status": "proved",
   "theorems": [
    "C49_and",
    "C49_or",
    "C49_xor",
    "C49_not",
    "C49_negative",
    "C49_gcd"
   ],
   "note": ""
  },
  {
   "property": "C50",
   "status": "partial",
   "theorems": [
    "C50_save",
    "C50_round_trip",
    "C50_alias_refuted",
    "C50_cycle_refuted",
    "C50_var_refuted",
    "C50_type_refuted",
    "C50_uchar_refuted"
   ],
   "note": "Proved for graphs without VAR nodes, with each reference variable held by one node, texts without NUL and within the string buffer, and the same type signature; the refuted theorems show that each of these conditions is needed (aliased reference variables are separated, VAR cannot be loaded, only a prefix of the signature is compared, a root on a cycle is duplicated at the redex). Of the external object classes only bv is modelled; the files of formulas and bexprs enter as the relation between saved and loaded handles."
  },
  {
   "property": "C51",
   "status": "proved",
   "theorems": [
    "C51_answers",
    "C51_principal",
    "C51_rejects",
    "C51_restores",
    "C51_printf_refuted"
   ],
   "note": "TypeCheck without overloaded functions: it ends without crashing, its answer is principal, rejection means that no type is derivable, the store is rolled back. A printf pattern that ends in a percent sign is read past its end (refuted)."
  },
  {
   "property": "C52",
   "status": "proved",
   "theorems": [
    "C52_confluent",
    "C52_sound",
    "C52_answer",
    "C52_concrete",
    "C52_symbolic",
    "C52_sharing_refuted",
    "C52_catch_refuted",
    "C52_none_refuted",
    "C52_forced_refuted",
    "C52_interrupt_refuted"
   ],
   "note": "Sound for every heap, sharing and assignment at which no conditional was decided by a path condition false there (unconditional for programs without variables), without catch and NONE; false in each of these excluded cases, as the refutations show. P_Y, the collector and the primitives not listed are outside the model."
  },
  {
   "property": "C53",
   "status": "proved",
   "theorems": [
    "C53_count_down",
    "C53_new_node",
    "C53_collect",
    "C53_evaluate",
    "C53_unnoticed",
    "C53_protect",
    "C53_unprotect_refuted",
    "C53_leak_refuted"
   ],
   "note": "For 22 primitives, P_Y and cyclic graphs included; concrete conditions only. Collections may happen at any step. GC_Unprotect and the reclaiming of dereferences are refuted."
  },
  {
   "property": "C54",
   "status": "proved",
   "theorems": [
    "C54_print_types",
    "C54_scan_types",
    "C54_print",
    "C54_print_fails",
    "C54_roundtrip",
    "C54_cut_refuted",
    "C54_binary_refuted",
    "C54_readback_refuted",
    "C54_scan_refuted",
    "C54_printf_refuted"
   ],
   "note": "Printing is proved for texts of at most 130000 characters (longer ones are cut: C54_cut_refuted); reading back for patterns whose conversions end where they should, the refutations show the others. The texts of integers are those of ArbModel.digits; Arbi_ToString is C14."
  },
  {
   "property": "C55",
   "status": "proved",
   "theorems": [
    "C55_none",
    "C55_unique",
    "C55_many",
    "C55_deep",
    "C55_answers",
    "C55_restores",
    "C55_blame_refuted"
   ],
   "note": "Counts are exact both ways since the three answers exclude each other. The blame for the last use is refuted."
  },
  {
   "property": "C56",
   "status": "proved",
   "theorems": [
    "C56_answers",
    "C56_principal",
    "C56_implicit",
    "C56_type_error",
    "C56_no_match",
    "C56_deep",
    "C56_restores",
    "C56_restores_refuted"
   ],
   "note": "Restoration is refuted after the error for infinite loops. The error itself may come although exactly one resolution exists, if a later round is deeper than allowed; C56_deep leaves that open."
  },
  {
   "property": "C57",
   "status": "partial",
   "theorems": [
    "C57_answers",
    "C57_general_partial",
    "C57_keeps",
    "C57_insert_partial",
    "C57_general_refuted",
    "C57_open_refuted"
   ],
   "note": "The full statement (every alternative's type is an instance of the answer) is refuted for alternatives with a repeated type variable and for alternatives added to an open overload; proved when every type variable has one place. Termination and that common parts are kept are proved without conditions."
  },
  {
   "property": "C58",
   "status": "partial",
   "theorems": [
    "C58_answers",
    "C58_none",
    "C58_choice",
    "C58_effect",
    "C58_restores_refuted"
   ],
   "note": "The choice is characterised completely. That the types of the functions are as before is refuted; C58_effect says exactly how they change."
  },
  {
   "property": "C59",
   "status": "proved",
   "theorems": [
    "C59_unfold",
    "C59_leaf",
    "C59_range",
    "C59_order_refuted"
   ],
   "note": "For names with one index. C59_order_refuted: with two indices the bits are reordered."
  },
  {
   "property": "C60",
   "status": "partial",
   "theorems": [
    "C60_fold_partial",
    "C60_undriven_refuted",
    "C60_rising_refuted",
    "C60_ranges_refuted",
    "C60_scope_refuted",
    "C60_capture_refuted",
    "C60_unread_refuted"
   ],
   "note": "The behaviour is kept for names with at most one falling range if shared wires are driven and read. The rest of the statement is refuted."
  },
  {
   "property": "C61",
   "status": "partial",
   "theorems": [
    "C61_memo",
    "C61_only",
    "C61_safe",
    "C61_hit",
    "C61_refs_refuted",
    "C61_classes_refuted"
   ],
   "note": "Proved for all programs whose cached functions get no reference variables and external objects of one class per place, for up to 1.8 billion calls; refuted for both exceptions."
  },
  {
   "property": "C62",
   "status": "proved",
   "theorems": [
    "C62_find",
    "C62_ends",
    "C62_butfirst",
    "C62_substr",
    "C62_trim",
    "C62_gen_trim",
    "C62_cluster",
    "C62_split",
    "C62_implode",
    "C62_tcl",
    "C62_negative_refuted",
    "C62_overflow_refuted",
    "C62_suffix_refuted",
    "C62_cluster_refuted",
    "C62_tcl_refuted",
    "C62_regexp_refuted"
   ],
   "note": "String functions of voss_strings.c for counts that are not negative and strings that fit the buffer; tcl2list for lists without backslashes. What goes wrong beyond is refuted separately."
  },
  {
   "property": "C63",
   "status": "partial",
   "theorems": [
    "C63_scopes_partial",
    "C63_types_refuted",
    "C63_inner_refuted",
    "C63_export_refuted",
    "C63_error_refuted"
   ],
   "note": "Proved for definitions and nested blocks where no block exports a name that an inner one keeps; the rest of the statement is refuted (types in blocks, inner hidden definitions, export commands, errors)."
  },
  {
   "property": "C64",
   "status": "partial",
   "theorems": [
    "C64_add",
    "C64_sub",
    "C64_neg",
    "C64_mul",
    "C64_divmod",
    "C64_order",
    "C64_equal",
    "C64_bitwise",
    "C64_zero_extend",
    "C64_then",
    "C64_int2bev",
    "C64_bev2int",
    "C64_ashr_partial",
    "C64_ashr_refuted",
    "C64_pow_refuted"
   ],
   "note": "Proved for all vectors and all assignments; bev_ashr only for shifts by less than the length (the rest is refuted), bev_pow and the shifts that use it are refuted. The node operations of bexpr.c are parameters assumed right for the assignment (C21)."
  },
  {
   "property": "C65",
   "status": "proved",
   "theorems": [
    "C65_map",
    "C65_restore",
    "C65_undo_refuted",
    "C65_twice_refuted",
    "C65_replace_refuted",
    "C65_closed_refuted"
   ],
   "note": "Proved for histories that change a key at most once per generation; the refuted theorems show that the restriction is needed."
  },
  {
   "property": "C66",
   "status": "proved",
   "theorems": [
    "C66_random2",
    "C66_random2_onto",
    "C66_log2",
    "C66_pow",
    "C66_random",
    "C66_random_fails",
    "C66_random_onto",
    "C66_random2_refuted",
    "C66_random_refuted"
   ],
   "note": "Beyond 61 bits the refuted theorems show that the answer can have the wrong sign."
  },
  {
   "property": "C67",
   "status": "proved",
   "theorems": [
    "C67_buffer",
    "C67_unique",
    "C67_fetch_refuted",
    "C67_push_refuted",
    "C67_locate_refuted"
   ],
   "note": "Proved for indices below the count or above it and for blocks below 4 GB; the refuted theorems show what happens otherwise."
  },
  {
   "property": "C68",
   "status": "proved",
   "theorems": [
    "C68_sbits",
    "C68_ubits",
    "C68_nearest",
    "C68_upto",
    "C68_downto",
    "C68_range"
   ],
   "note": "All integers; lists are evaluated in full."
  },
  {
   "property": "C69",
   "status": "proved",
   "theorems": [
    "C69_param",
    "C69_image",
    "C69_fails"
   ],
   "note": "Over trees of reduced ordered BDDs; the answer is given as functions. fparam is not modelled."
  }
 ]
}
