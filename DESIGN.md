# Formal model of VossII (fl interpreter core) in Rocq

Sources: `/repo` (TeamVoss/VossII), read as text; nothing is built or run.
Properties: `properties.jsonl`.  Status per property: `MANIFEST.json`.
Model and proofs: `rocq/theories/*.v`.  Seeded faults: `seeded/LOG.jsonl`.

## 1. Approach

Each C module is modelled by small total Gallina functions that follow the C
functions one by one.  Each definition cites the file and lines it models and
states its simplifications.  Undefined behaviour, traps, null dereferences and
calls of DIE are a distinct outcome (`None`), never a silent default.
Recursion that C bounds by the data is on fuel; the theorems say how much fuel
suffices, or hold for every amount.

Property theorems live in the files `*_Props.v`.  Each is closed by `exact
lemma` (or a short proof), has `Print Assumptions` beneath and a concrete
`Example` beside it that meets its hypotheses.  Where a statement is false of
the faithful model, a theorem `..._refuted` gives the witness; the theorem for
the remaining cases then carries the hypotheses that the witness violates.
Theorems whose hypotheses exclude inputs that the property covers end in
`_partial`, unless the exclusion is part of the property's statement.

Specifications are separate from the models: functions from assignments to
Booleans for BDDs and AIGs, Z for big integers and vectors, the
lambda calculus in de Bruijn form for the compiler (`LamSpec.v`), substitutions
for unification, two-valued executions for STE, FIPS 180-4 for SHA-256
(`ShaSpec.v`), embeddings for the subgraph search (`IsoSpec.v`), constraint
satisfaction over Qc for LP (`LpSpec.v`), graph isomorphism for the archive
(`SerSpec.v`), scalars of a vector name for the name functions (`IlistSpec.v`).

## 2. Trusted base

* Coq 8.16.1's kernel (including `vm_compute`, used in Examples and in
  refutations).
* `Print Assumptions` of every property theorem: "Closed under the global
  context".  No axiom is used by any of them, and none is declared.
* The BDD, bv and bexpr files use std++ (`gmap`), which loads
  `Coq.ssr.ssrunder`; that file of the standard library declares seven
  parameters (Under_rel, Under_rel_from_rel, Under_relE, Over_rel, over_rel,
  over_rel_done, under_rel_done).  They are loaded with the library and used
  by no theorem here.
* That the model says what the C text says.  The correspondence is by reading;
  each definition cites its lines.
* For the C side: 64-bit `long` and pointers, 32-bit `int` (LP64), `char` read
  as a byte, two's complement.  Where int overflow is not modelled the file
  says so.

## 3. What is modelled

| files | code (src/bin/fl unless noted) | properties |
|---|---|---|
| BddModel, BddWf, BddOps, BddVar, BddQuant, BddRelprod, BddDen, BddSubst, BddSize, BddCount, BddHist, BddThms | new_bdd.c: unique table, free list, shared op cache, B_And..B_Ite, variables and pairing, B_Depends, quantify, Rel_prod, substitution, sizes, counting | C01-C07 |
| BddGc, BddSwap, BddSave | new_bdd.c: mark/sweep, adjacent exchange, save and load | C08-C10 |
| ArbModel, ArbBase, ArbMul, ArbDiv, ArbDivThm, ArbStr, ArbMore | arb_prec.c word by word | C11-C14, C49 |
| BvModel, BvBits, BvTri, BvArith, BvDiv, BvConv, BvThms | bv.c | C15-C20 |
| BeModel, BeSem, BeThms, BeEx | bexpr.c, interface of minisat_ifc.cc | C21, C22 |
| CombModel, LamSpec, CombConf, CombThms, CombOpt, CombEx | compile.c, abstraction and combinator rules of graph.c | C23, C24, C40 |
| TyModel, TyThms | typecheck.c: unify, occurs, contexts | C25 |
| InfModel, InfSpec, InfThms, InfRun, InfTop, InfEnd, InfEx | typecheck.c: TypeCheck, build_node_type_struct, get_prim_fun_type, copies of types; PROCESS_PRINTF_PAT of io.h | C51 |
| GredModel, GredSpec, GredConf, GredFail, GredHeap, GredParts, GredFire, GredThms, GredMain, GredEx | graph.c: traverse_left (31 primitives), force, Gen_map2, g_b_ite; OVERWRITE and the forced bit of graph.h; Boolean primitives of new_bdd.c | C52 |
| RcModel, RcSpec, RcInv, RcDec, RcGc, RcWalk, RcFire, RcLoop, RcMain, RcSim, RcLock, RcEx | graph.h: the two count/mark bits, OVERWRITE; graph.c: dec_ref_cnt, Mark, Do_garbage_collect, sweep, Get_node, the counting done by 22 primitives of traverse_left (P_Y included), GC_Protect; reference variables and memo tables of cache.c as seen by the collector | C53 |
| IoModel, IoSpec, IoText, IoThms, IoEx | io.c: Printf, Sscanf, in_range, prs, print_list; Printf_arity and the typing of patterns; GET_INT, Make_Printf_Primitive of graph.c; strtemp, strappend, charappend | C54 |
| OvModel, OvSpec, OvPath, OvStore, OvThms, OvEnd, OvEx | typecheck.c: nbr_succ_overload_res, make_implicit_call, find_core_type, Type_eq | C55 |
| OvCheck, OvUse, OvInf, OvPlug, OvFull, OvRound, OvTop, OvStop, OvTopEx | typecheck.c: TypeCheck and build_node_type_struct with overloaded functions | C56 |
| ComModel, ComSpec, ComThms, ComTop, ComTable | typecheck.c: find_common_type_rec, Get_common_type; symbol.c: InsertOverloadDef, AddToOpenOverloadDef | C57 |
| OvModel (section Choice), ChoThms, ChoEx | typecheck.c: Find_Overload_Choice | C58 |
| PexModel, PexSpec, PexName, PexThms, PexFold, PexEx | pexlif.c: unfold_pexlif, fold_pexlif, mk_adj_tables, mk_formal_actuals_substitution, subst_formal, subst_fa_list; voss_strings.c: VDB_* (base names) | C59, C60 |
| MemoModel, MemoSpec, MemoThms, MemoEx | cache.c: caches of clet functions; graph.c: P_CACHE | C61 |
| AdtModel, AdtSpec, AdtThms, AdtEx | symbol.c: Begin_ADT, End_ADT, Export_Fun, update_stbl, New_fn_def, Merge_fn_defs, Find_Function_Def (visibility of names) | C63 |
| BevModel, BevSpec, BevThms, BevEx | bev.c (all but printing, saving, bev_var and the generic maps); preamble.fl: bevTHEN, bev_neg, bev_pow, bev_shl, bev_ashr_bevbev | C64 |
| TextModel, TextSpec, TextThms, TextEx | voss_strings.c: str_is_prefix, str_is_suffix, str_is_substr, strstr, string_lastn, butlastn, butfirstn, substr, trim, gen_trim, cluster, split, implode, tcl2list, compile_regexp (its cache) | C62 |
| FsmOps, FsmRel, FsmBool, FsmWord, FsmDelay, FsmExact | fsm.c operators (5630-6520) | C26-C29 |
| SteModel, SteEv, SteForce, SteForceThms, SteSim, SteRun, SteEx | fsm.c: event list, event wheel, update_node, initialize, gSTE | C30, C31 |
| CompModel, CompSpec, CompKind, CompGrow, CompThms, CompExpr, CompRank, CompLeaf, CompEx | fsm.c: compile_expr, leaf compilation, ranks | C41 |
| IlistModel, IlistSpec, IlistThms | fsm.c: index lists, declarations, names of nodes | C42 |
| VnameModel, VnameThms, VnameMerge | voss_strings.c: names, ranges, merge, extract | C43 |
| GenModel, GenSpec, GenThms | lib/generation_hash.c (all but dispose_gen_hash) | C65 |
| RandModel, RandSpec, RandThms | int_ops.c: random2; preamble.fl: log2, ipow, random | C66 |
| BitsModel, BitsSpec, BitsThms | preamble.fl: upto, downto, --, sbits_needed, ubits_needed, nearest_power_of_2 | C68 |
| ParamModel, ParamSpec, ParamThms | preamble.fl: parametric, param; new_bdd.c: top_cofactor, depends | C69 |
| BufModel, BufSpec, BufThms | lib/buf.c, lib/uniq_buf.c (all but the free functions) | C67 |
| HashModel, HashThms; StrModel, StrThms; RecModel, RecThms | lib/hash.c, lib/strmgr.c + wastrsave, lib/rec.c | C32, C38, C39 |
| ListModel, ListThms, ListSetThms, ListSegThms | list_ops.c, G_rec_hash/G_rec_equ, Graph_cmp | C33-C35, C37 |
| TblModel, TblThms | table.c | C36 |
| ShaModel, ShaSpec, ShaThms, ShaGraph, ShaGraphSpec, ShaGraphThms | sha256.c | C44 |
| IsoModel, IsoSpec, IsoThms, IsoCreate | iso.c | C45 |
| LpRat, LpModel, LpBase, LpSpec, LpTab, LpSimplex, LpPhase*, LpStd, LpTop, LpThms, LpCycle | lp.c | C46-C48 |
| SerModel, SerSpec, SerNum, SerThms, SerTrav, SerTop, SerEx | serialize.c, Save_graph/Load_graph of io.c | C50 |

Abstractions that matter when reading the theorems:

* Tables with generations (C65): over the model of hash.c; keys are of any type,
  the pointer value of a key is not NULL, data are not NULL.  The specification is a
  finite map (a function) with a stack of saved maps.  Nothing else in the repository
  uses this file, so the restrictions on use in C65_map are not those of a caller.
* Random integers (C66): random() is an arbitrary list of answers; integers are Z; the
  digits printed by sprintf "%b" are the binary digits.
* Bits needed and ranges (C68): over log2 and ipow of C66; lists are evaluated in full.
* Parametric representations (C69): the condition is the tree of a reduced ordered BDD, a
  variable its place in the order, the answer a list of functions; fparam is not modelled.
* Buffers (C67): a block is a list of bytes, accesses outside it are `None`, unsigned
  int wraps at 2^32; out of memory is not represented.  A key of the table in
  uniq_buf.c is the item itself (the code points to a private copy of it).
* BDDs: hash chains are sets of nodes (the unique table is a map from triples),
  the operation cache is an arbitrary-size direct-mapped cache with an
  arbitrary hash; table growth and the 2^31 limit are not modelled.  A session
  is any sequence of the modelled calls, collections and reorderings; the
  roots of a collection are the formulas the session holds.  The sifting
  heuristic is an arbitrary choice of exchanges.
* Big integers: exact word-level model, signed overflow wraps (the file is
  compiled without optimisation), traps are `None`.
* bv: on top of the BDD model; reference counts and GC protection not modelled.
* bexpr: signatures are an arbitrary function; the solver is arbitrary and
  only required to be right when it answers "unsat".
* Compiler: graphs are trees (sharing read as unwinding).
* STE: rails are over an arbitrary Boolean algebra; the weakening operators are
  those of C29; qsort is any sorting function for the comparison.
* Type inference (C51): expressions are trees without overloaded functions (for
  these see C56); the types of primitives are the table of get_prim_fun_type, which the rules share.
* LP: entries are Qc; C46 relates the pairs of arbitrary precision integers to
  Qc with Z in the place of those integers.
* Archive: formulas and bexprs files enter as the relation between saved and
  loaded handles; of the external classes only bv is modelled.

- Graph reduction (C52): heaps only grow (no collector, no reference counts);
  no recursion through P_Y (cyclic graphs), no memo table in Gen_map2, no
  stack limit; BDDs are formulas compared by truth table.  Running out of fuel
  stands for an interrupt.  Failures: the theorems say what an answer without
  failures is; which failure is reported, and that one is reported at all, is
  left open, as is that an answer is found whenever there is one.

- Node store (C53): cells, two-bit counts, free list (a list; in the code its
  link is the right word of a free node), tables of reference variables and
  memos.  A collection may happen at every test of do_gc_asap, as an arbitrary
  list of Booleans says.  The roots are a fixed list that contains the node
  being evaluated and void; a root that the code also saturates comes with
  `true`.  The nodes held by symbols, Tcl callbacks and other modules are roots
  too.  Conditions are Boolean constants, the forced bit and the marks of BDDs
  and integers are left out, and force is traverse_left.  Reference variables
  and memo tables share one array.  `None` is a DIE, a failed ASSERT or no fuel.

- Formatted printing (C54): arguments are forced values; integers are their
  values and their texts those of ArbModel.digits; a Boolean is the text that
  B_Print gives.  What printf does with the text (stdout, file, failure) is
  left out.  `prints` gives patterns their meaning item by item; it takes over
  from the code that a binary field is cut without a test for the sign.

- Overloading (C55): functions are entries of a table, uses are pairs of a
  function and a pointer to a type.  The shortcut of Type_eq for two variables
  (it compares numbers given for printing) is an arbitrary function.  Tables
  are such that the type of an alternative starts with an arrow for each of its
  implicit arguments, whose types are instances of those of the functions.

- TypeCheck with overloaded functions (C56): which node a use belongs to is
  known from the order of the list of uses.  The new contents of the nodes are
  a new tree; hints stay with the nodes.  The type of an overloaded function is
  at least as general as those of its alternatives (`general`).  The message
  for a type error and the types kept in the implicit arguments are left out.
  The theorem on the new expression with implicit arguments is for expressions
  in which no function binds a name `.impl_arg.N`.

- Types of overloaded functions (C57, C58): all types are in one store.  The
  sharing of argument lists in find_common_typelist is kept as flags.  The
  order in which Add_To_OverloadList builds the list is not modelled.

- Designs (C59, C60): a design is a tree of instances; the functions of the leaves
  are of any type.  The meaning in PexSpec is independent of the model: values of
  scalar wires inside and outside an instance agree at its ports, and the leaves'
  functions hold.  Numbers in new names do not overflow; the loop over new names
  is given as many turns as there are names in use, plus two, and is proved to end
  within them.  The order of SCAN_HASH and of qsort is a parameter.

- Cached functions (C61): arguments and answers are trees; a function as an
  argument is the address of its node (entries of a cache are marked by the
  collector and counted, so that addresses are not used again).  A body is a tree
  of calls.  The contents of reference variables do not change during a
  computation.  That a failing argument makes the call fail is not modelled.

- Abstract types (C63): a definition is its name, a value, its flags and level;
  forward declarations, overloads and the table of constructors are left out.
  The hash table is one chain (see C32 for what growing does to several bindings
  of a name).
- Vectors over and-inverter graphs (C64): the nodes and the operations of bexpr.c are
  parameters (`alg`), pure functions; the theorems hold for every choice of them and
  every assignment for which they are right (`sound`; C21 is the theorem that bexpr.c
  is right).  That bexpr.c can fail (C21_total_refuted) and its state are left out
  here.  `==` of nodes is `same`, of which only soundness is used, but for bev2int,
  which needs that it is identity and that constants are folded (`folding`).  Big
  integers are `Z`.  In preamble.fl an operation of bev.c evaluates both arguments
  (they are declared strict).

- String functions (C62): the temporary buffer (gen_strtemp) is the string, a
  NUL and the bytes left by earlier calls, which are a parameter; reading or
  writing outside of it, or before a string, is undefined.  Strings are shorter
  than STR_BLOCK_SIZE (see C38), counts are C ints.  Characters are compared as
  in the C locale.  A line of the cache of regular expressions is its pattern and
  time; regcomp is a parameter that accepts a pattern or not.

Not modelled: the parser and lexer, the primitives that
C52 and C53 do not list, the Tcl/Tk front end, image.c, the rest of pexlif.c (drawing, attributes,
fingerprints, conversion of the functions), the parts of fsm.c
that only display, ubv.c (a clone of bv.c over another carrier),
system calls, threads, verilog/yosys front ends, the .fl libraries.

## 4. Findings

Statements proved false of the model (theorem in brackets), and further
deviations found by reading while modelling (no theorem).

**BDD package.**  Rel_prod passes a C bool where quantify expects a tag, so
relprod_forall/thereis give wrong results and poison the cache
[C04_*_refuted].  Read only: variable pairing fails when "x_n_n" is declared
before "x"; is_next_state_var asks len>2 where B_Var asks len>=2;
user_defined_reorder's `pos -= 2` wraps; truth cover of an empty list returns
numbers above 1; Load_BDDs returns TRUE on an illegal header; names with white
space do not round trip; bdd_size [f, NOT f] counts the root twice; reordering
during substitute can unsort the list; duplicates multiply in
simple_model_count and shift positions in var_order; table growth has no 2^31
check; SHA256_bdd stores a sign-adjusted id.

**Integers.**  (-1)*(-2^63) traps [C12_mlt_refuted]; 2^63/(-2^63) traps
[C13_refuted]; top word -2^63 is not printable [C14_refuted_top]; negative
numbers in base 16 come back positive [C14_refuted_hex].  Read only:
Arbi_FromString("-bad") negates NULL; characters above 127 index c2i_convert
out of bounds; Arbi_ToInt returns NULL for more than one word and GET_INT
dereferences it; words are cut to int.

**Bit vectors.**  `list2bv []` takes the head of NIL; bv_list2str overflows its
buffer for wide vectors (read only).

**bexpr.**  be2bdd keeps in the node the BDD computed under a substitution list
[C22_refuted]; after BE_Clean the solver literal of TRUE is invalid
[C21_total_refuted].  Read only: be_and reads the height through complemented
pointers; BE_NEQ compares signatures; check_for_satisfaction_with_SAT is
inverted; bexpr_is_unsat answers T for res<=0; bAND/bOR do not check the
failure of the second argument.

**Compiler.**  A user variable spelled _ZZ'1 is captured [C24_refuted]; the
small abstraction path reaches only a common reduct
[C23_apply_literal_refuted].

**Types.**  pop_tc_context(FALSE) loses the inner trail [C25_rollback_refuted];
applications of one constructor with different numbers of arguments unify
[C25_arity_refuted].  Read only: a failure in nested contexts pops
only the innermost; memoize.c compares ai1 with itself.  A printf pattern that
ends in '%' is read past its end [C51_printf_refuted].  Read only: the type of
an external primitive is instantiated without clearing the marks of the
previous copy; copying is exponential on shared types; a variable in a type
abbreviation is shared by all hints of an expression that use it.

**Overloading.**  When overloaded functions cannot be resolved, the one that is
blamed is the last one in the text, even if it has a matching alternative and
another one has none [C55_blame_refuted].  The error for infinite loops leaves
the contexts of the search pushed, of which TypeCheck pops one
[C56_restores_refuted].  The type computed for an overloaded function is not a
generalisation of its alternatives when a variable occurs twice: `a -> a` and
`int -> bool` give `c -> c`, and the second alternative cannot be used
[C57_general_refuted]; add_open_overload does not compute the type again
[C57_open_refuted]; a declared type that does not fit is silently made more
general.  Listing a polymorphic function in an overload with a type
(`{id :: int->int}`) specialises the function itself for good
[C58_restores_refuted].

**Designs.**  unfold_pexlif reorders the bits of a port whose actuals have two
indices, as Merge_Vectors does [C59_order_refuted].  fold_pexlif separates
instances that read a wire without a driver [C60_undriven_refuted], and cuts
connections by rising ranges and by names with several ranges, since
Check_range_overlap does not see them [C60_rising_refuted, C60_ranges_refuted].
A wire that the folded children use among themselves is removed from the internal
wires of the design even if other children use it too [C60_scope_refuted]; a later
unfold_pexlif then joins it with an internal wire of the same name in another
instance [C60_capture_refuted].  An output that nothing reads is not declared in
the new instance [C60_unread_refuted].  Read only: the message of unfold_pexlif
for a number out of range gives one instance too many; fold_pexlif drops the
attributes of the design.

**Evaluator.**  A conditional decided by the path condition of one branch is
overwritten for all users of the node: `let x = IF a THEN b ELSE c in IF a
THEN x ELSE NOT x` loses c [C52_sharing_refuted].  A failure under a symbolic
condition is caught unconditionally [C52_catch_refuted].  `IF a THEN NONE ELSE
SOME v` is SOME v [C52_none_refuted].  force marks a list as forced before its
elements are; after a failure the mark stays, and a later force of the list
succeeds [C52_forced_refuted].  An interrupt during an else branch leaves the
conditional with void as its function [C52_interrupt_refuted].  Read only:
P_STRING_HD/TL assign to pfn in building the message; P_TCL_EVAL jumps to
fail1 before redex is set when there is no GUI; P_CACHE reports a stale
FailBuf; P_PFAIL dies when applied; Is_equal answers F when a component fails.

**Node store.**  GC_Unprotect tests the wrong way round and never lets a node go
[C53_unprotect_refuted]; P_DEREFERENCE counts the redex up and the leaf never
down [C53_leak_refuted], as do the failing exits of all primitives.  Read only:
Sweep_RefVars is never called, so the slots of dead reference variables keep
dangling pointers (nothing reads them); a conditional that needs its own value
in the else branch runs into `ASSERT(depth==0)` at P_VOID instead of looping;
cache_eq takes any two P_CACHE leaves for equal.

**Cached functions.**  Two reference variables with equal contents are one
argument to a cached function: `clet f r = r` answers with the first variable
for the second one [C61_refs_refuted].  External objects of different classes as
arguments of a polymorphic cached function are compared with the function of the
first one's class [C61_classes_refuted].  Read only: an entry is found again after
the contents of a reference variable in it have changed; a cached function
evaluates all its arguments, so it fails where the same function with `let` does
not; new_prime leaves its array at 1.8 billion entries; Mark_G_Cache on a cache
that is cleared by clean_clets keeps nothing, but the counts of the old entries
stay up until the next collection.

**Formatted printing and scanning.**  Texts are cut at 130000 characters without
notice [C54_cut_refuted]; `%4b` of -9 is 0111 [C54_binary_refuted]; `%b` reads
back a negative number as a positive one, and a number padded with spaces as 0
[C54_readback_refuted]; `%d` finds 0 in a text without digits, `%10s` reads past
the end of a shorter input, and in_range takes ':', 'g' and 'G' for hexadecimal
digits, so that `sscanf "%x:%x"` makes a null pointer of the number
[C54_scan_refuted]; `printf "50%%"` prints both percent signs, and a negative
width by `*` makes negative numbers fail [C54_printf_refuted].

**Random numbers.**  random2 of 62 bits and more can be negative, because the chunk
1 << 31 is the most negative int [C66_random2_refuted]; so random on an interval whose
size is a power of two above 2^61 can answer a number below it [C66_random_refuted].

**Lists, tables, hash tables, strings.**  Growing reverses chains
[C32_refuted]; deleting an absent key dereferences NULL [C32_delete_refuted];
union with [] keeps duplicates [C34_union_refuted]; lastn/butlastn with a
negative count [C35_lastn_refuted]; counts beyond int [C35_count_refuted]; a
failing tbl_insertn keeps a prefix [C36_atomic_refuted]; copied handles
[C36_copy_refuted]; negative sizes [C36_create_refuted]; T against F in the
generic comparison [C37_bool_refuted]; strings above STR_BLOCK_SIZE
[C38_refuted].  generation_hash.c records the state of a key too late or not at
all: a key inserted and deleted in a generation makes end_generation follow NULL
[C65_undo_refuted], keys changed twice keep stale bindings [C65_twice_refuted], and so
do keys replaced in an inner generation [C65_replace_refuted]; ending the first
generation leaves cur_diff NULL [C65_closed_refuted].  M_LOCATE_BUF takes i==buf_size
for an index [C67_fetch_refuted]; push_buf computes a new size of 0 at 2 GB
[C67_push_refuted]; locate_uniq_buf behind the end shifts later items
[C67_locate_refuted].  Read only: Calloc does not look at the answer of calloc; clean_cache reads a freed bucket; primes[] can run past its
terminator; gen_strtemp writes one past tmp_buf; gen_charappend returns its
static buffer; table_eq_fn returns a C bool as formula; truncated pointer
differences in Graph_cmp; gather/separate leak references on failure.

**Abstract types.**  lettype puts the constructors behind the whole list of
definitions (Merge_fn_defs), and end_abstype hides only what is before the
definition that was first at begin_abstype: the constructors of a type declared in
an abstract type stay known outside [C63_types_refuted].  end_abstype exports the
newest definition of a name, also if an inner abstract type has hidden it
[C63_inner_refuted].  A name exported twice by `export` means its first definition;
the mark of `export` stays, so that the name leaves the outer abstract type too
[C63_export_refuted].  An error in an inner end_abstype sets the level to 1, after
which a hidden definition makes an outer one unknown [C63_error_refuted].  Read
only: the status of a constructor is deleted by name, also if the name is that of
an outer type; end_abstype with an unknown export hides nothing at all.

**Vectors over and-inverter graphs.**  bev_ashr by the length of the vector or more
gives a vector without bits (bv_ashr of bv.c has a case for it), also for a negative
number; the next operation on it takes the head of NIL [C64_ashr_refuted].  bev_pow of
preamble.fl tests `n >= 0` where bv_pow tests `n <= '0`, and its THEN evaluates both
branches, so that it recurses for ever for all arguments; bev_shl, bev_shr and bev_ashr
by a vector call it [C64_pow_refuted].

**String functions.**  compile_regexp tests `hole == -1` the wrong way round: with
empty lines in the cache it takes the oldest line, which is -1 at the start, so the
first regular expression of a session frees and writes before the cache
[C62_regexp_refuted].  string_lastn with a negative count returns bytes of earlier
strings, string_butfirstn reads before the string [C62_negative_refuted];
string_substr overflows for a count of 2^31-1 [C62_overflow_refuted];
string_gen_trim with an empty suffix runs out of the buffer [C62_suffix_refuted];
string_cluster divides by zero, and runs out of the buffer for negative sizes
[C62_cluster_refuted]; tcl2list keeps backslashes, drops what is before a brace in a
word, and after a backslash at the end goes on in earlier strings [C62_tcl_refuted].

**Circuit operators and compilation.**  Shifts beyond 32 bits
[C28_shift_refuted, C28_shr_refuted]; op_LAT_LEQ is not monotone
[C27_lat_leq_refuted]; plain ITE loses information [C27_plain_ite_refuted];
W_PRED drops the phase delay [C41_pred_refuted]; get_wexpr_size swaps address
and data sizes of memory reads [C41_memread_refuted]; ranks beyond depth 1000
[C41_ranks_refuted]; get_stride for ascending inner ranges [C42_stride_refuted];
name2idx for non-consecutive nodes [C42_name2idx_refuted].  Read only: slice
checks only loc<0; operand sizes unchecked; each use of an undeclared signal
makes a fresh vector; out-of-range left-hand slices give a neighbour's node;
memories with more than 2^asz lines select the last matching line;
cr.no_weakening and nr.has_ant_or_weak_change are never initialised.

**STE.**  Overlapping intervals [C30_overlap_refuted, C31_overlap_refuted];
empty intervals [C31_empty_refuted]; several weakenings are conjoined
[C31_weak_refuted]; a starting consequent or trace cancels the re-evaluation at
the end of an antecedent [C30_cancel_refuted]; antecedents on phase-delay
outputs come one phase late [C30_phase_refuted]; zero-delay feedback keeps
stale values [C30_feedback_refuted].  Read only: events are popped with the
largest type number first, contrary to the comment; gSTE ignores the -1 of
do_combinational; validTrajectory can be false because of transients.

**Vector names.**  Out-of-order ranges [C43_canonical_refuted]; the mark [-1:0]
[C43_special_refuted]; duplicates [C43_compress_refuted]; overlap tested
pairwise [C43_overlap_refuted]; '*' in names [C43_star_refuted]; order of
multi-dimensional scalars [C43_merge_order_refuted].  Read only: SPRINT_RANGE's buffer
of 20; show_non_contig_vectors on [] is uninitialised; names starting "0b" are
taken for constants.

**Signatures.**  Pieces of 2^29 bytes [C44_count_refuted]; newlines
[C44_newline_refuted]; texts beyond 4095 bytes [C44_long_refuted]; NULL
children [C44_null_refuted].  Read only: Get_SHA256_signature writes "%p" into
char[10] on failure; reference variables print their number.

**Subgraph search.**  Asymmetric needles [C45_symmetric_refuted]; equal
fingerprints suffice [C45_sha_refuted].  Read only: after "no more matches" the
next call starts over; `ASSERT(m->rows = m->cols)` assigns.

**LP.**  All rows x_j>=0 [C47_nonneg_refuted]; dependent equations
[C47_dependent_stops_refuted, C47_dependent_wrong_refuted]; `<>`
[C47_ne_refuted]; cycling [C47_cycle_refuted]; the negative half of a split
variable is added [C48_negative_refuted]; strict inequalities
[C48_strict_refuted].

**Archives.**  [C50_alias_refuted, C50_cycle_refuted, C50_var_refuted,
C50_type_refuted, C50_uchar_refuted].  Read only: USERDEF/LAMBDA nodes DIE;
NULL children crash on loading; failure paths leak; a user's file named
"stdout" captures the stream.

## 5. Seeded faults

`seeded/LOG.jsonl` has one line per edit of a model definition in a scratch
copy: the definition, the edit, the claim it should break, the theorems that
failed to compile, and whether a theorem was tightened because of it.  Edits
that no theorem caught are kept with the reason (the edit does not change the
behaviour the properties speak about, or the theorem that was added).

## 6. Building

`cd rocq && coq_makefile -f _CoqProject -o Makefile && make -j4`, about six
minutes on four cores.
