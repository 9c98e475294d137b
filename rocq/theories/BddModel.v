(** Model of the BDD package: /repo/src/bin/fl/new_bdd.c and new_bdd.h.

    Simplifications (all definitions of this file):
    - A [formula] is a 32-bit word: bit 31 is the complement mark, bits 0..30
      index [MainTbl].  It is modelled by the pair (complement mark, index);
      file BddWord.v proves that the macros ISNOT/NOT/POS of new_bdd.h implement
      this pair.  The table is unbounded (the C program exhausts memory).
    - The per-variable unique hash tables are one finite map
      (var, lson, rson) -> index (BddUniq.v proves the bucket chains refine it).
    - The operation cache is a finite map (tag, arg1, arg2) -> result
      (hash.c is treated in Hash.v).
    - Reference counts and mark bits only matter for garbage collection and
      reordering and appear in BddGc.v / BddSwap.v.
    - Failure ([None]) stands for: dereference of a table entry that is not in
      use, the DIE("Should not happen.") branches, and running out of fuel; the
      theorems show that none of them happens. *)
From stdpp Require Import gmap strings list.
From Coq Require Import NArith.
Open Scope N_scope.

(** new_bdd.h 14, 175-190: the type [formula]. *)
Notation fml := (prod bool N).
(** new_bdd.c 1151-1152 (B_Init): ZERO = 0; ONE = NOT(ZERO). *)
Definition ZERO : fml := (false, 0).
Definition ONE : fml := (true, 0).
(** new_bdd.h: macros NOT and POS. *)
Definition bnot (f : fml) : fml := (negb f.1, f.2).
Definition pos (f : fml) : fml := (false, f.2).

(** new_bdd.h 62-67: operation tags of the shared cache. *)
Definition tAND : N := 1.
Definition tOR : N := 2.
Definition tXOR : N := 3.
Definition tUNIVERSAL : N := 4.
Definition tEXISTENTIAL : N := 5.
Definition tDEPENDS : N := 6.

(** new_bdd.h 88-112 (bdd_rec): var, lson, rson of a node. *)
Notation node := (prod (prod N fml) fml).

(** Global variables of new_bdd.c: MainTbl (only entries in use), the unique
    tables, b_free_list, sz_MainTbl, VarTbl[..].variable, VarTbl[..].var_name,
    var_htbl, cache_tbl. *)
Record bst := mkSt {
  nodes : gmap N node;
  uniq : gmap node N;
  free : list N;
  size : N;
  ord : list N;
  vnames : list string;
  vtbl : gmap string fml;
  cache : gmap (N * fml * fml) fml
}.

Definition nvars (s : bst) : N := N.of_nat (length (ord s)).

(** new_bdd.h 194: #define ORDER(var) ((VarTbl+(var))->variable). *)
Definition ORDER (s : bst) (v : N) : N := nth (N.to_nat v) (ord s) 0.

Definition M (A : Type) : Type := bst -> option (A * bst).
Definition ret {A} (a : A) : M A := fun s => Some (a, s).
Definition bind {A B} (m : M A) (k : A -> M B) : M B :=
  fun s => match m s with None => None | Some (a, s') => k a s' end.
Notation "'let*' x := m 'in' k" := (bind m (fun x => k))
  (at level 200, x name, m at level 100, k at level 200).

(** new_bdd.c 2363-2394 (grow_MainTbl): doubles the table; the new entries form
    the free list in increasing order.  The collection and reordering requests
    it raises (Do_gc_asap) are separate steps (BddGc.v). *)
Definition grow_MainTbl (s : bst) : bst :=
  mkSt (nodes s) (uniq s)
       (map (fun k => size s + N.of_nat k) (seq 0 (N.to_nat (size s))))
       (2 * size s) (ord s) (vnames s) (vtbl s) (cache s).

(** new_bdd.c 2461-2525 (find_insert_bdd). *)
Definition find_insert (v : N) (l r : fml) : M fml := fun s =>
  if decide (l = r) then Some (l, s) else
  let neg := l.1 in
  let l' := if neg then bnot l else l in
  let r' := if neg then bnot r else r in
  match uniq s !! (v, l', r') with
  | Some i => Some ((neg, i), s)
  | None =>
    let s1 := match free s with [] => grow_MainTbl s | _ => s end in
    match free s1 with
    | [] => None
    | i :: fr =>
      Some ((neg, i),
            mkSt (<[i := (v, l', r')]> (nodes s1)) (<[(v, l', r') := i]> (uniq s1))
                 fr (size s1) (ord s1) (vnames s1) (vtbl s1) (cache s1))
    end
  end.

(** Cache insertion, e.g. new_bdd.c 2645-2652. *)
Definition cache_insert (fn : N) (f g r : fml) : M unit := fun s =>
  Some (tt, mkSt (nodes s) (uniq s) (free s) (size s) (ord s) (vnames s) (vtbl s)
                 (<[(fn, f, g) := r]> (cache s))).

Definition get_node (f : fml) : M node := fun s =>
  match nodes s !! f.2 with Some n => Some (n, s) | None => None end.

(** new_bdd.c 2556-2572 and 2573-2605: the simple identities at the start of
    bdd_step; [None] means that the general case applies. *)
Definition step_simple (fn : N) (f1 f2 : fml) : option fml :=
  if decide (f1.2 = f2.2) then
    if decide (f1 = f2) then
      Some (if decide (fn = tXOR) then ZERO else f1)
    else
      Some (if decide (fn = tAND) then ZERO else ONE)
  else if decide (f1.2 = 0 \/ f2.2 = 0) then
    if decide (fn = tAND) then
      if decide (f1 = ONE) then Some f2 else
      if decide (f2 = ONE) then Some f1 else Some ZERO
    else if decide (fn = tOR) then
      if decide (f1 = ZERO) then Some f2 else
      if decide (f2 = ZERO) then Some f1 else Some ONE
    else
      if decide (f1 = ZERO) then Some f2 else
      if decide (f2 = ZERO) then Some f1 else
      if decide (f1 = ONE) then Some (bnot f2) else Some (bnot f1)
  else None.

(** Sons of a formula with the complement mark pushed down,
    e.g. new_bdd.c 2627-2634. *)
Definition lsonc (f : fml) (n : node) : fml := if f.1 then bnot n.1.2 else n.1.2.
Definition rsonc (f : fml) (n : node) : fml := if f.1 then bnot n.2 else n.2.

(** new_bdd.c 2527-2659 (bdd_step). *)
Fixpoint bdd_step (fuel : nat) (fn : N) (f1 f2 : fml) : M fml := fun s =>
  match fuel with
  | O => None
  | S fuel =>
    match step_simple fn f1 f2 with
    | Some r => Some (r, s)
    | None =>
      match cache s !! (fn, f1, f2) with
      | Some r => Some (r, s)
      | None =>
        (let* n1 := get_node f1 in
         let* n2 := get_node f2 in
         let o1 := ORDER s n1.1.1 in
         let o2 := ORDER s n2.1.1 in
         let v := if decide (o2 < o1) then n2.1.1 else n1.1.1 in
         let lson1 := if decide (o2 < o1) then f1 else lsonc f1 n1 in
         let rson1 := if decide (o2 < o1) then f1 else rsonc f1 n1 in
         let lson2 := if decide (o1 < o2) then f2 else lsonc f2 n2 in
         let rson2 := if decide (o1 < o2) then f2 else rsonc f2 n2 in
         let* l := bdd_step fuel fn lson1 lson2 in
         let* r := bdd_step fuel fn rson1 rson2 in
         let* res := (if decide (l = r) then ret l else find_insert v l r) in
         let* _ := cache_insert fn f1 f2 res in
         ret res) s
      end
    end
  end.

(** Recursion is bounded by the number of variables. *)
Definition step (fn : N) (f g : fml) : M fml := fun s =>
  bdd_step (S (length (ord s))) fn f g s.

(** new_bdd.c 466-550: B_Not, B_Nor, B_Nand, B_And, B_Or, B_Xor, B_Xnor, B_Ite. *)
Definition B_Not (f : fml) : M fml := ret (bnot f).
Definition B_And (f g : fml) : M fml := step tAND f g.
Definition B_Or (f g : fml) : M fml := step tOR f g.
Definition B_Xor (f g : fml) : M fml := step tXOR f g.
Definition B_Nand (f g : fml) : M fml := let* r := step tAND f g in ret (bnot r).
Definition B_Nor (f g : fml) : M fml := let* r := step tOR f g in ret (bnot r).
Definition B_Xnor (f g : fml) : M fml := let* r := step tXOR f g in ret (bnot r).
Definition B_Ite (i t e : fml) : M fml :=
  let* f1 := B_And i t in
  let* f2 := B_And (bnot i) e in
  B_Or f1 f2.

(** new_bdd.c 576-612 (F_and, F_or): versions with shortcuts. *)
Definition F_and (f g : fml) : M fml :=
  if decide (f = ZERO \/ g = ZERO) then ret ZERO else
  if decide (f = ONE) then ret g else
  if decide (g = ONE) then ret f else step tAND f g.
Definition F_or (f g : fml) : M fml :=
  if decide (f = ONE \/ g = ONE) then ret ONE else
  if decide (f = ZERO) then ret g else
  if decide (g = ZERO) then ret f else step tOR f g.

(** new_bdd.c 279-316 (prim_B_Var).  The MAX_VARS limit (program exit) is
    not modelled.  The hash table stores formulas as pointers and 0 means
    "absent"; a variable's formula is never 0. *)
Definition prim_B_Var (name : string) : M fml := fun s =>
  match vtbl s !! name with
  | Some f => Some (f, s)
  | None =>
    let v := nvars s in
    let s1 := mkSt (nodes s) (uniq s) (free s) (size s) (ord s ++ [v])
                   (vnames s ++ [name]) (vtbl s) (cache s) in
    match find_insert v ONE ZERO s1 with
    | None => None
    | Some (f, s2) =>
      Some (f, mkSt (nodes s2) (uniq s2) (free s2) (size s2) (ord s2)
                    (vnames s2) (<[name := f]> (vtbl s2)) (cache s2))
    end
  end.

(** new_bdd.c 252-277 (B_Var): a variable and its next-state companion
    (suffix "_n") are declared together. *)
Definition ends_n (s : string) : bool :=
  let len := String.length s in
  if decide (2 <= len)%nat then
    String.eqb (String.substring (len - 2) 2 s) "_n"
  else false.
Definition B_Var (name : string) : M fml := fun s =>
  match vtbl s !! name with
  | Some f => Some (f, s)
  | None =>
    if ends_n name then
      (let* _ := prim_B_Var (String.substring 0 (String.length name - 2) name) in
       prim_B_Var name) s
    else
      (let* f := prim_B_Var name in
       let* _ := prim_B_Var (String.append name "_n") in
       ret f) s
  end.

(** new_bdd.c 1129-1168 (B_Init), with an arbitrary initial table size
    (2^LG_TBL_SIZE in the code). *)
Definition B_Init (sz : N) : bst :=
  mkSt ∅ ∅ (map (fun k => N.of_nat k) (seq 1 (N.to_nat sz - 1))) sz [] [] ∅ ∅.

(** Meaning of a formula: walk down the graph following the assignment
    (specification; not a function of the C code). *)
Definition env := N -> bool.
Definition sel (b : bool) (l r : fml) : fml := if b then l else r.
Fixpoint walk (n : nat) (nd : gmap N node) (e : env) (i : N) : option bool :=
  match n with
  | O => None
  | S n =>
    if decide (i = 0) then Some false else
    match nd !! i with
    | None => None
    | Some (v, l, r) =>
      let c := sel (e v) l r in
      match walk n nd e c.2 with Some b => Some (xorb c.1 b) | None => None end
    end
  end.
Definition sem (s : bst) (e : env) (f : fml) : bool :=
  match walk (S (length (ord s))) (nodes s) e f.2 with
  | Some b => xorb f.1 b
  | None => false
  end.
Definition upd (e : env) (v : N) (b : bool) : env :=
  fun w => if decide (w = v) then b else e w.
