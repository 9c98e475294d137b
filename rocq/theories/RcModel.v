(** * The node store of the evaluator: reference counts and garbage collection

    Source: src/bin/fl/graph.h, the macros on the two low bits of the right
    word of a node (198-241) and [OVERWRITE] (228-236);
    src/bin/fl/graph.c, [inc_refcnt_children] (1180-1196), [dec_ref_cnt]
    (1199-1252), [Mark] (1521-1581), [Do_garbage_collect] (1583-1650),
    [Get_node] (2355-2372), [refcnt_free_nd] (2652-2661), [sweep] (5287-5325)
    and, of [traverse_left] (3052-4778), the primitives listed in [prim];
    src/bin/fl/cache.c, [Mark_G_Cache] (149-166), [Make_RefVar], [Get_RefVar],
    [Set_RefVar], [Mark_RefVar] (216-252).

    What is kept: a node has two bits that are a saturating reference count
    between collections and hold the mark during one; a node whose last
    reference goes is put on the free list at once, with everything below it
    that has no other reference; the collector recomputes the counts; freed
    nodes are handed out again.  The code of the primitives is kept down to
    the order in which it reads, overwrites, counts up and counts down.

    What is left out: types of nodes that do not occur at run time
    ([LAMBDA_ND], [VAR], [USERDEF]), the mark bit and the count of the objects
    of other modules (BDDs, integers), the "forced" bit, the symbolic half of
    [P_COND] (both are in GredModel), and the other primitives.  The free list
    is a list here; in the code its link is the right word of the free node.
    Reference variables and memo tables share one array of tables.  [force] is
    [traverse_left] here.  A [DIE] or a failed [ASSERT] is [None], and so is
    running out of fuel. *)

From Coq Require Import List Bool Arith NArith ZArith Lia.
Import ListNotations.

Definition addr := nat.

(** ** Nodes and the store *)

Inductive prim :=
| pS | pSprime | pK | pNSEQ | pSEQ | pI | pC | pCprime | pB | pBstar | pBprime
| pY | pCONS | pTHEN | pHEAD | pTAIL | pPCATCH | pPLUS | pCOND
| pMKREF | pDEREF | pUPDATE.

Inductive node :=
| App (l r : addr)              (* APPLY_ND *)
| Cons (h t : addr)             (* CONS_ND *)
| Nil                           (* CONS_ND with two null pointers *)
| Prim (p : prim)               (* PRIM_FN *)
| Fail                          (* PRIM_FN, P_FAIL; the message is left out *)
| PFail                         (* PRIM_FN, P_PFAIL *)
| Void                          (* PRIM_FN, P_VOID *)
| Int (z : Z)
| Bool (b : bool)
| Tab (ref : bool) (k : nat)    (* PRIM_FN, P_REF_VAR or P_CACHE, table k *)
| Dead.                         (* a node on the free list: both words cleared *)

Record store := Store {
  top : nat;                    (* nodes 0 .. top-1 come from g_rec_mgr *)
  cell : addr -> node;
  rc : addr -> N;               (* the two low bits of R *)
  free : list addr;             (* free_list *)
  tabs : list (list addr);      (* ref_var_tbl and g_cache_tbl *)
  gcs : list bool               (* do_gc_asap at the coming tests of it *)
}.

Definition upd {A} (f : addr -> A) (n : addr) (v : A) : addr -> A :=
  fun m => if m =? n then v else f m.

Definition set_cell st n c :=
  Store (top st) (upd (cell st) n c) (rc st) (free st) (tabs st) (gcs st).
Definition set_rc st n v :=
  Store (top st) (cell st) (upd (rc st) n v) (free st) (tabs st) (gcs st).
Definition set_free st l :=
  Store (top st) (cell st) (rc st) l (tabs st) (gcs st).
Definition set_tabs st l :=
  Store (top st) (cell st) (rc st) (free st) l (gcs st).
Definition set_gcs st l :=
  Store (top st) (cell st) (rc st) (free st) (tabs st) l.

(** ** The macros on the two bits (graph.h 220-241)

    [INC_REFCNT] goes 00, 01, 11 and stays there; [MAX_REF_CNT] is 3;
    [GET_MARK] is the upper bit, [SET_MARK] replaces it. *)

Definition inc_bits (r : N) : N :=
  N.lor (N.lor (N.land (N.shiftl r 1) 2) 1) r.
Definition get_mark (r : N) : N := N.shiftr (N.land r 2) 1.
Definition set_mark (r m : N) : N :=
  N.lor (N.land r 1) (N.shiftl (N.land m 1) 1).

Definition incr st n := set_rc st n (inc_bits (rc st n)).

(** The children that are counted: [inc_refcnt_children] (1180-1196). *)
Definition kids (c : node) : list addr :=
  match c with
  | App l r => [l; r]
  | Cons h t => [h; t]
  | _ => []
  end.

Fixpoint incr_all st (l : list addr) : store :=
  match l with
  | [] => st
  | n :: l => incr_all (incr st n) l
  end.

(** [OVERWRITE] (graph.h 228-236): the words of [np] are copied, the count of
    [red] stays, the children are counted up. *)
Definition overwrite st red np :=
  let c := cell st np in
  incr_all (set_cell st red c) (kids c).

(** [Get_node] (2355-2372) and the [Make_..._ND] functions: a node from the
    free list, or a new one; its count is 00. *)
Definition alloc st (c : node) : addr * store :=
  match free st with
  | n :: l => (n, set_cell (set_rc (set_free st l) n 0%N) n c)
  | [] =>
      let n := top st in
      (n, set_cell (set_rc (Store (S n) (cell st) (rc st) [] (tabs st) (gcs st))
                           n 0%N) n c)
  end.

(** ** Counting down (1199-1252)

    The right child is read after the left one has been counted down, as in
    the code.  A count of 2 and a node that is not an application, a list cell
    or a leaf are fatal. *)

Definition free_nd st n := set_free (set_cell st n Dead) (n :: free st).

Fixpoint dec (f : nat) st (n : addr) : option store :=
  match f with
  | 0 => None
  | S f =>
      match rc st n with
      | 0%N =>
          match cell st n with
          | App l _ =>
              match dec f st l with
              | None => None
              | Some st =>
                  match cell st n with
                  | App _ r =>
                      match dec f st r with
                      | None => None
                      | Some st => Some (free_nd st n)
                      end
                  | _ => None
                  end
              end
          | Cons h _ =>
              match dec f st h with
              | None => None
              | Some st =>
                  match cell st n with
                  | Cons _ t =>
                      match dec f st t with
                      | None => None
                      | Some st => Some (free_nd st n)
                      end
                  | _ => None
                  end
              end
          | Dead => None
          | _ => Some (free_nd st n)
          end
      | 1%N => Some (set_rc st n 0%N)
      | 3%N => Some st
      | _ => None
      end
  end.

(** ** The collector

    [Mark] calls itself on the children, left first; the calls still to be
    made are a list here.  [Mark_RefVar] and the callers that hold a node for
    good also store the largest count: [Sat]. *)

Inductive item := Mk (n : addr) | Sat (n : addr).

(** What marking a node for the first time leads to (1531-1580): its children;
    for a reference variable its content, which is then saturated (243-250 of
    cache.c); for a memo table all its entries (149-166). *)
Definition below st (n : addr) : list item :=
  match cell st n with
  | Tab true k => flat_map (fun a => [Mk a; Sat a]) (nth k (tabs st) [])
  | Tab false k => map Mk (nth k (tabs st) [])
  | c => map Mk (kids c)
  end.

Fixpoint mark (f : nat) st (w : list item) : option store :=
  match w with
  | [] => Some st
  | i :: w =>
      match f with
      | 0 => None
      | S f =>
          match i with
          | Sat n => mark f (set_rc st n 3%N) w
          | Mk n =>
              if N.leb 1 (get_mark (rc st n))
              then mark f (set_rc st n 3%N) w
              else mark f (set_rc st n (set_mark (rc st n) 1)) (below st n ++ w)
          end
      end
  end.

(** Enough fuel: every node is marked for the first time at most once. *)
Definition work st (w : list item) : nat :=
  length w + list_sum (map (fun n => length (below st n)) (seq 0 (top st))).

Definition clear_rc st :=
  Store (top st) (cell st) (fun _ => 0%N) (free st) (tabs st) (gcs st).

(** [sweep] (5287-5325): unmarked nodes go to the free list, a node marked
    once gets the count 00, the others keep 11. *)
Definition sweep1 st (n : addr) : store :=
  if N.eqb (get_mark (rc st n)) 0
  then set_free (set_cell st n Dead) (n :: free st)
  else if N.eqb (rc st n) 3 then st
  else set_rc st n (set_mark (rc st n) 0).

Definition sweep st : store :=
  fold_left sweep1 (seq 0 (top st)) (set_free st []).

(** [Do_garbage_collect] (1583-1650).  A root comes with whether it is also
    saturated ([void_nd], the pretty printers, the protected nodes). *)
Definition root_items (R : list (addr * bool)) : list item :=
  flat_map (fun q : addr * bool =>
              if snd q then [Mk (fst q); Sat (fst q)] else [Mk (fst q)]) R.

Definition collect (R : list (addr * bool)) st : option store :=
  match mark (work st (root_items R)) (clear_rc st) (root_items R) with
  | None => None
  | Some st => Some (sweep st)
  end.

(** ** The primitives of [traverse_left] *)

Definition arity (p : prim) : nat :=
  match p with
  | pI | pY | pHEAD | pTAIL | pMKREF | pDEREF => 1
  | pK | pNSEQ | pSEQ | pCONS | pTHEN | pPCATCH | pPLUS | pUPDATE => 2
  | pS | pC | pB | pCOND => 3
  | pSprime | pCprime | pBstar | pBprime => 4
  end.

(** The new nodes are built from the arguments, from nodes built before and
    from the redex itself. *)
Inductive opnd := Arg (i : nat) | New (j : nat) | Self.

(** The rules that rebuild the redex: the applications that are made, in
    order, what the redex becomes, and what is counted up.
    [P_S] 3137-3142, [P_SPRIME] 3167-3174, [P_C] 3371-3375, [P_CPRIME]
    3397-3403, [P_B] 3422-3426, [P_BSTAR] 3448-3454, [P_BPRIME] 3476-3481,
    [P_Y] 3491-3496, [P_CONS] 3644-3651, [P_THEN] 3239-3243. *)
Record build := Build {
  made : list (opnd * opnd);
  is_cons : bool;
  bl : opnd; br : opnd;
  ups : list opnd
}.

Definition rule (p : prim) : option build :=
  match p with
  | pS => Some (Build [(Arg 0, Arg 2); (Arg 1, Arg 2)] false (New 0) (New 1)
                      [Arg 0; Arg 2; Arg 1; Arg 2])
  | pSprime => Some (Build [(Arg 1, Arg 3); (Arg 0, New 0); (Arg 2, Arg 3)] false (New 1) (New 2)
                           [Arg 0; Arg 1; Arg 3; Arg 2; Arg 3])
  | pC => Some (Build [(Arg 0, Arg 2)] false (New 0) (Arg 1) [Arg 0; Arg 2; Arg 1])
  | pCprime => Some (Build [(Arg 1, Arg 3); (Arg 0, New 0)] false (New 1) (Arg 2)
                           [Arg 0; Arg 1; Arg 3; Arg 2])
  | pB => Some (Build [(Arg 1, Arg 2)] false (Arg 0) (New 0) [Arg 0; Arg 1; Arg 2])
  | pBstar => Some (Build [(Arg 2, Arg 3); (Arg 1, New 0)] false (Arg 0) (New 1)
                          [Arg 0; Arg 1; Arg 2; Arg 3])
  | pBprime => Some (Build [(Arg 0, Arg 1); (Arg 2, Arg 3)] false (New 0) (New 1)
                           [Arg 0; Arg 1; Arg 2; Arg 3])
  | pY => Some (Build [] false (Arg 0) Self [Arg 0; Self])
  | pCONS => Some (Build [] true (Arg 0) (Arg 1) [Arg 0; Arg 1])
  | pTHEN => Some (Build [] false (Arg 1) (Arg 0) [Arg 1; Arg 0])
  | _ => None
  end.

Definition put {A} (i : nat) (v : A) (l : list A) : list A :=
  firstn i l ++ v :: skipn (S i) l.

Definition right_of (c : node) : addr :=
  match c with App _ r => r | _ => 0 end.
Definition left_of (c : node) : addr :=
  match c with App l _ => l | _ => 0 end.

Definition rights st (sp : list addr) : list addr :=
  map (fun s => right_of (cell st s)) sp.

Definition is_fail (c : node) : bool :=
  match c with Fail => true | _ => false end.

(** The nodes a primitive evaluates before it overwrites the redex: the first
    one and, when there is one, the second, with the local variable that gets
    the result.
    [P_K] 3191, [P_NSEQ] 3204, [P_SEQ] 3216-3226, [P_I] 3351, [P_THEN] 3237,
    [P_HEAD] 3510-3518, [P_TAIL] 3558-3566, [P_PCATCH] 3327-3331, [iPLUS] with
    the strictness "11" 4547-4570, [P_COND] 4202-4204 and 4266, 4276,
    [P_MK_REF_VAR] 4453, [P_DEREFERENCE] 4471, [P_UPDATE_RVAR] 4513-4516. *)
Definition want0 (p : prim) : option nat :=
  match p with
  | pK | pSEQ | pI | pTHEN | pHEAD | pTAIL | pPCATCH | pPLUS | pCOND
  | pMKREF | pDEREF | pUPDATE => Some 0
  | pNSEQ => Some 1
  | _ => None
  end.

(** What [P_COND] has found out about its condition (4205-4210). *)
Definition decide (p : prim) st (args : list addr) : option bool :=
  match p, cell st (nth 0 args 0) with
  | pCOND, Bool b => Some b
  | _, _ => None
  end.

Definition want1 (p : prim) (d : option bool) st (args : list addr) : option (nat * addr) :=
  let a := nth 0 args 0 in
  match p with
  | pSEQ | pPLUS => if is_fail (cell st a) then None else Some (1, nth 1 args 0)
  | pHEAD => match cell st a with Cons h _ => Some (1, h) | _ => None end
  | pTAIL => match cell st a with Cons _ t => Some (1, t) | _ => None end
  | pPCATCH => match cell st a with PFail => Some (1, nth 1 args 0) | _ => None end
  | pCOND => match d with
             | Some true => Some (1, nth 1 args 0)
             | Some false => Some (2, nth 2 args 0)
             | None => None
             end
  | pUPDATE => match cell st a with Tab true _ => Some (1, nth 1 args 0) | _ => None end
  | _ => None
  end.

(** Whether the remaining arguments are read from the spine only after the
    first one has been evaluated. *)
Definition late (p : prim) : bool :=
  match p with
  | pSEQ | pTHEN | pPCATCH | pPLUS | pCOND | pUPDATE => true
  | _ => false
  end.

Section Machine.

(** [mm] switches the memory management on and off (there is such a switch in
    fl.h 26-28: NO_REFCNT_GC and DONT_FREE_ND); [R] are the roots the collector
    starts from; [vd] is [void_nd]. *)
Variable mm : bool.
Variable R : list (addr * bool).
Variable vd : addr.

Definition down st n : option store :=
  if mm then dec (S (top st)) st n else Some st.

Fixpoint down_all st (l : list addr) : option store :=
  match l with
  | [] => Some st
  | n :: l => match down st n with None => None | Some st => down_all st l end
  end.

(** [if( do_gc_asap || Do_gc_asap ) Garbage_collect();] (3094-3096). *)
Definition tick st : option store :=
  match gcs st with
  | [] => Some st
  | b :: l =>
      let st := set_gcs st l in
      if b && mm then collect R st else Some st
  end.

Definition val (args new : list addr) (redex : addr) (o : opnd) : addr :=
  match o with Arg i => nth i args 0 | New j => nth j new 0 | Self => redex end.

Fixpoint make st (args new : list addr) redex (l : list (opnd * opnd))
  : list addr * store :=
  match l with
  | [] => (new, st)
  | (a, b) :: l =>
      let '(n, st) := alloc st (App (val args new redex a) (val args new redex b)) in
      make st args (new ++ [n]) redex l
  end.

Definition build_redex st (args : list addr) redex (b : build) : store :=
  let '(new, st) := make st args [] redex (made b) in
  let l := val args new redex (bl b) in
  let r := val args new redex (br b) in
  let st := set_cell st redex (if is_cons b then Cons l r else App l r) in
  incr_all st (map (val args new redex) (ups b)).

(** The node left of the redex: [*(sp+N-2)], or the primitive itself. *)
Definition prev (root : addr) (sp : list addr) (n : nat) : addr :=
  nth (n - 1) (root :: sp) 0.

(** Overwriting the redex.  The result says what is counted down at [finish1]
    to [finish4] (4688-4716); the failing exits (4717-4768) count nothing
    down. *)
Definition fire (p : prim) (d : option bool) st root (sp args : list addr)
  : option (store * list addr) :=
  let n := arity p in
  let redex := nth (n - 1) sp 0 in
  let a := nth 0 args 0 in
  let finish := [prev root sp n; nth (n - 1) args 0] in
  match p with
  | pTHEN =>
      if is_fail (cell st a) then Some (overwrite st redex a, [])
      else match rule p with
           | Some b => Some (build_redex st args redex b, finish)
           | None => None
           end
  | pK | pI => Some (overwrite st redex a, finish)
  | pNSEQ => Some (overwrite st redex (nth 1 args 0), finish)
  | pSEQ =>
      if is_fail (cell st a) then Some (overwrite st redex a, [])
      else Some (overwrite st redex (nth 1 args 0), finish)
  | pHEAD | pTAIL =>
      match cell st a with
      | Fail => Some (overwrite st redex a, [])
      | Cons _ _ => Some (overwrite st redex (nth 1 args 0), finish)
      | Nil => Some (set_cell st redex Fail, [])
      | _ => None
      end
  | pPCATCH =>
      match cell st a with
      | PFail => Some (overwrite st redex (nth 1 args 0), finish)
      | _ => Some (overwrite st redex a, finish)
      end
  | pPLUS =>
      if is_fail (cell st a) then Some (overwrite st redex a, [])
      else if is_fail (cell st (nth 1 args 0))
      then Some (overwrite st redex (nth 1 args 0), [])
      else match cell st a, cell st (nth 1 args 0) with
           | Int x, Int y => Some (set_cell st redex (Int (x + y)), finish)
           | _, _ => None
           end
  | pCOND =>
      match d with
      | Some true => Some (overwrite st redex (nth 1 args 0), finish)
      | Some false => Some (overwrite st redex (nth 2 args 0), finish)
      | None => if is_fail (cell st a) then Some (overwrite st redex a, []) else None
      end
  | pMKREF =>
      let k := length (tabs st) in
      let st := set_tabs st (tabs st ++ [[a]]) in
      Some (set_cell (incr st a) redex (Tab true k), finish)
  | pDEREF =>
      match cell st a with
      | Fail => Some (overwrite (incr st redex) redex a, [])
      | Tab true k =>
          match nth k (tabs st) [] with
          | [v] =>
              let st := incr (incr st redex) v in
              Some (overwrite st redex v, [v; a])
          | _ => None
          end
      | _ => None
      end
  | pUPDATE =>
      match cell st a with
      | Tab true k =>
          let v := nth 1 args 0 in
          let st := incr (set_tabs st (put k [v] (tabs st))) v in
          Some (overwrite st redex vd, finish)
      | _ => None
      end
  | _ =>
      match rule p with
      | Some b => Some (build_redex st args redex b, finish)
      | None => None
      end
  end.

(** [P_COND] (4261-4280): once the condition is known the other branch is cut
    off and counted down before the chosen one is evaluated.  When the condition
    is false this takes the condition with it; it is not used again. *)
Definition prune (p : prim) (d : option bool) st (sp args : list addr)
  : option (store * (list addr * list addr)) :=
  match p with
  | pCOND =>
      let redex := nth 2 sp 0 in
      match d with
      | Some true =>
          match down (set_cell st redex (App (left_of (cell st redex)) vd))
                     (nth 2 args 0) with
          | None => None
          | Some st => Some (st, (sp, put 2 vd args))
          end
      | Some false =>
          match down (set_cell st redex (App vd (right_of (cell st redex))))
                     (nth 1 sp 0) with
          | None => None
          | Some st => Some (st, (put 1 vd sp, put 0 vd (put 1 vd args)))
          end
      | None => Some (st, (sp, args))
      end
  | _ => Some (st, (sp, args))
  end.

(** [traverse_left] from the label [start], with the stack [sp] (innermost
    application first).  The code unwinds a whole spine before it comes back to
    [start]; here it comes back for every node. *)
Fixpoint go (f : nat) st (root : addr) (sp : list addr) : option (addr * store) :=
  match f with
  | 0 => None
  | S f =>
      match tick st with
      | None => None
      | Some st =>
          match cell st root with
          | App l _ => go f st l (root :: sp)
          | Cons _ _ | Nil | Int _ | Bool _ | Void | PFail | Tab _ _ =>
              match sp with [] => Some (root, st) | _ => None end
          | Fail =>
              match sp with
              | [] => Some (root, st)
              | _ => let x := last sp root in Some (x, overwrite st x root)
              end
          | Dead => None
          | Prim p =>
              if length sp <? arity p then Some (last sp root, st)
              else
                let args := rights st (firstn (arity p) sp) in
                match
                  match want0 p with
                  | None => Some (st, args)
                  | Some i =>
                      match go f st (nth i args 0) [] with
                      | None => None
                      | Some (y, st) =>
                          let args := if late p
                                      then rights st (firstn (arity p) sp)
                                      else args in
                          Some (st, put i y args)
                      end
                  end
                with
                | None => None
                | Some (st, args) =>
                    let d := decide p st args in
                    match prune p d st sp args with
                    | None => None
                    | Some (st, (sp1, args)) =>
                        match
                          match want1 p d st args with
                          | None => Some (st, args)
                          | Some (i, y) =>
                              match go f st y [] with
                              | None => None
                              | Some (y, st) => Some (st, put i y args)
                              end
                          end
                        with
                        | None => None
                        | Some (st, args) =>
                            match fire p d st root sp1 args with
                            | None => None
                            | Some (st, l) =>
                                match down_all st l with
                                | None => None
                                | Some st =>
                                    go f st (nth (arity p - 1) sp 0)
                                       (skipn (arity p) sp)
                                end
                            end
                        end
                    end
                end
          end
      end
  end.

Definition eval f st x := go f st x [].

End Machine.

(** ** Nodes held by plugins

    [GC_Protect] (587-597) and [GC_Unprotect] (599-608), with the table
    [gc_protect_tbl] as a list; the table is marked and saturated at a collection
    (1633), so its entries are roots with [true]. *)
Definition gc_protect (tbl : list addr) st (g : addr) : bool * (list addr * store) :=
  let st := set_rc st g 3%N in
  if existsb (Nat.eqb g) tbl then (false, (tbl, st)) else (true, (g :: tbl, st)).

Definition gc_unprotect (tbl : list addr) (g : addr) : bool * list addr :=
  if existsb (Nat.eqb g) tbl then (false, tbl)
  else (true, filter (fun x => negb (Nat.eqb g x)) tbl).
