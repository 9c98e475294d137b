(** * Graph reduction: the evaluator on shared graphs

    Source: src/bin/fl/graph.c, [traverse_left] (3052-4778), [force]
    (5066-5099), [Gen_map2]/[gen_map2_rec] (1770-1793, 1923-2110), [g_b_ite]
    (6017-6050); src/bin/fl/new_bdd.c, [bddNOT], [bddAND], [bddOR], [bddXOR]
    (1398-1458) with their strictness strings (2228-2250); src/bin/fl/graph.h,
    [OVERWRITE] (228-236), [IS_FORCED]/[MAKE_FORCED] (204-207).

    What is kept: nodes live at addresses, a node may be the child of many
    nodes, and evaluation overwrites the redex in place, so every other user of
    that node sees the result.  The "forced" bit of a node, the condition
    [cur_eval_cond] under which a branch is evaluated, and the clearing of the
    branch not taken before the other one is evaluated are kept as well.

    What is left out: the garbage collector and the reference counts (a heap
    only grows), the tracing and profiling calls, recursion through [P_Y] (it
    makes cyclic graphs), the primitives that are not listed in [prim], the
    memo table of [Gen_map2] (it only makes equal results be one node), and the
    size of the stack.  Running out of fuel stands for an interrupt served at
    [CHECK_FOR_INTERRUPT] (3093): the heap is left as it is at that moment. *)

From Coq Require Import String List Bool Arith ZArith Lia.
Import ListNotations.
Open Scope string_scope.
Open Scope list_scope.
Open Scope nat_scope.

(** ** Formulas

    Stands for the BDDs: the operations are constructors, equality of BDDs
    (which is equality of functions, property C03) is decided by trying all
    assignments. *)

Inductive form :=
| FZero | FOne
| FVar (n : nat)
| FNot (f : form)
| FAnd (f g : form)
| FOr (f g : form)
| FXor (f g : form).

Fixpoint sem (s : nat -> bool) (f : form) : bool :=
  match f with
  | FZero => false
  | FOne => true
  | FVar n => s n
  | FNot f => negb (sem s f)
  | FAnd f g => sem s f && sem s g
  | FOr f g => sem s f || sem s g
  | FXor f g => xorb (sem s f) (sem s g)
  end.

Fixpoint fvars (f : form) : list nat :=
  match f with
  | FZero | FOne => []
  | FVar n => [n]
  | FNot f => fvars f
  | FAnd f g | FOr f g | FXor f g => fvars f ++ fvars g
  end.

Fixpoint all_assign (vs on : list nat) (f : form) : bool :=
  match vs with
  | [] => sem (fun n => existsb (Nat.eqb n) on) f
  | v :: vs => all_assign vs (v :: on) f && all_assign vs on f
  end.

(** Equality of two BDDs. *)
Definition feq (f g : form) : bool :=
  all_assign (nodup Nat.eq_dec (fvars f ++ fvars g)) [] (FNot (FXor f g)).

(** ** Nodes and heaps *)

Inductive prim :=
| P_I | P_K | P_S | P_B | P_C | P_SPRIME | P_BPRIME | P_CPRIME | P_BSTAR
| P_NAMED_ARG | P_NSEQ
| P_SEQ | P_FSEQ | P_THEN
| P_CATCH | P_GEN_CATCH
| P_COND
| P_NOT | P_AND | P_OR | P_XOR
| P_CONS | P_STRICT_CONS
| P_HEAD | P_TAIL
| P_EMPTY | P_IS_CONS
| P_SUC | P_CONSTR_EQ
| P_ERROR
| P_VOID.

Definition addr := nat.

(** [P_TUPLE], [P_FST], [P_SND] and [P_IS_TUPLE] are handled by the same code
    as [P_CONS], [P_HEAD], [P_TAIL] and [P_IS_CONS] up to the text of the error
    message.  A [P_FAIL] leaf carries its message. *)
Inductive node :=
| App (l r : addr)
| Cons (hd tl : addr)
| Nil
| Int (z : Z)
| Str (s : string)
| Bool (f : form)
| Prm (p : prim)
| Fail (s : string).

Record cell := mk_cell { forced : bool; nd : node }.
Definition heap := list cell.

Definition get (h : heap) (a : addr) : option node :=
  match nth_error h a with Some c => Some (nd c) | None => None end.

Definition is_forced (h : heap) (a : addr) : bool :=
  match nth_error h a with Some c => forced c | None => false end.

Fixpoint upd (h : heap) (a : addr) (f : cell -> cell) : heap :=
  match h, a with
  | [], _ => []
  | c :: h, O => f c :: h
  | c :: h, S a => c :: upd h a f
  end.

(** [SET_TYPE], [SET_APPLY_LEFT], ... : the forced bit stays. *)
Definition set_nd (h : heap) (a : addr) (n : node) : heap :=
  upd h a (fun c => mk_cell (forced c) n).

Definition make_forced (h : heap) (a : addr) : heap :=
  upd h a (fun c => mk_cell true (nd c)).

Definition alloc (h : heap) (n : node) : heap * addr :=
  (h ++ [mk_cell false n], length h).

(** graph.h 228-236: the contents of [np] are copied into [red], except for
    the forced bit (and the reference count). *)
Definition overwrite (h : heap) (red np : addr) : heap :=
  match get h np with Some n => set_nd h red n | None => h end.

(** graph.c 509: the node [void_nd] is made once, before all others. *)
Definition void_nd : addr := 0.

(** graph.c 1253-1259 *)
Definition is_fail (h : heap) (a : addr) : bool :=
  match get h a with Some (Fail _) => true | _ => false end.

(** ** Outcomes

    [Ret]: returned, with the new heap and the node returned; [Die]: a [DIE],
    a failing [ASSERT] or the use of a node as something it is not; [Stop]:
    interrupted; [Cut]: see [mode]. *)
Inductive res :=
| Ret (h : heap) (a : addr)
| Die
| Stop (h : heap)
| Cut.

Definition bind (r : res) (k : heap -> addr -> res) : res :=
  match r with
  | Ret h a => k h a
  | Die => Die
  | Stop h => Stop h
  | Cut => Cut
  end.

Notation "'let*' ( h , a ) := r 'in' k" := (bind r (fun h a => k))
  (at level 200, h name, a name, r at level 100, k at level 200).

(** [Code] is the evaluator.  [Watch s] is the evaluator, except that it gives
    up with [Cut] at a conditional that is decided by the path condition
    (graph.c 4211, 4226) when that condition is false at the assignment [s].
    It only serves to say which runs a theorem speaks about. *)
Inductive mode := Code | Watch (s : nat -> bool).

Definition allowed (m : mode) (c : form) : bool :=
  match m with Code => true | Watch s => sem s c end.

Definition arity (p : prim) : nat :=
  match p with
  | P_I => 1 | P_K => 2 | P_S => 3 | P_B => 3 | P_C => 3
  | P_SPRIME => 4 | P_BPRIME => 4 | P_CPRIME => 4 | P_BSTAR => 4
  | P_NAMED_ARG => 3 | P_NSEQ => 2
  | P_SEQ => 2 | P_FSEQ => 2 | P_THEN => 2
  | P_CATCH => 2 | P_GEN_CATCH => 2
  | P_COND => 3
  | P_NOT => 1 | P_AND => 2 | P_OR => 2 | P_XOR => 2
  | P_CONS => 2 | P_STRICT_CONS => 2
  | P_HEAD => 1 | P_TAIL => 1
  | P_EMPTY => 1 | P_IS_CONS => 1
  | P_SUC => 1 | P_CONSTR_EQ => 2
  | P_ERROR => 1
  | P_VOID => 1
  end.

(** ** if-then-else of two structures: graph.c 1770-1793, 1923-2110, 6017-6050 *)

(** graph.c 551, 555-561: the name of the constructor [NONE]. *)
Definition s_NONE : string := "!,.:NONE".

Definition is_none (h : heap) (a : addr) : bool :=
  match get h a with Some (Str s) => String.eqb s s_NONE | _ => false end.

Definition ret_new (h : heap) (n : node) : res :=
  let (h, a) := alloc h n in Ret h a.

Definition same (a b : addr) : bool := Nat.eqb a b.

Definition is_void (n : node) : bool :=
  match n with Prm P_VOID => true | _ => false end.

(** [g_b_ite] on two leaves of the same leaf type that are not booleans:
    [Is_equal] must say that they are the same. *)
Definition leaf_same (l r : addr) (nl nr : node) : bool :=
  same l r ||
  match nl, nr with
  | Int x, Int y => Z.eqb x y
  | Str x, Str y => String.eqb x y
  | Prm P_VOID, Prm P_VOID => true
  | _, _ => false
  end.

Fixpoint merge (fuel : nat) (b : form) (h : heap) (l r : addr) : res :=
  match fuel with
  | O => Stop h
  | S fuel =>
    let mismatch := ret_new h (Fail "Structural mismatch in ite") in
    let '(l, r) := if is_none h l then (r, r)
                   else if is_none h r then (l, l) else (l, r) in
    match get h l, get h r with
    | Some (App l1 l2), Some (App r1 r2) =>
      let* (h, x) := merge fuel b h l1 r1 in
      if is_fail h x then Ret h x else
      let* (h, y) := merge fuel b h l2 r2 in
      if is_fail h y then Ret h y else
      if same x l1 && same y l2 then Ret h l
      else if same x r1 && same y r2 then Ret h r
      else ret_new h (App x y)
    | Some (Cons l1 l2), Some (Cons r1 r2) =>
      let* (h, x) := merge fuel b h l1 r1 in
      if is_fail h x then Ret h x else
      let* (h, y) := merge fuel b h l2 r2 in
      if is_fail h y then Ret h y else
      if same x l1 && same y l2 then Ret h l
      else if same x r1 && same y r2 then Ret h r
      else ret_new h (Cons x y)
    | Some Nil, Some Nil => Ret h l
    | Some (Bool f), Some (Bool g) =>
      let bres := FOr (FAnd b f) (FAnd (FNot b) g) in
      if feq bres f then Ret h l
      else if feq bres g then Ret h r
      else ret_new h (Bool bres)
    | Some nl, Some nr =>
      if leaf_same l r nl nr then Ret h l else mismatch
    | _, _ => Die
    end
  end.

(** ** force: graph.c 5066-5099 *)

Fixpoint force_loop (tl : heap -> addr -> res) (fuel : nat) (h : heap)
    (a : addr) (todo : list addr) : res :=
  match fuel with
  | O => Stop h
  | S fuel =>
    match todo with
    | [] => Ret h a
    | cur :: todo =>
      if is_forced h cur then force_loop tl fuel h a todo
      else
        let* (h, cur) := tl h cur in
        if is_fail h cur then Ret (overwrite h a cur) a
        else
          let h := make_forced h cur in
          match get h cur with
          | Some (Cons x y) => force_loop tl fuel h a (x :: y :: todo)
          | _ => force_loop tl fuel h a todo
          end
    end
  end.

Definition force (tl : heap -> addr -> res) (fuel : nat) (h : heap) (a : addr)
  : res :=
  if is_forced h a then Ret h a else force_loop tl fuel h a [a].

(** ** One primitive: graph.c 3120-4700

    [sp] is the stack, whose top [arity] entries are the nodes of the spine;
    the entry [arity - 1] is the redex.  The result is the heap in which the
    redex has been rewritten, together with the redex: all of [finishN],
    [argM_failN] and [failN] then go on from the redex (4717-4770). *)

Definition nth_sp (sp : list addr) (i : nat) : addr := nth i sp void_nd.

(** [GET_APPLY_RIGHT] and [GET_APPLY_LEFT] *)
Definition right_of (h : heap) (a : addr) : option addr :=
  match get h a with Some (App _ r) => Some r | _ => None end.

Definition left_of (h : heap) (a : addr) : option addr :=
  match get h a with Some (App l _) => Some l | _ => None end.

Definition with_arg (h : heap) (a : addr) (k : addr -> res) : res :=
  match right_of h a with Some r => k r | None => Die end.

Notation "'arg' x := h @ a 'in' k" := (with_arg h a (fun x => k))
  (at level 200, x name, h at level 9, a at level 9, k at level 200).

Definition with_bool (h : heap) (a : addr) (k : form -> res) : res :=
  match get h a with Some (Bool f) => k f | _ => Die end.

(** 3500-3525 and 3550-3575; [missing] is the text for the empty list. *)
Definition select (tl : heap -> addr -> res) (h : heap) (redex : addr)
    (pick : addr -> addr -> addr) (missing : string) : res :=
  arg a1 := h @ redex in
  let* (h, a1) := (match get h a1 with
                   | Some (Cons _ _) | Some Nil => Ret h a1
                   | _ => tl h a1
                   end) in
  if is_fail h a1 then Ret (overwrite h redex a1) redex else
  match get h a1 with
  | Some (Cons x y) =>
    let* (h, a2) := tl h (pick x y) in
    Ret (overwrite h redex a2) redex
  | Some Nil => Ret (set_nd h redex (Fail missing)) redex
  | _ => Die
  end.

Definition fire (m : mode) (tl : form -> heap -> addr -> res) (fuel : nat)
    (c : form) (p : prim) (h : heap) (sp : list addr) : res :=
  let s0 := nth_sp sp 0 in
  let s1 := nth_sp sp 1 in
  let s2 := nth_sp sp 2 in
  let s3 := nth_sp sp 3 in
  let fr c := force (tl c) fuel in
  match p with
  | P_I => (* 3339-3353 *)
    arg a1 := h @ s0 in
    let* (h, a1) := tl c h a1 in
    Ret (overwrite h s0 a1) s0
  | P_K => (* 3177-3193 *)
    arg a1 := h @ s0 in
    let* (h, a1) := tl c h a1 in
    Ret (overwrite h s1 a1) s1
  | P_NSEQ => (* 3195-3206 *)
    arg a2 := h @ s1 in
    let* (h, a2) := tl c h a2 in
    Ret (overwrite h s1 a2) s1
  | P_NAMED_ARG => (* 4653-4675 *)
    arg a1 := h @ s0 in
    let* (h, a1) := tl c h a1 in
    Ret (overwrite h s2 a1) s2
  | P_S => (* 3121-3143 *)
    arg a1 := h @ s0 in arg a2 := h @ s1 in arg a3 := h @ s2 in
    let (h, x) := alloc h (App a1 a3) in
    let (h, y) := alloc h (App a2 a3) in
    Ret (set_nd h s2 (App x y)) s2
  | P_SPRIME => (* 3146-3175 *)
    arg a1 := h @ s0 in arg a2 := h @ s1 in arg a3 := h @ s2 in
    arg a4 := h @ s3 in
    let (h, z) := alloc h (App a2 a4) in
    let (h, x) := alloc h (App a1 z) in
    let (h, y) := alloc h (App a3 a4) in
    Ret (set_nd h s3 (App x y)) s3
  | P_C => (* 3355-3376 *)
    arg a1 := h @ s0 in arg a2 := h @ s1 in arg a3 := h @ s2 in
    let (h, x) := alloc h (App a1 a3) in
    Ret (set_nd h s2 (App x a2)) s2
  | P_CPRIME => (* 3378-3404 *)
    arg a1 := h @ s0 in arg a2 := h @ s1 in arg a3 := h @ s2 in
    arg a4 := h @ s3 in
    let (h, z) := alloc h (App a2 a4) in
    let (h, x) := alloc h (App a1 z) in
    Ret (set_nd h s3 (App x a3)) s3
  | P_B => (* 3406-3427 *)
    arg a1 := h @ s0 in arg a2 := h @ s1 in arg a3 := h @ s2 in
    let (h, y) := alloc h (App a2 a3) in
    Ret (set_nd h s2 (App a1 y)) s2
  | P_BSTAR => (* 3429-3455 *)
    arg a1 := h @ s0 in arg a2 := h @ s1 in arg a3 := h @ s2 in
    arg a4 := h @ s3 in
    let (h, z) := alloc h (App a3 a4) in
    let (h, y) := alloc h (App a2 z) in
    Ret (set_nd h s3 (App a1 y)) s3
  | P_BPRIME => (* 3457-3483 *)
    arg a1 := h @ s0 in arg a2 := h @ s1 in arg a3 := h @ s2 in
    arg a4 := h @ s3 in
    let (h, x) := alloc h (App a1 a2) in
    let (h, y) := alloc h (App a3 a4) in
    Ret (set_nd h s3 (App x y)) s3
  | P_SEQ | P_FSEQ => (* 3208-3229 *)
    arg a1 := h @ s0 in
    let* (h, a1) := (match p with P_SEQ => tl c h a1 | _ => fr c h a1 end) in
    if is_fail h a1 then Ret (overwrite h s1 a1) s1 else
    arg a2 := h @ s1 in
    let* (h, a2) := tl c h a2 in
    Ret (overwrite h s1 a2) s1
  | P_THEN => (* 3231-3244 *)
    arg a1 := h @ s0 in
    let* (h, a1) := fr c h a1 in
    if is_fail h a1 then Ret (overwrite h s1 a1) s1 else
    arg a2 := h @ s1 in
    Ret (set_nd h s1 (App a2 a1)) s1
  | P_CATCH => (* 3275-3293 *)
    arg a1 := h @ s0 in arg a2 := h @ s1 in
    let* (h, a1) := fr c h a1 in
    if is_fail h a1 then
      let* (h, a2) := tl c h a2 in
      Ret (overwrite h s1 a2) s1
    else Ret (overwrite h s1 a1) s1
  | P_GEN_CATCH => (* 3295-3319 *)
    arg a1 := h @ s0 in arg a2 := h @ s1 in
    let* (h, a1) := fr c h a1 in
    match get h a1 with
    | Some (Fail msg) =>
      let (h, s) := alloc h (Str msg) in
      let (h, r) := alloc h (App a2 s) in
      let* (h, r) := fr c h r in
      Ret (overwrite h s1 r) s1
    | _ => Ret (overwrite h s1 a1) s1
    end
  | P_COND => (* 4198-4279 *)
    arg a1 := h @ s0 in
    let* (h, a1) := tl c h a1 in
    if is_fail h a1 then Ret (overwrite h s2 a1) s2 else
    arg a2 := h @ s1 in arg a3 := h @ s2 in
    with_bool h a1 (fun b =>
    let take_else c h :=
      match right_of h s2 with
      | Some r =>
        let h := set_nd h s2 (App void_nd r) in
        let* (h, a3) := tl c h a3 in
        Ret (overwrite h s2 a3) s2
      | None => Die
      end in
    let take_then c h :=
      match left_of h s2 with
      | Some l =>
        let h := set_nd h s2 (App l void_nd) in
        let* (h, a2) := tl c h a2 in
        Ret (overwrite h s2 a2) s2
      | None => Die
      end in
    if feq b FOne then take_then c h
    else if feq b FZero then take_else c h
    else if feq (FAnd c b) FZero then
      if allowed m c then take_else (FAnd c (FNot b)) h else Cut
    else if feq (FAnd c (FNot b)) FZero then
      if allowed m c then take_then (FAnd c b) h else Cut
    else
      let* (h, a2) := fr (FAnd c b) h a2 in
      if is_fail h a2 then Ret (overwrite h s2 a2) s2 else
      let* (h, a3) := fr (FAnd c (FNot b)) h a3 in
      if is_fail h a3 then Ret (overwrite h s2 a3) s2 else
      with_bool h a1 (fun b =>
      let* (h, r) := merge fuel b h a2 a3 in
      Ret (overwrite h s2 r) s2))
  | P_NOT => (* new_bdd.c 1398-1406 *)
    arg a1 := h @ s0 in
    let* (h, a1) := fr c h a1 in
    if is_fail h a1 then Ret (overwrite h s0 a1) s0 else
    with_bool h a1 (fun b => Ret (set_nd h s0 (Bool (FNot b))) s0)
  | P_AND => (* new_bdd.c 1408-1426 *)
    arg a1 := h @ s0 in
    let* (h, a1) := fr c h a1 in
    if is_fail h a1 then Ret (overwrite h s1 a1) s1 else
    with_bool h a1 (fun b =>
    if feq b FZero then Ret (set_nd h s1 (Bool FZero)) s1 else
    arg a2 := h @ s1 in
    let* (h, a2) := tl c h a2 in
    if is_fail h a2 then Ret (overwrite h s1 a2) s1 else
    with_bool h a1 (fun b1 => with_bool h a2 (fun b2 =>
    Ret (set_nd h s1 (Bool (FAnd b1 b2))) s1)))
  | P_OR => (* new_bdd.c 1428-1446 *)
    arg a1 := h @ s0 in
    let* (h, a1) := fr c h a1 in
    if is_fail h a1 then Ret (overwrite h s1 a1) s1 else
    with_bool h a1 (fun b =>
    if feq b FOne then Ret (set_nd h s1 (Bool FOne)) s1 else
    arg a2 := h @ s1 in
    let* (h, a2) := tl c h a2 in
    if is_fail h a2 then Ret (overwrite h s1 a2) s1 else
    with_bool h a1 (fun b1 => with_bool h a2 (fun b2 =>
    Ret (set_nd h s1 (Bool (FOr b1 b2))) s1)))
  | P_XOR => (* new_bdd.c 1448-1458 *)
    arg a1 := h @ s0 in
    let* (h, a1) := fr c h a1 in
    if is_fail h a1 then Ret (overwrite h s1 a1) s1 else
    arg a2 := h @ s1 in
    let* (h, a2) := fr c h a2 in
    if is_fail h a2 then Ret (overwrite h s1 a2) s1 else
    with_bool h a1 (fun b1 => with_bool h a2 (fun b2 =>
    Ret (set_nd h s1 (Bool (FXor b1 b2))) s1))
  | P_CONS => (* 3636-3648 *)
    arg a1 := h @ s0 in arg a2 := h @ s1 in
    Ret (set_nd h s1 (Cons a1 a2)) s1
  | P_STRICT_CONS => (* 3650-3662 *)
    arg a1 := h @ s0 in
    let* (h, a1) := tl c h a1 in
    arg a2 := h @ s1 in
    let* (h, a2) := tl c h a2 in
    Ret (set_nd h s1 (Cons a1 a2)) s1
  | P_HEAD => (* 3501-3524 *)
    select (tl c) h s0 (fun x _ => x) "Cannot compute hd of the empty list"
  | P_TAIL => (* 3551-3574 *)
    select (tl c) h s0 (fun _ y => y) "Cannot compute tl of the empty list"
  | P_EMPTY => (* 3980-3995, 4058-4068 *)
    arg a1 := h @ s0 in
    let* (h, a1) := tl c h a1 in
    if is_fail h a1 then Ret (overwrite h s0 a1) s0 else
    match get h a1 with
    | Some Nil => Ret (set_nd h s0 (Bool FOne)) s0
    | Some _ => Ret (set_nd h s0 (Bool FZero)) s0
    | None => Die
    end
  | P_IS_CONS => (* 3980-3995, 4036-4046 *)
    arg a1 := h @ s0 in
    let* (h, a1) := tl c h a1 in
    if is_fail h a1 then Ret (overwrite h s0 a1) s0 else
    match get h a1 with
    | Some (Cons _ _) => Ret (set_nd h s0 (Bool FOne)) s0
    | Some _ => Ret (set_nd h s0 (Bool FZero)) s0
    | None => Die
    end
  | P_SUC => (* 3734-3744 *)
    arg a1 := h @ s0 in
    let* (h, a1) := tl c h a1 in
    if is_fail h a1 then Ret (overwrite h s0 a1) s0 else
    match get h a1 with
    | Some (Int z) => Ret (set_nd h s0 (Int (z + 1))) s0
    | _ => Die
    end
  | P_CONSTR_EQ => (* 3746-3768 *)
    arg a1 := h @ s0 in
    let* (h, a1) := tl c h a1 in
    if is_fail h a1 then Ret (overwrite h s1 a1) s1 else
    arg a2 := h @ s1 in
    let* (h, a2) := tl c h a2 in
    if is_fail h a2 then Ret (overwrite h s1 a2) s1 else
    match get h a1, get h a2 with
    | Some (Str x), Some (Str y) =>
      Ret (set_nd h s1 (Bool (if String.eqb x y then FOne else FZero))) s1
    | Some _, Some _ => Ret (set_nd h s1 (Bool FZero)) s1
    | _, _ => Die
    end
  | P_ERROR => (* 3790-3798 *)
    arg a1 := h @ s0 in
    let* (h, a1) := tl c h a1 in
    if is_fail h a1 then Ret (overwrite h s0 a1) s0 else
    match get h a1 with
    | Some (Str s) => Ret (set_nd h s0 (Fail s)) s0
    | _ => Die
    end
  | P_VOID => Die (* 4633-4635: ASSERT(depth == 0) *)
  end.

(** ** The loop: graph.c 3086-3119 and 4705-4778 *)

Definition bottom (sp : list addr) (root : addr) : addr := last sp root.

Fixpoint go (fuel : nat) (m : mode) (c : form) (h : heap) (root : addr)
    (sp : list addr) : res :=
  match fuel with
  | O => Stop h
  | S fuel =>
    let tl c h a := if is_forced h a then Ret h a else go fuel m c h a [] in
    match get h root with
    | None => Die
    | Some (App l _) => go fuel m c h l (root :: sp)
    | Some (Cons _ _) | Some Nil | Some (Int _) | Some (Str _) | Some (Bool _)
      => match sp with [] => Ret h root | _ => Die end
    | Some (Fail s) => (* 3891-3899 *)
      match sp with
      | [] => Ret h root
      | _ => Ret (overwrite h (bottom sp root) root) (bottom sp root)
      end
    | Some (Prm p) =>
      if length sp <? arity p then Ret h (bottom sp root)
      else
        let* (h, redex) := fire m tl fuel c p h sp in
        go fuel m c h redex (skipn (arity p) sp)
    end
  end.

Definition traverse_left (fuel : nat) (m : mode) (c : form) (h : heap)
    (a : addr) : res :=
  if is_forced h a then Ret h a else go fuel m c h a [].

(** [force] as called from outside (for instance by [Eval], 5340-5360). *)
Definition force_top (fuel : nat) (m : mode) (h : heap) (a : addr) : res :=
  force (traverse_left fuel m FOne) fuel h a.
