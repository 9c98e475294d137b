(* Model of the fl compiler back end: src/bin/fl/compile.c (renaming of bound
   variables, alias removal) and the abstraction algorithms and combinator
   rewrite rules of src/bin/fl/graph.c.

   Simplifications.
   - Graph nodes are trees: sharing only saves work, because the functions
     below never read a node they have already overwritten.
   - A node is a variable, a primitive, any other leaf (numbers, strings,
     formulas, NIL, user defined functions: all of them opaque constants), an
     application or a lambda.  Reference counts, type hints and line numbers
     carry no meaning and are left out.
   - Names are compared as strings.  The C code compares some of them as
     pointers, which is the same thing because every name is interned in
     stringsp (C38).
   - uniq_name_cnt is an unbounded number; the C code has an int. *)
From Coq Require Import String List Bool Arith Lia DecimalString Decimal.
Import ListNotations.
Local Open Scope string_scope.
Local Open Scope list_scope.

(* graph.h 372-545: the primitives that the compiler introduces or inspects. *)
Inductive prim :=
| P_I | P_K | P_S | P_B | P_C | P_SPRIME | P_BPRIME | P_CPRIME | P_BSTAR
| P_Y | P_NAMED_ARG.

Inductive tm :=
| Var (x : string)
| Prm (p : prim)
| Cst (n : nat)
| App (a b : tm)
| Lam (x : string) (a : tm).

Fixpoint apps (f : tm) (l : list tm) : tm :=
  match l with [] => f | a :: r => apps (App f a) r end.

Fixpoint size (t : tm) : nat :=
  match t with
  | App a b => S (size a + size b)
  | Lam _ a => S (size a)
  | _ => 1
  end.

(* ------------------------------------------------------------------ *)
(* compile.c *)

(* compile.c 108, 267: Sprintf(buf, "_ZZ'%d", ...) and Sprintf(buf, "_Z'%d", ...). *)
Definition decimal (n : nat) : string := NilEmpty.string_of_uint (Nat.to_uint n).
Definition zz_name (n : nat) : string := ("_ZZ'" ++ decimal n)%string.
Definition z_name (n : nat) : string := ("_Z'" ++ decimal n)%string.

(* compile.c 237-290, substitute.  The recursion is not structural (the
   renaming branch substitutes in the result of a substitution), so it is
   bounded by the size of the term, which a substitution does not change.
   The number threaded through is uniq_name_cnt. *)
Fixpoint substitute_f (fuel : nat) (old new : string) (t : tm) (k : nat)
  : tm * nat :=
  match fuel with
  | O => (t, k)
  | S fuel =>
    match t with
    | App a b =>
        let (a', k) := substitute_f fuel old new a k in
        let (b', k) := substitute_f fuel old new b k in
        (App a' b', k)
    | Lam v a =>
        if String.eqb v old then (t, k)
        else if negb (String.eqb v new) then
          let (a', k) := substitute_f fuel old new a k in (Lam v a', k)
        else
          let v2 := z_name k in
          let (a', k) := substitute_f fuel v v2 a (S k) in
          let (a', k) := substitute_f fuel old new a' k in
          (Lam v2 a', k)
    | Var x => if String.eqb x old then (Var new, k) else (t, k)
    | _ => (t, k)
    end
  end.
Definition substitute (old new : string) (t : tm) (k : nat) : tm * nat :=
  substitute_f (size t) old new t k.

(* compile.c 75-86, rm_P_NAMED_ARG: the arguments are given oldest first, so
   NAMED_ARG E var dflt becomes E. *)
Definition rm_named_arg (t : tm) : tm :=
  match t with
  | App (App (App (Prm P_NAMED_ARG) e) _) _ => e
  | _ => t
  end.

(* compile.c 89-130, mk_uniq_names.  The body of a lambda is a strict subterm
   of it even after rm_named_arg; the recursion is bounded by the size. *)
Fixpoint mk_uniq_f (fuel : nat) (t : tm) (k : nat) : tm * nat :=
  match fuel with
  | O => (t, k)
  | S fuel =>
    match t with
    | App a b =>
        let (a', k) := mk_uniq_f fuel a k in
        let (b', k) := mk_uniq_f fuel b k in
        (App a' b', k)
    | Lam v a =>
        let v2 := zz_name k in
        let (a', k) := mk_uniq_f fuel (rm_named_arg a) (S k) in
        let (a', k) := substitute v v2 a' k in
        (Lam v2 a', k)
    | _ => (t, k)
    end
  end.
Definition mk_uniq_names (t : tm) (k : nat) : tm * nat := mk_uniq_f (size t) t k.

(* compile.c 132-171, remove_aliases, with is_let_or_letrec (292-317): a let is
   a lambda applied to something that is not an application of Y; only a let
   whose right hand side is a variable is treated here. *)
Fixpoint remove_aliases (t : tm) (k : nat) : tm * nat :=
  match t with
  | App (Lam v f) (Var y) =>
      let (f', k) := remove_aliases f k in substitute v y f' k
  | App a b =>
      let (a', k) := remove_aliases a k in
      let (b', k) := remove_aliases b k in
      (App a' b', k)
  | Lam v a => let (a', k) := remove_aliases a k in (Lam v a', k)
  | _ => (t, k)
  end.

(* compile.c 48-69, Optimise (USE_LIFT_LETS_AND_LETRECT is not defined). *)
Definition Optimise (t : tm) : tm :=
  let (t1, k) := mk_uniq_names t 0 in
  fst (remove_aliases t1 k).

(* ------------------------------------------------------------------ *)
(* graph.c, small programs: abstraction with a table of free variables *)

(* graph.c 2710-2758: sets of names, kept as lists sorted by strcmp. *)
Definition make_set (x : string) : list string := [x].
Fixpoint set_union (s1 : list string) : list string -> list string :=
  match s1 with
  | [] => fun s2 => s2
  | a :: r1 =>
      fix go (s2 : list string) : list string :=
        match s2 with
        | [] => a :: r1
        | b :: r2 =>
            match String.compare a b with
            | Lt => a :: set_union r1 s2
            | Gt => b :: go r2
            | Eq => b :: set_union r1 r2
            end
        end
  end.
Fixpoint remove_element (s : list string) (x : string) : list string :=
  match s with
  | [] => []
  | a :: r => if String.eqb a x then r else a :: remove_element r x
  end.

(* free_tbl maps a node to its set; a node is modelled together with its entry
   in the table, [] standing for no entry (find_hash returns NULL). *)
Inductive anode :=
| AVar (fs : list string) (x : string)
| APrm (fs : list string) (p : prim)
| ACst (fs : list string) (n : nat)
| AApp (fs : list string) (a b : anode)
| ALam (fs : list string) (x : string) (a : anode).

Definition get_set (t : anode) : list string :=
  match t with
  | AVar fs _ | APrm fs _ | ACst fs _ | AApp fs _ _ | ALam fs _ _ => fs
  end.

Fixpoint erase (t : anode) : tm :=
  match t with
  | AVar _ x => Var x
  | APrm _ p => Prm p
  | ACst _ n => Cst n
  | AApp _ a b => App (erase a) (erase b)
  | ALam _ x a => Lam x (erase a)
  end.

(* graph.c 2761-2793, create_free_tbl *)
Fixpoint create_free_tbl (t : tm) : anode :=
  match t with
  | Var x => AVar (make_set x) x
  | Prm p => APrm [] p
  | Cst n => ACst [] n
  | App a b =>
      let a' := create_free_tbl a in
      let b' := create_free_tbl b in
      AApp (set_union (get_set a') (get_set b')) a' b'
  | Lam x a =>
      let a' := create_free_tbl a in
      ALam (remove_element (get_set a') x) x a'
  end.

(* graph.c 2950-2960, cached_is_free *)
Definition cached_is_free (x : string) (t : anode) : bool :=
  existsb (fun y => String.eqb y x) (get_set t).

(* graph.c 2963-2980, is_I and is_B; the pattern (B p q) looked for in 2825,
   2856 and 2886. *)
Definition is_I (t : anode) : bool :=
  match t with APrm _ P_I => true | _ => false end.
Definition is_Bpq (t : anode) : option (anode * anode) :=
  match t with AApp _ (AApp _ (APrm _ P_B) p) q => Some (p, q) | _ => None end.

(* Make_1inp_Primitive and Make_APPL_ND followed by insert_hash, as done in
   every branch of abstract_rec. *)
Definition prim1 (p : prim) (a : anode) : anode := AApp (get_set a) (APrm [] p) a.
Definition prim2 (p : prim) (a b : anode) : anode :=
  AApp (set_union (get_set a) (get_set b)) (prim1 p a) b.
Definition prim3 (p : prim) (a b c : anode) : anode :=
  AApp (set_union (set_union (get_set a) (get_set b)) (get_set c)) (prim2 p a b) c.

(* graph.c 2795-2923, abstract_rec.  [None] is DIE("Should never occur!") and
   the failing ASSERT on a marked leaf. *)
Fixpoint abstract_rec (x : string) (t : anode) : option anode :=
  if negb (cached_is_free x t) then Some (prim1 P_K t)
  else
    match t with
    | AVar _ y => if String.eqb x y then Some (APrm [] P_I) else None
    | AApp _ e1 e2 =>
        if negb (cached_is_free x e1) then
          match abstract_rec x e2 with
          | None => None
          | Some e2' =>
              if is_I e2' then Some e1
              else
                match is_Bpq e2' with
                | Some (q, r) => Some (prim3 P_BSTAR e1 q r)
                | None => Some (prim2 P_B e1 e2')
                end
          end
        else
          match abstract_rec x e1 with
          | None => None
          | Some e1' =>
              if negb (cached_is_free x e2) then
                match is_Bpq e1' with
                | Some (p, q) => Some (prim3 P_CPRIME p q e2)
                | None => Some (prim2 P_C e1' e2)
                end
              else
                match abstract_rec x e2 with
                | None => None
                | Some e2' =>
                    match is_Bpq e1' with
                    | Some (p, q) => Some (prim3 P_SPRIME p q e2')
                    | None => Some (prim2 P_S e1' e2')
                    end
                end
          end
    | _ => None
    end.

(* graph.c 5269-5285, compile_rec.  The application node is updated in place,
   so it keeps its entry in the table. *)
Fixpoint compile_rec (t : anode) : option anode :=
  match t with
  | AApp fs a b =>
      match compile_rec a with
      | None => None
      | Some a' =>
          match compile_rec b with
          | None => None
          | Some b' => Some (AApp fs a' b')
          end
      end
  | ALam _ x a =>
      match compile_rec a with
      | None => None
      | Some a' => abstract_rec x a'
      end
  | _ => Some t
  end.

(* ------------------------------------------------------------------ *)
(* graph.c, large programs: directors *)

Definition head_is (v : string) (l : list string) : bool :=
  match l with [] => false | a :: _ => String.eqb v a end.

(* The loops of graph.c 5919-5966 and 6001-6020 (the second one is the first
   with np1 = NULL).  [cc] is the director string built so far, from the
   innermost variable outwards; the result also lists the needed variables. *)
Fixpoint directors (vlp np1 np2 : list string) (cc : option tm)
  : option tm * list string :=
  match vlp with
  | [] => (cc, [])
  | v :: vlp =>
      if head_is v np1 then
        if head_is v np2 then
          let cc' := match cc with
                     | None => Prm P_S | Some c => App (Prm P_SPRIME) c end in
          let (r, ne) := directors vlp (tl np1) (tl np2) (Some cc') in
          (r, v :: ne)
        else
          let cc' := match cc with
                     | None => Prm P_C | Some c => App (Prm P_CPRIME) c end in
          let (r, ne) := directors vlp (tl np1) np2 (Some cc') in
          (r, v :: ne)
      else if head_is v np2 then
        let cc' := match cc with
                   | None => Prm P_B | Some c => App (Prm P_BPRIME) c end in
        let (r, ne) := directors vlp np1 (tl np2) (Some cc') in
        (r, v :: ne)
      else directors vlp np1 np2 cc
  end.

Definition direct (cc : option tm) (a b : tm) : tm :=
  match cc with None => App a b | Some c => App (App c a) b end.

(* graph.c 5877-6042, compile *)
Fixpoint compile (t : tm) (vlp : list string) : tm * list string :=
  match t with
  | Var x => if existsb (String.eqb x) vlp then (Prm P_I, [x]) else (t, [])
  | App a b =>
      let (r1, n1) := compile a vlp in
      let (r2, n2) := compile b vlp in
      let (cc, ne) := directors vlp n1 n2 None in
      (direct cc r1 r2, ne)
  | Lam x a =>
      let (r2, n2) := compile a (x :: vlp) in
      if head_is x n2 then (r2, tl n2)
      else
        let (cc, ne) := directors vlp [] n2 None in
        (direct cc (Prm P_K) r2, ne)
  | _ => (t, [])
  end.

(* graph.c 2623-2648, is_large, as far as it is used: the size against the cut
   off.  (The early return in the C code only saves time: once the left part
   reaches the cut off so does the sum.) *)
Definition Compile_with (cut_off : nat) (t : tm) : option tm :=
  if Nat.ltb (size t) cut_off
  then match compile_rec (create_free_tbl t) with
       | None => None
       | Some a => Some (erase a)
       end
  else Some (fst (compile t [])).

(* graph.c 1284-1345, Compile, from Optimise on. *)
Definition Compile (cut_off : nat) (t : tm) : option tm :=
  Compile_with cut_off (Optimise t).

(* ------------------------------------------------------------------ *)
(* The rewrite rules of traverse_left (graph.c 3121-3494, 4653-4672): number
   of arguments, and the right hand side as a template over them. *)
Inductive tpl := Arg (n : nat) | TApp (a b : tpl) | TPrm (p : prim).

Definition rule (p : prim) : nat * tpl :=
  match p with
  | P_I => (1, Arg 0)
  | P_K => (2, Arg 0)
  | P_S => (3, TApp (TApp (Arg 0) (Arg 2)) (TApp (Arg 1) (Arg 2)))
  | P_B => (3, TApp (Arg 0) (TApp (Arg 1) (Arg 2)))
  | P_C => (3, TApp (TApp (Arg 0) (Arg 2)) (Arg 1))
  | P_SPRIME =>
      (4, TApp (TApp (Arg 0) (TApp (Arg 1) (Arg 3))) (TApp (Arg 2) (Arg 3)))
  | P_BPRIME =>
      (4, TApp (TApp (Arg 0) (Arg 1)) (TApp (Arg 2) (Arg 3)))
  | P_CPRIME =>
      (4, TApp (TApp (Arg 0) (TApp (Arg 1) (Arg 3))) (Arg 2))
  | P_BSTAR =>
      (4, TApp (Arg 0) (TApp (Arg 1) (TApp (Arg 2) (Arg 3))))
  | P_Y => (1, TApp (Arg 0) (TApp (TPrm P_Y) (Arg 0)))
  | P_NAMED_ARG => (3, Arg 0)
  end.

Fixpoint inst (l : list tm) (t : tpl) : tm :=
  match t with
  | Arg n => nth n l (Cst 0)
  | TApp a b => App (inst l a) (inst l b)
  | TPrm p => Prm p
  end.

(* One step of the machine, at any place of an application tree.  The graph
   rule for Y ties a knot (graph.c 3485-3494): the node becomes f applied to
   itself, whose unwinding is f (Y f). *)
Inductive red : tm -> tm -> Prop :=
| red_rule p l :
    length l = fst (rule p) -> red (apps (Prm p) l) (inst l (snd (rule p)))
| red_l a a' b : red a a' -> red (App a b) (App a' b)
| red_r a b b' : red b b' -> red (App a b) (App a b').

Inductive reds : tm -> tm -> Prop :=
| reds_refl t : reds t t
| reds_step t u v : red t u -> reds u v -> reds t v.

(* traverse_left (graph.c 3053-4778) on the rules above: [args] is the part of
   the stack above the entry level, so that the term under evaluation is
   [apps root args].  Projections evaluate the chosen argument before they
   overwrite the redex; too few arguments end the evaluation ("clean_up"). *)
Inductive outcome := Val (t : tm) | Die | Timeout.
Definition is_projection (p : prim) : bool :=
  match p with P_I | P_K | P_NAMED_ARG => true | _ => false end.
Fixpoint traverse_left (fuel : nat) (root : tm) (args : list tm) : outcome :=
  match fuel with
  | O => Timeout
  | S fuel =>
    match root with
    | App a b => traverse_left fuel a (b :: args)
    | Prm p =>
        let n := fst (rule p) in
        if Nat.ltb (length args) n then Val (apps root args)
        else
          let l := firstn n args in
          let rest := skipn n args in
          if is_projection p then
            match traverse_left fuel (nth 0 l (Cst 0)) [] with
            | Val v => traverse_left fuel v rest
            | o => o
            end
          else traverse_left fuel (inst l (snd (rule p))) rest
    | Cst _ => match args with [] => Val root | _ => Die end
    | Var _ | Lam _ _ => Die
    end
  end.
