(** * What graph reduction should compute

    Terms are trees with concrete booleans: no sharing, no heap, no formulas,
    no path conditions.  [delta] is the table of the primitives and [step] its
    closure under contexts.  Failures are inert here: the spec says what the
    answer is when no failure is involved. *)

From Coq Require Import String List Bool Arith ZArith.
From Verif Require Import GredModel.
Import ListNotations.
Open Scope list_scope.
Open Scope nat_scope.

Inductive tm :=
| TApp (t u : tm)
| TCons (t u : tm)
| TNil
| TInt (z : Z)
| TStr (s : string)
| TBool (b : bool)
| TPrm (p : prim)
| TFail (s : string).

Infix "·" := TApp (at level 40, left associativity).

(** A primitive together with the arguments it is applied to. *)
Fixpoint spine (t : tm) (args : list tm) : option (prim * list tm) :=
  match t with
  | TApp t u => spine t (u :: args)
  | TPrm p => Some (p, args)
  | _ => None
  end.

(** Fewer arguments than the primitive wants. *)
Definition partial (t : tm) : bool :=
  match spine t [] with
  | Some (p, args) => length args <? arity p
  | None => false
  end.

(** Weak head normal forms other than failures. *)
Definition whnf (t : tm) : bool :=
  match t with
  | TApp _ _ | TPrm _ => partial t
  | TFail _ => false
  | _ => true
  end.

Definition delta (p : prim) (args : list tm) : option tm :=
  match p, args with
  | P_I, [x] => Some x
  | P_K, [x; y] => Some x
  | P_S, [f; g; x] => Some (f · x · (g · x))
  | P_B, [f; g; x] => Some (f · (g · x))
  | P_C, [f; g; x] => Some (f · x · g)
  | P_SPRIME, [k; f; g; x] => Some (k · (f · x) · (g · x))
  | P_BPRIME, [k; f; g; x] => Some (k · f · (g · x))
  | P_CPRIME, [k; f; g; x] => Some (k · (f · x) · g)
  | P_BSTAR, [k; f; g; x] => Some (k · (f · (g · x)))
  | P_NAMED_ARG, [x; y; z] => Some x
  | P_NSEQ, [x; y] => Some y
  | P_SEQ, [x; y] | P_FSEQ, [x; y] => if whnf x then Some y else None
  | P_THEN, [x; f] => if whnf x then Some (f · x) else None
  | P_COND, [TBool b; x; y] => Some (if b then x else y)
  | P_NOT, [TBool b] => Some (TBool (negb b))
  | P_AND, [TBool b; y] => Some (if b then y else TBool false)
  | P_OR, [TBool b; y] => Some (if b then TBool true else y)
  | P_XOR, [TBool a; TBool b] => Some (TBool (xorb a b))
  | P_CONS, [x; y] | P_STRICT_CONS, [x; y] => Some (TCons x y)
  | P_HEAD, [TCons x y] => Some x
  | P_TAIL, [TCons x y] => Some y
  | P_EMPTY, [x] =>
    if whnf x then
      Some (TBool (match x with TNil => true | _ => false end))
    else None
  | P_IS_CONS, [x] =>
    if whnf x then
      Some (TBool (match x with TCons _ _ => true | _ => false end))
    else None
  | P_SUC, [TInt z] => Some (TInt (z + 1))
  | P_CONSTR_EQ, [x; y] =>
    if whnf x && whnf y then
      Some (TBool (match x, y with
                   | TStr s, TStr s' => String.eqb s s'
                   | _, _ => false
                   end))
    else None
  | _, _ => None
  end.

Inductive step : tm -> tm -> Prop :=
| step_delta t p args u :
    spine t [] = Some (p, args) -> delta p args = Some u -> step t u
| step_fun t t' u : step t t' -> step (TApp t u) (TApp t' u)
| step_arg t u u' : step u u' -> step (TApp t u) (TApp t u')
| step_hd t t' u : step t t' -> step (TCons t u) (TCons t' u)
| step_tl t u u' : step u u' -> step (TCons t u) (TCons t u').

Inductive steps : tm -> tm -> Prop :=
| steps_refl t : steps t t
| steps_step t u v : step t u -> steps u v -> steps t v.

(** The tree that a node stands for at an assignment [s] of the variables. *)
Inductive tree (s : nat -> bool) (h : heap) : addr -> tm -> Prop :=
| tree_app a l r t u :
    get h a = Some (App l r) -> tree s h l t -> tree s h r u ->
    tree s h a (TApp t u)
| tree_cons a l r t u :
    get h a = Some (Cons l r) -> tree s h l t -> tree s h r u ->
    tree s h a (TCons t u)
| tree_nil a : get h a = Some Nil -> tree s h a TNil
| tree_int a z : get h a = Some (Int z) -> tree s h a (TInt z)
| tree_str a x : get h a = Some (Str x) -> tree s h a (TStr x)
| tree_bool a f : get h a = Some (Bool f) -> tree s h a (TBool (sem s f))
| tree_prm a p : get h a = Some (Prm p) -> tree s h a (TPrm p)
| tree_fail a x : get h a = Some (Fail x) -> tree s h a (TFail x).

(** No node has been marked as forced yet. *)
Definition fresh (h : heap) : Prop := forall a, is_forced h a = false.

(** No [catch] and no [NONE] occurs in the tree. *)
Fixpoint plain (t : tm) : bool :=
  match t with
  | TApp t u | TCons t u => plain t && plain u
  | TPrm P_CATCH | TPrm P_GEN_CATCH => false
  | TStr s => negb (String.eqb s s_NONE)
  | _ => true
  end.

(** A finished answer: data all the way down, or a function. *)
Fixpoint value (t : tm) : bool :=
  match t with
  | TCons t u => value t && value u
  | TFail _ => false
  | TApp _ _ | TPrm _ => partial t
  | _ => true
  end.

Fixpoint failfree (t : tm) : bool :=
  match t with
  | TApp t u | TCons t u => failfree t && failfree u
  | TFail _ => false
  | _ => true
  end.

(** Data: no functions either. *)
Fixpoint data (t : tm) : bool :=
  match t with
  | TCons t u => data t && data u
  | TNil | TInt _ | TStr _ | TBool _ => true
  | _ => false
  end.
