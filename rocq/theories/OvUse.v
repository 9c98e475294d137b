(* Expressions with overloaded functions, independently of stores and unification. *)
From Coq Require Import String List Bool Arith.
From Verif Require Import TyModel InfModel InfSpec OvModel OvSpec OvCheck.
Import ListNotations.
Open Scope list_scope.

Section Uses.
Variable fns : list fn.
Variable sigma : nat -> tree.
Notation fun_type := (fun_type fns sigma).

(* The typing rules of InfSpec.v; the uses of overloaded functions are listed from left to right,
   each with the type it has there. *)
Inductive has_uses (rho : nat -> tree) : ctx -> expr -> tree -> list (nat * tree) -> Prop :=
| V_lit G h l : hinted rho h (tcon (lit_type l) []) ->
    has_uses rho G (XLit h l) (tcon (lit_type l) []) []
| V_prim G h p t f : prim_type p = PType t -> hinted rho h (sinst f t) ->
    has_uses rho G (XPrim h p) (sinst f t) []
| V_var G h x t : G x = Some t -> hinted rho h t -> has_uses rho G (XVar h x) t []
| V_glob G h f t : fun_type f t -> hinted rho h t ->
    has_uses rho G (XGlob h f) t (if overloaded fns f then [(f, t)] else [])
| V_nil G h a : hinted rho h (tcon CList [a]) -> has_uses rho G (XNil h) (tcon CList [a]) []
| V_cons G h x y a us vs : has_uses rho G x a us -> has_uses rho G y (tcon CList [a]) vs ->
    hinted rho h (tcon CList [a]) -> has_uses rho G (XCons h x y) (tcon CList [a]) (us ++ vs)
| V_app G h x y a b us vs : has_uses rho G x (arrow a b) us -> has_uses rho G y a vs ->
    hinted rho h b -> has_uses rho G (XApp h x y) b (us ++ vs)
| V_lam G h x y a b us : has_uses rho (bound x a G) y b us -> hinted rho h (arrow a b) ->
    has_uses rho G (XLam h x y) (arrow a b) us.

(* The expression has the type if its overloaded functions are resolved by the choices. *)
Definition typed (rho : nat -> tree) (G : ctx) (e : expr) (t : tree) (cs : list choice) : Prop :=
  exists us, has_uses rho G e t us /\ resolves_all fns sigma us cs.

(* The expression with the calls of the chosen alternatives in the place of the overloaded
   functions. *)
Inductive full : hint -> nat -> choice -> expr -> Prop :=
| F_pick h f F i g G kids e es : nth_error fns f = Some F -> nth_error (fn_alts F) i = Some g ->
    nth_error fns g = Some G -> full_all (g :: fn_impl G) kids (e :: es) ->
    full h f (Pick i kids) (set_hint h (apps e es))
with full_all : list nat -> list choice -> list expr -> Prop :=
| F_nil : full_all [] [] []
| F_fun d ds kids es : overloaded fns d = false -> full_all ds kids es ->
    full_all (d :: ds) kids (XGlob None d :: es)
| F_over d ds k kids e es : overloaded fns d = true -> full None d k e -> full_all ds kids es ->
    full_all (d :: ds) (k :: kids) (e :: es).
Inductive fulls : expr -> list choice -> expr -> Prop :=
| FE_lit h l : fulls (XLit h l) [] (XLit h l)
| FE_prim h p : fulls (XPrim h p) [] (XPrim h p)
| FE_var h x : fulls (XVar h x) [] (XVar h x)
| FE_glob h f : overloaded fns f = false -> fulls (XGlob h f) [] (XGlob h f)
| FE_over h f c e : overloaded fns f = true -> full h f c e -> fulls (XGlob h f) [c] e
| FE_nil h : fulls (XNil h) [] (XNil h)
| FE_cons h x y cs ds x' y' : fulls x cs x' -> fulls y ds y' -> fulls (XCons h x y) (cs ++ ds) (XCons h x' y')
| FE_app h x y cs ds x' y' : fulls x cs x' -> fulls y ds y' -> fulls (XApp h x y) (cs ++ ds) (XApp h x' y')
| FE_lam h x y cs y' : fulls y cs y' -> fulls (XLam h x y) cs (XLam h x y').

(* The type of an overloaded function is at least as general as those of its alternatives. *)
Definition general : Prop := forall f F g t uses, nth_error fns f = Some F -> In g (fn_alts F) ->
  call fns sigma g t uses -> fun_type f t.

Fixpoint wf_o (n : nat) (vars : list string) (e : expr) : Prop :=
  match e with
  | XLit h _ | XNil h => hint_in n h
  | XPrim h p => hint_in n h /\ prim_type p <> PCrash
  | XVar h x => hint_in n h /\ In x vars
  | XGlob h f => hint_in n h /\ nth_error fns f <> None
  | XCons h a b | XApp h a b => hint_in n h /\ wf_o n vars a /\ wf_o n vars b
  | XLam h x b => hint_in n h /\ wf_o n (x :: vars) b
  end.
End Uses.
