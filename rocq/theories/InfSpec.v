(* The typing rules, independently of stores and unification. *)
From Coq Require Import String List Bool Arith.
From Verif Require Import TyModel InfModel.
Import ListNotations.

(* Types are the finite trees of TyModel.v; a type scheme is a tree whose variables may be replaced
   (inst).  The type of a primitive with its variables replaced: *)
Fixpoint sinst (f : nat -> tree) (t : sch) : tree :=
  match t with
  | SV i => f i
  | SC c l => Nd (LCon c) (map (sinst f) l)
  end.

Definition tcon (c : con) (l : list tree) : tree := Nd (LCon c) l.
Definition arrow (a b : tree) : tree := tcon CArrow [a; b].

(* A hint says what the type of the node is. *)
Definition hinted (rho : nat -> tree) (h : hint) (t : tree) : Prop :=
  match h with None => True | Some q => t = rho q end.

Definition ctx := string -> option tree.
Definition bound (x : string) (a : tree) (G : ctx) : ctx :=
  fun y => if String.eqb x y then Some a else G y.

Definition lit_type (l : lit) : con :=
  match l with LInt => CInt | LBool => CBool | LBexpr => CBexpr | LString => CString end.

(* [sigma] gives the type scheme of each defined function, [rho] the type of each hint. *)
Inductive has_type (sigma rho : nat -> tree) : ctx -> expr -> tree -> Prop :=
| T_lit G h l : hinted rho h (tcon (lit_type l) []) ->
    has_type sigma rho G (XLit h l) (tcon (lit_type l) [])
| T_prim G h p t f : prim_type p = PType t -> hinted rho h (sinst f t) ->
    has_type sigma rho G (XPrim h p) (sinst f t)
| T_var G h x t : G x = Some t -> hinted rho h t -> has_type sigma rho G (XVar h x) t
| T_glob G h g f : hinted rho h (inst f (sigma g)) ->
    has_type sigma rho G (XGlob h g) (inst f (sigma g))
| T_nil G h a : hinted rho h (tcon CList [a]) -> has_type sigma rho G (XNil h) (tcon CList [a])
| T_cons G h x y a : has_type sigma rho G x a -> has_type sigma rho G y (tcon CList [a]) ->
    hinted rho h (tcon CList [a]) -> has_type sigma rho G (XCons h x y) (tcon CList [a])
| T_app G h x y a b : has_type sigma rho G x (arrow a b) -> has_type sigma rho G y a ->
    hinted rho h b -> has_type sigma rho G (XApp h x y) b
| T_lam G h x y a b : has_type sigma rho (bound x a G) y b -> hinted rho h (arrow a b) ->
    has_type sigma rho G (XLam h x y) (arrow a b).

(* What the expression must satisfy: hints and functions point into their stores, variables are
   bound, and each primitive has a type (or is rejected). *)
Definition hint_in (n : nat) (h : hint) : Prop := match h with None => True | Some q => q < n end.
Fixpoint wf_expr (n g : nat) (vars : list string) (e : expr) : Prop :=
  match e with
  | XLit h _ | XNil h => hint_in n h
  | XPrim h p => hint_in n h /\ prim_type p <> PCrash
  | XVar h x => hint_in n h /\ In x vars
  | XGlob h f => hint_in n h /\ f < g
  | XCons h a b | XApp h a b => hint_in n h /\ wf_expr n g vars a /\ wf_expr n g vars b
  | XLam h x b => hint_in n h /\ wf_expr n g (x :: vars) b
  end.

(* The number of arguments of the constructors that the type checker makes. *)
Definition base_arities (ar : con -> nat) : Prop :=
  ar CArrow = 2 /\ ar CTuple = 2 /\ ar CList = 1 /\ ar CRef = 1 /\ ar CInt = 0 /\ ar CBool = 0
  /\ ar CBexpr = 0 /\ ar CString = 0 /\ ar CVoid = 0 /\ ar CFp = 0.

(* A store of types. *)
Definition store (ar : con -> nat) (h : heap) : Prop :=
  in_range h /\ acyclic h /\ arities ar h.
