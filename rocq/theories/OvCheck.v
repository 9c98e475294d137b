(* Model of TypeCheck (src/bin/fl/typecheck.c 193-280) on expressions with overloaded functions, with
   the USERDEF case of build_node_type_struct (2117-2130).

   In an expression XGlob h f stands for the function f of the table.  As in OvModel.v a node of
   to_be_resolved is a function and the pointer to its type.  Which node of the expression it is,
   is known from its place in the list: build_node_type_struct visits the nodes from left to right
   and puts each in front of the list, so the list has the overloaded functions from right to left.
   The replacements come in the same order, with those in a call of an alternative after the call
   and before those to the left of it. *)
From Coq Require Import String Ascii List Bool Arith DecimalString.
From Verif Require Import TyModel InfModel OvModel OvSpec.
Import ListNotations.
Open Scope list_scope.
Open Scope m_scope.

Section Check.
Variable fuel : nat.
Variable gheap : heap.
Variable fns : list fn.
Variable veq : tstate -> nat -> nat -> bool.
Variable depth : nat.    (* MAX_OVERLOAD_RESOLUTION_DEPTH + 1 *)

(* build_node_type_struct: the type of the node, lvars_tbl and to_be_resolved afterwards. *)
Fixpoint infer_o (e : expr) (tbl : env) (todo : list occ) : M (nat * env * list occ) :=
  match e with
  | XLit h l =>
      p <- new (NCon (lit_con l) []) ;; check_hint fuel h p ;; ret (p, tbl, todo)
  | XPrim h p =>
      p <- get_prim_fun_type p ;; check_hint fuel h p ;; ret (p, tbl, todo)
  | XVar h x =>
      match find_hash tbl x with
      | None => crash
      | Some p => check_hint fuel h p ;; ret (p, tbl, todo)
      end
  | XGlob h f =>
      match nth_error fns f with
      | None => crash
      | Some F =>
          p <- fresh_inst fuel gheap (fn_type F) ;; check_hint fuel h p ;; p <- real fuel p ;;
          ret (p, tbl, if fn_over F then (f, p) :: todo else todo)
      end
  | XNil h =>
      v <- new NVar ;; p <- make_list fuel v ;; check_hint fuel h p ;; ret (p, tbl, todo)
  | XCons h a b =>
      l <- infer_o a tbl todo ;;
      r <- infer_o b (snd (fst l)) (snd l) ;;
      pot <- make_list fuel (fst (fst l)) ;;
      unif fuel (fst (fst r)) pot ;;
      p <- real fuel (fst (fst r)) ;;
      check_hint fuel h p ;;
      p <- real fuel p ;; ret (p, snd (fst r), snd r)
  | XApp h a b =>
      l <- infer_o a tbl todo ;;
      r <- infer_o b (snd (fst l)) (snd l) ;;
      p <- apply_types fuel h (fst (fst l)) (fst (fst r)) ;; ret (p, snd (fst r), snd r)
  | XLam h x b =>
      let old := find_hash tbl x in
      let tbl := match old with Some _ => delete_hash tbl x | None => tbl end in
      v <- new NVar ;;
      r <- infer_o b ((x, v) :: tbl) todo ;;
      p <- make_arrow fuel v (fst (fst r)) ;;
      match find_hash (snd (fst r)) x with
      | None => crash
      | Some _ =>
          let tbl := delete_hash (snd (fst r)) x in
          let tbl := match old with Some q => (x, q) :: tbl | None => tbl end in
          check_hint fuel h p ;; p <- real fuel p ;; ret (p, tbl, snd r)
      end
  end.

(* The assignments *(nrp->old) = *(nrp->new) for one overloaded function and all that follows from
   it; the result is the new contents of the node and the rest of the replacements.  If the
   alternative has implicit arguments, its call is an application, and the nodes below are shared
   with the call and get their replacements; if it has none, the call is a leaf, and the contents
   are copied before the leaf gets its own replacement. *)
Definition plug_args (leaf : nat -> list nat -> option (expr * list nat)) :=
  fix loop (ds : list nat) (l : list nat) : option (list expr * list nat) :=
    match ds with
    | [] => Some ([], l)
    | d :: ds =>
        match loop ds l with
        | Some (es, l) =>
            match leaf d l with
            | Some (e, l) => Some (e :: es, l)
            | None => None
            end
        | None => None
        end
    end.
Fixpoint apps (e : expr) (es : list expr) : expr :=
  match es with [] => e | a :: es => apps (XApp None e a) es end.
(* The node keeps its hint. *)
Definition set_hint (h : hint) (e : expr) : expr :=
  match e with
  | XLit _ l => XLit h l | XPrim _ p => XPrim h p | XVar _ x => XVar h x | XGlob _ f => XGlob h f
  | XNil _ => XNil h | XCons _ a b => XCons h a b | XApp _ a b => XApp h a b | XLam _ x b => XLam h x b
  end.
Fixpoint plug_fun (n : nat) (h : hint) (f : nat) (l : list nat) : option (expr * list nat) :=
  match n, l with
  | S n, i :: l =>
      match nth_error fns f with
      | None => None
      | Some F =>
      match nth_error (fn_alts F) i with
      | None => None
      | Some g =>
      match nth_error fns g with
      | None => None
      | Some G =>
          let leaf d l := if overloaded fns d then plug_fun n None d l else Some (XGlob None d, l) in
          match plug_args leaf (g :: fn_impl G) l with
          | Some ([_], l) => Some (XGlob h g, l)
          | Some (e :: es, l) => Some (set_hint h (apps e es), l)
          | _ => None
          end
      end end end
  | _, _ => None
  end.
Fixpoint plug (n : nat) (e : expr) (l : list nat) : option (expr * list nat) :=
  match e with
  | XGlob h f => if overloaded fns f then plug_fun n h f l else Some (e, l)
  | XCons h a b =>
      match plug n b l with
      | Some (b, l) => match plug n a l with Some (a, l) => Some (XCons h a b, l) | None => None end
      | None => None
      end
  | XApp h a b =>
      match plug n b l with
      | Some (b, l) => match plug n a l with Some (a, l) => Some (XApp h a b, l) | None => None end
      | None => None
      end
  | XLam h x b => match plug n b l with Some (b, l) => Some (XLam h x b, l) | None => None end
  | _ => Some (e, l)
  end.

(* The overloaded functions are made variables, from right to left. *)
Definition vname (k : nat) : string := (".impl_arg." ++ NilZero.string_of_uint (Nat.to_uint k))%string.
Fixpoint unplug (e : expr) (cnt : nat) : expr * nat :=
  match e with
  | XGlob h f => if overloaded fns f then (XVar h (vname cnt), S cnt) else (e, cnt)
  | XCons h a b => let (b, cnt) := unplug b cnt in let (a, cnt) := unplug a cnt in (XCons h a b, cnt)
  | XApp h a b => let (b, cnt) := unplug b cnt in let (a, cnt) := unplug a cnt in (XApp h a b, cnt)
  | XLam h x b => let (b, cnt) := unplug b cnt in (XLam h x b, cnt)
  | _ => (e, cnt)
  end.
(* for ntp in to_be_resolved: the type, the expression and the implicit arguments *)
Fixpoint implicit (todo : list occ) (cnt : nat) (res : nat) (nd : expr) (args : list nat)
    : M (nat * expr * list nat) :=
  match todo with
  | [] => ret (res, nd, args)
  | (f, p) :: todo =>
      res <- make_arrow fuel p res ;;
      implicit todo (S cnt) res (XLam None (vname cnt) nd) (f :: args)
  end.

Inductive result :=
| TypeError                                     (* reported by build_node_type_struct *)
| NoMatch (f : nat)                             (* "No match found for overloaded function" *)
| TooDeep                                       (* "Infinite loop in resolution" *)
| Typed (e : expr) (args : list nat) (p : nat). (* the expression, implicit arguments and type *)

(* redo_overload_resolution; n bounds the number of rounds. *)
Fixpoint rounds (n : nat) (e : expr) (p : nat) (todo : list occ) (s : tstate) : option (result * tstate) :=
  match n with
  | O => None
  | S n =>
      match nbr_succ fuel gheap fns veq depth todo s with
      | RFail s => Some (TooDeep, s)
      | ROk (ANone f) s => Some (NoMatch f, s)
      | ROk (AOne l) s =>
          match plug (length l) e l with
          | None => None
          | Some (e, _) =>
              match infer_o e [] [] s with
              | ROk (p, _, todo) s =>
                  match todo with
                  | [] => Some (Typed e [] p, s)
                  | _ => rounds n e p todo s
                  end
              | RFail s => Some (TypeError, s)
              | _ => None
              end
          end
      | ROk (AMany _) s =>
          match implicit todo 1 p (fst (unplug e 1)) [] s with
          | ROk (p, e, args) s => Some (Typed e args p, s)
          | _ => None
          end
      | _ => None
      end
  end.

(* TypeCheck: the verdict, the persistent store (where the type is) and the other store. *)
Definition type_check_o (n : nat) (e : expr) (s : tstate) : option (result * heap * tstate) :=
  let fin (r : result) (s : tstate) :=
    match pop_ctx true s with
    | None => None
    | Some s' =>
        match r with
        | Typed e args p =>
            match copy_type fuel (t_heap s) p gheap with
            | Some (q, g) => Some (Typed e args q, g, s')
            | None => None
            end
        | _ => Some (r, gheap, s')
        end
    end in
  match infer_o e [] [] (push_ctx s) with
  | ROk (p, _, todo) s =>
      match rounds n e p todo s with
      | Some (r, s) => fin r s
      | None => None
      end
  | RFail s => fin TypeError s
  | _ => None
  end.
End Check.
