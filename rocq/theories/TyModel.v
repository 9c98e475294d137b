(* Model of type unification in src/bin/fl/typecheck.c: get_real_type (1003),
   occurs (1076), record_old_value (1095), push_tc_context (1104),
   pop_tc_context (1113), unify (1128).

   A type is a node in a store; pointers are indices.  A node is a type
   variable, an indirection (a variable that has been bound) or a constructor
   with its argument list.  Only concrete types (typeOp == concrete_type_tp)
   have a name that matters.  Simplifications: anon_cnt, place_holder and the
   error messages are left out, and binding a variable replaces its node as a
   whole (the C code leaves the fields that an indirection does not use). *)
From Coq Require Import String List Bool Arith.
Import ListNotations.

(* typecheck.h 98-101 *)
Inductive con :=
| CBool | CBexpr | CInt | CFsm | CString | CFail | CVoid | CArrow | CTuple
| CList | CRef | CTbl | CFp | CConcrete (name : string).

(* unify 1152-1154: the same typeOp, and the same name for concrete types *)
Definition con_eqb (a b : con) : bool :=
  match a, b with
  | CBool, CBool | CBexpr, CBexpr | CInt, CInt | CFsm, CFsm | CString, CString
  | CFail, CFail | CVoid, CVoid | CArrow, CArrow | CTuple, CTuple
  | CList, CList | CRef, CRef | CTbl, CTbl | CFp, CFp => true
  | CConcrete n, CConcrete m => String.eqb n m
  | _, _ => false
  end.

Inductive tnode :=
| NVar
| NInd (alias : nat)
| NCon (c : con) (kids : list nat).

Definition heap := list tnode.

Fixpoint upd (h : heap) (p : nat) (n : tnode) : heap :=
  match h, p with
  | [], _ => []
  | _ :: r, O => n :: r
  | x :: r, S p => x :: upd r p n
  end.

(* The typing contexts, innermost first; each lists the nodes it has to put
   back, latest first. *)
Definition diff := list (nat * tnode).
Record tstate := mkT { t_heap : heap; t_ctx : list diff }.

(* The recursions below follow the store, which could be cyclic, so they are
   bounded; [None] means that the bound was too small (see the termination
   theorem) or that a pointer is not in the store. *)
Fixpoint get_real (fuel : nat) (h : heap) (p : nat) : option nat :=
  match fuel with
  | O => None
  | S fuel =>
      match nth_error h p with
      | None => None
      | Some (NInd q) => get_real fuel h q
      | Some _ => Some p
      end
  end.

Fixpoint occurs (fuel : nat) (h : heap) (v t : nat) : option bool :=
  match fuel with
  | O => None
  | S fuel =>
      match get_real fuel h v with
      | None => None
      | Some t1 =>
      match get_real fuel h t with
      | None => None
      | Some t2 =>
          if Nat.eqb t1 t2 then Some true
          else
            match nth_error h t2 with
            | Some (NCon _ kids) =>
                (fix loop (l : list nat) : option bool :=
                   match l with
                   | [] => Some false
                   | a :: l =>
                       match occurs fuel h t1 a with
                       | None => None
                       | Some true => Some true
                       | Some false => loop l
                       end
                   end) kids
            | _ => Some false
            end
      end
      end
  end.

Inductive ures :=
| UOk (s : tstate)
| UFail (s : tstate)
| UCrash          (* NULL dereference *)
| UStuck.         (* bound too small *)

(* record_old_value and the assignments in unify 1143-1146 *)
Definition bind_var (s : tstate) (p q : nat) : ures :=
  match t_ctx s with
  | [] => UCrash
  | d :: ctx =>
      UOk (mkT (upd (t_heap s) p (NInd q))
               (((p, NVar) :: d) :: ctx))
  end.

(* The loop of unify 1163-1168: it stops with the first list, and does not look
   whether the second one is exhausted. *)
Definition unify_list (u : tstate -> nat -> nat -> ures) :=
  fix loop (k1 k2 : list nat) (s : tstate) : ures :=
    match k1 with
    | [] => UOk s
    | a :: k1 =>
        match k2 with
        | [] => UCrash
        | b :: k2 =>
            match u s a b with
            | UOk s => loop k1 k2 s
            | r => r
            end
        end
    end.

Fixpoint unify (fuel : nat) (s : tstate) (p q : nat) : ures :=
  match fuel with
  | O => UStuck
  | S fuel =>
      match get_real fuel (t_heap s) p, get_real fuel (t_heap s) q with
      | Some p, Some q =>
          match nth_error (t_heap s) p, nth_error (t_heap s) q with
          | Some NVar, Some _ =>
              match occurs fuel (t_heap s) p q with
              | None => UStuck
              | Some true => if Nat.eqb p q then UOk s else UFail s
              | Some false => bind_var s p q
              end
          | Some (NCon _ _), Some NVar => unify fuel s q p
          | Some (NCon c1 k1), Some (NCon c2 k2) =>
              if con_eqb c1 c2
              then unify_list (unify fuel) k1 k2 s
              else UFail s
          | _, _ => UStuck
          end
      | _, _ => UStuck
      end
  end.

(* push_tc_context and pop_tc_context *)
Definition push_ctx (s : tstate) : tstate := mkT (t_heap s) ([] :: t_ctx s).
Definition restore (d : diff) (h : heap) : heap :=
  fold_left (fun h pn => upd h (fst pn) (snd pn)) d h.
Definition pop_ctx (b : bool) (s : tstate) : option tstate :=
  match t_ctx s with
  | [] => None
  | d :: ctx => Some (mkT (if b then restore d (t_heap s) else t_heap s) ctx)
  end.

(* Histories of the type checker, seen from the store. *)
Inductive top :=
| TUnify (fuel : nat) (p q : nat)
| TNew (n : tnode)               (* a new node: new_tVar, make_arrow, ... *)
| TPush
| TPop (restore : bool).

Definition tstep (o : top) (s : tstate) : option tstate :=
  match o with
  | TUnify fuel p q =>
      match unify fuel s p q with
      | UOk s | UFail s => Some s
      | _ => None
      end
  | TNew n => Some (mkT (t_heap s ++ [n]) (t_ctx s))
  | TPush => Some (push_ctx s)
  | TPop b => pop_ctx b s
  end.
Fixpoint trun (l : list top) (s : tstate) : option tstate :=
  match l with
  | [] => Some s
  | o :: l => match tstep o s with None => None | Some s => trun l s end
  end.

(* ------------------------------------------------------------------ *)
(* Specification: finite trees, and the readings of a store. *)
Inductive lab := LVar (p : nat) | LCon (c : con).
Inductive tree := Nd (l : lab) (kids : list tree).

(* A reading gives every node a finite tree, respecting indirections and
   constructors; variables are free. *)
Definition reading (h : heap) (r : nat -> tree) : Prop :=
  forall p n, nth_error h p = Some n ->
    match n with
    | NVar => True
    | NInd q => r p = r q
    | NCon c kids => r p = Nd (LCon c) (map r kids)
    end.

(* Well formed stores. *)
Definition kids_of (n : tnode) : list nat :=
  match n with NVar => [] | NInd q => [q] | NCon _ k => k end.
Definition child (h : heap) (q p : nat) : Prop :=
  exists n, nth_error h p = Some n /\ In q (kids_of n).
Definition acyclic (h : heap) : Prop := forall p, Acc (child h) p.
Definition in_range (h : heap) : Prop :=
  forall p n q, nth_error h p = Some n -> In q (kids_of n) -> q < length h.
Definition arities (ar : con -> nat) (h : heap) : Prop :=
  forall p c k, nth_error h p = Some (NCon c k) -> length k = ar c.

(* The tree of a node with its free variables. *)
Fixpoint expand (fuel : nat) (h : heap) (p : nat) : tree :=
  match fuel with
  | O => Nd (LVar p) []
  | S fuel =>
      match nth_error h p with
      | Some (NInd q) => expand fuel h q
      | Some (NCon c k) => Nd (LCon c) (map (expand fuel h) k)
      | _ => Nd (LVar p) []
      end
  end.

(* Replacing the free variables of a tree. *)
Fixpoint inst (r : nat -> tree) (t : tree) : tree :=
  match t with
  | Nd (LVar p) _ => r p
  | Nd (LCon c) k => Nd (LCon c) (map (inst r) k)
  end.
