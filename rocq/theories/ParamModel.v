(* The parametric representation of a condition.
   Sources: /repo/src/bin/fl/preamble.fl 463-491 (parametric, param);
   builtins.fl 779 (find_first); new_bdd.c 1545 (top_cofactor), 1576 (depends),
   798 (B_Size), 761 (B_Width), 772 (Get_Var_Name).
   Simplifications: a variable is its place in the variable order, which does not
   change while param runs (DYNAMIC-ORDERING is switched off); a BDD is the tree
   of its nodes, and complemented edges are pushed to the leaves, as
   top_cofactor does; as BDDs are canonical, == is equality of trees.  The BDDs
   of the answer are given as the functions they stand for (the operations on
   BDDs are the subject of C01 and following).  [None] is a failure. *)
From Coq Require Import List Bool Arith.
Import ListNotations.

Inductive bdd := Leaf (b : bool) | Node (v : nat) (H L : bdd).

Definition env := nat -> bool.
Definition fn := env -> bool.
Definition variable (v : nat) : fn := fun e => e v.
Definition constant (b : bool) : fn := fun _ => b.

(* new_bdd.c B_Size: the variables with a node *)
Fixpoint occurs (v : nat) (f : bdd) : bool :=
  match f with
  | Leaf _ => false
  | Node w H L => (v =? w) || occurs v H || occurs v L
  end.
(* new_bdd.c depends: those variables of the table, by order *)
Definition depends (vars : nat) (f : bdd) : list nat :=
  filter (fun v => occurs v f) (seq 0 vars).

(* builtins.fl find_first for the predicate n = v: places count from 1 *)
Fixpoint find_first (v : nat) (l : list nat) : option nat :=
  match l with
  | [] => None
  | w :: l => if v =? w then Some 1 else option_map S (find_first v l)
  end.

Definition is_F (f : bdd) : bool := match f with Leaf false => true | _ => false end.

(* v => l1 | l2 for lists: lists of different lengths cannot be merged *)
Fixpoint cond_list (v : nat) (l1 l2 : list fn) : option (list fn) :=
  match l1, l2 with
  | [], [] => Some []
  | f :: l1, g :: l2 =>
      option_map (cons (fun e => if variable v e then f e else g e)) (cond_list v l1 l2)
  | _, _ => None
  end.

(* preamble.fl parametric 463 *)
Fixpoint parametric (rem_vars : list nat) (f : bdd) : option (list fn) :=
  match rem_vars with
  | [] => Some []
  | _ =>
      match f with
      | Leaf true => Some (map variable rem_vars)
      | Leaf false => None
      | Node v H L =>
          match find_first v rem_vars with
          | None => None
          | Some idx =>
              let unconstrained := firstn (idx - 1) rem_vars in
              let rem_vars' := skipn idx rem_vars in
              option_map (app (map variable unconstrained))
                (if is_F H then option_map (cons (constant false)) (parametric rem_vars' L)
                 else if is_F L then option_map (cons (constant true)) (parametric rem_vars' H)
                 else
                   match parametric rem_vars' H with
                   | None => None
                   | Some Hres =>
                       match parametric rem_vars' L with
                       | None => None
                       | Some Lres => option_map (cons (variable v)) (cond_list v Hres Lres)
                       end
                   end)
          end
      end
  end.

(* preamble.fl param 483 *)
Definition param (nvars : nat) (cond : bdd) : option (list (nat * fn)) :=
  if is_F cond then None
  else
    let vars := depends nvars cond in
    option_map (combine vars) (parametric vars cond).
