(* What the theorems on parametric representations speak of. *)
From Coq Require Import List Bool Arith.
From Verif Require Import ParamModel.
Import ListNotations.

(* the function of a BDD *)
Fixpoint value (f : bdd) (e : env) : bool :=
  match f with Leaf b => b | Node v H L => if e v then value H e else value L e end.

Inductive on (v : nat) : bdd -> Prop :=
| on_top H L : on v (Node v H L)
| on_high w H L : on v H -> on v (Node w H L)
| on_low w H L : on v L -> on v (Node w H L).

(* reduced and ordered, over the variables below n *)
Inductive robdd : bdd -> Prop :=
| ro_leaf b : robdd (Leaf b)
| ro_node v H L : robdd H -> robdd L -> H <> L ->
    (forall w, on w H \/ on w L -> v < w) -> robdd (Node v H L).
Definition below (n : nat) (f : bdd) : Prop := forall v, on v f -> v < n.

(* the values that the answer of param gives to the variables under e; the
   others keep theirs *)
Fixpoint subst (res : list (nat * fn)) (e : env) (v : nat) : bool :=
  match res with
  | [] => e v
  | (w, g) :: res => if v =? w then g e else subst res e v
  end.
