(** Specification for C64: integers in two's complement. *)
From Coq Require Import List ZArith Bool.
Import ListNotations.
From Verif Require Import BevModel.
Open Scope Z_scope.

(** The value of a list of bits, most significant first: the sign bit counts negatively. *)
Definition bitval (b : bool) : Z := if b then 1 else 0.
Definition unsigned (l : list bool) : Z := fold_left (fun n b => 2 * n + bitval b) l 0.
Definition signed (l : list bool) : Z :=
  match l with [] => 0 | b :: r => unsigned r - bitval b * 2 ^ Z.of_nat (length r) end.

(** [val] gives every node a truth value (under one assignment of the variables), and the operations are right for it;
    two nodes that are the same have the same value. *)
Record sound (A : alg) (val : node A -> bool) : Prop := {
  val_One : val One = true; val_Zero : val Zero = false;
  val_Not : forall a, val (Not a) = negb (val a);
  val_And : forall a b, val (And a b) = val a && val b;
  val_Or : forall a b, val (Or a b) = val a || val b;
  val_Xor : forall a b, val (Xor a b) = xorb (val a) (val b);
  val_Xnor : forall a b, val (Xnor a b) = Bool.eqb (val a) (val b);
  val_Ite : forall a b c, val (Ite a b c) = if val a then val b else val c;
  val_same : forall a b, same a b = true -> val a = val b }.
Definition num {A} (val : node A -> bool) (l : list (node A)) : Z := signed (map val l).
Definition unum {A} (val : node A -> bool) (l : list (node A)) : Z := unsigned (map val l).
(** no redundant sign bit *)
Definition minimal {A} (l : list (node A)) : Prop := match l with f :: g :: _ => @same A f g = false | _ => True end.

(** [o] is a vector, and its value under every assignment is [f] *)
Definition gives {A} (o : option (list (node A))) (f : (node A -> bool) -> Z) : Prop :=
  exists r, o = Some r /\ r <> [] /\ minimal r /\ forall val, sound A val -> num val r = f val.
Definition decides {A} (o : option (node A)) (f : (node A -> bool) -> bool) : Prop :=
  exists c, o = Some c /\ forall val, sound A val -> val c = f val.
(** [same] is identity, and the operations give a constant for constants *)
Definition konst {A} (f : node A) : Prop := f = One \/ f = Zero.
Record folding (A : alg) : Prop := {
  same_eq : forall a b : node A, same a b = true <-> a = b;
  fold_Not : forall a : node A, konst a -> konst (Not a);
  fold_And : forall a b : node A, konst a -> konst b -> konst (And a b);
  fold_Or : forall a b : node A, konst a -> konst b -> konst (Or a b);
  fold_Xor : forall a b : node A, konst a -> konst b -> konst (Xor a b) }.
