(* What cached functions should compute: the answers of the same functions without caches. *)
From Coq Require Import ZArith List Bool String.
From Verif Require Import MemoModel.
Import ListNotations.
Open Scope Z_scope.

(* runs body c v n: c has the answer v, and n functions are called on the way. *)
Inductive runs (body : nat -> args -> comp) : comp -> val -> Z -> Prop :=
| runs_ret v : runs body (Ret v) v 0
| runs_call f k next v w m n :
    runs body (body f k) v m -> runs body (next v) w n ->
    runs body (Call f k next) w (1 + m + n).

(* Two values of one type: no reference variables, no bare caches, and external objects meet
   objects of their class only. *)
Fixpoint similar (v w : val) : Prop :=
  match v, w with
  | Cons a b, Cons c d => similar a c /\ similar b d
  | Ref _, Ref _ => False
  | Cache _, Cache _ => False
  | Ext c _, Ext d _ => c = d
  | _, _ => True
  end.

(* Every call that c makes itself is in K. *)
Fixpoint within (body : nat -> args -> comp) (K : nat -> args -> Prop) (c : comp) : Prop :=
  match c with
  | Ret _ => True
  | Call f k next => K f k /\ forall v n, runs body (body f k) v n -> within body K (next v)
  end.

(* A program in which each function is called with arguments of one type only. *)
Definition typed (body : nat -> args -> comp) (K : nat -> args -> Prop) : Prop :=
  (forall f k l, K f k -> K f l -> Forall2 similar k l) /\
  (forall f k, K f k -> within body K (body f k)).

(* A history of insertions. *)
Fixpoint inserts (hash : args -> Z -> Z) (l : list (args * val)) (c : cache) : res cache :=
  match l with
  | [] => Ok c
  | (k, v) :: l =>
      match insert hash k v c with
      | Ok c => inserts hash l c
      | r => r
      end
  end.

(* Values that are equal to themselves in every way. *)
Fixpoint plain (v : val) : Prop :=
  match v with
  | Cons a b => plain a /\ plain b
  | Ref _ | Cache _ => False
  | _ => True
  end.
