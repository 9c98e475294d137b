(* Abstract types as scopes. *)
From Coq Require Import Arith List Bool.
From Verif Require Import AdtModel.
Import ListNotations.

(* Definitions and abstract types (with the names they export), one after the other. *)
Inductive items :=
| Done
| Define (n v : nat) (rest : items)
| Abstype (inner : items) (exports : list nat) (rest : items).
Fixpoint typed (p : items) : list command :=
  match p with
  | Done => []
  | Define n v r => Let n v :: typed r
  | Abstype b ex r => Begin_abstype :: typed b ++ End_abstype ex :: typed r
  end.

(* What names mean after them: of an abstract type only the exports are seen.  None: an
   export has no meaning. *)
Definition env := nat -> option nat.
Fixpoint scope (p : items) (e : env) : option env :=
  match p with
  | Done => Some e
  | Define n v r => scope r (fun m => if Nat.eqb m n then Some v else e m)
  | Abstype b ex r =>
      match scope b e with
      | Some f =>
          if forallb (fun n => match f n with None => false | Some _ => true end) ex
          then scope r (fun m => if existsb (Nat.eqb m) ex then f m else e m)
          else None
      | None => None
      end
  end.

(* The names that are defined in p, and those that an abstract type in p defines and keeps
   to itself. *)
Fixpoint names (p : items) : list nat :=
  match p with
  | Done => []
  | Define n v r => n :: names r
  | Abstype b ex r => names b ++ names r
  end.
Fixpoint kept (p : items) : list nat :=
  match p with
  | Done => []
  | Define n v r => kept r
  | Abstype b ex r =>
      kept b ++ filter (fun n => negb (existsb (Nat.eqb n) ex)) (names b) ++ kept r
  end.
(* No abstract type exports a name that one inside of it keeps to itself. *)
Fixpoint apart (p : items) : Prop :=
  match p with
  | Done => True
  | Define n v r => apart r
  | Abstype b ex r => (forall n, In n ex -> ~ In n (kept b)) /\ apart b /\ apart r
  end.
(* The meanings at the start. *)
Definition start : env := fun n => if Nat.eqb n 0 then Some 0 else None.
