(* Places in a type, independently of stores. *)
From Coq Require Import String List Bool Arith.
From Verif Require Import TyModel InfModel InfSpec OvModel.
Import ListNotations.
Open Scope list_scope.

(* The part of a type at a place; [asub] goes through arrows only. *)
Fixpoint sub (t : tree) (path : list nat) : option tree :=
  match path with
  | [] => Some t
  | i :: path => match t with Nd _ k =>
      match nth_error k i with Some u => sub u path | None => None end end
  end.
Fixpoint asub (t : tree) (path : list nat) : option tree :=
  match path with
  | [] => Some t
  | i :: path =>
      match t with
      | Nd (LCon CArrow) k => match nth_error k i with Some u => asub u path | None => None end
      | _ => None
      end
  end.
(* Every variable of the type occurs only at the place that is given for it. *)
Definition placed (pos : nat -> list nat) (t : tree) : Prop :=
  forall path v k, sub t path = Some (Nd (LVar v) k) -> pos v = path.

(* The declared type, if there is one, and the types of the alternatives. *)
Definition all (dflt : option nat) (cores : list nat) : list nat :=
  match dflt with Some t => t :: cores | None => cores end.

(* The types can be made equal. *)
Definition unifiable (h : heap) (l : list nat) : Prop :=
  exists r, reading h r /\ exists t, forall p, In p l -> r p = t.
(* The function f and its alternative g can both have the type. *)
Definition can (fns : list fn) (h : heap) (type f g : nat) : Prop :=
  forall F G, nth_error fns f = Some F -> nth_error fns g = Some G ->
  unifiable h [type; fn_type F; fn_type G].
