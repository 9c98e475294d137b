(* What it means to resolve overloaded functions, independently of stores and unification. *)
From Coq Require Import String List Bool Arith.
From Verif Require Import TyModel InfModel InfSpec OvModel.
Import ListNotations.
Open Scope list_scope.

(* a1 -> (a2 -> ... t) *)
Fixpoint arrows (l : list tree) (t : tree) : tree :=
  match l with [] => t | a :: l => arrow a (arrows l t) end.

(* A choice for an overloaded function: the position of the alternative, and choices for the
   overloaded functions in the call of the alternative, from left to right. *)
Inductive choice := Pick (i : nat) (kids : list choice).

Section Spec.
Variable fns : list fn.
Variable sigma : nat -> tree.     (* the type schemes in the persistent store *)

Definition fun_type (f : nat) (t : tree) : Prop :=
  exists F v, nth_error fns f = Some F /\ t = inst v (sigma (fn_type F)).
Definition overloaded (f : nat) : bool :=
  match nth_error fns f with Some F => fn_over F | None => false end.

(* The function g, applied to its implicit arguments, has type t; [uses] are the overloaded
   functions in this call with their types. *)
Definition call (g : nat) (t : tree) (uses : list (nat * tree)) : Prop :=
  exists G l, nth_error fns g = Some G
    /\ fun_type g (arrows l t)
    /\ Forall2 fun_type (fn_impl G) l
    /\ uses = filter (fun u => overloaded (fst u)) (combine (g :: fn_impl G) (arrows l t :: l)).

(* The choice resolves f, used at type t. *)
Inductive resolves : nat -> tree -> choice -> Prop :=
| R_pick f t i g uses kids F :
    nth_error fns f = Some F -> nth_error (fn_alts F) i = Some g ->
    call g t uses -> resolves_all uses kids ->
    resolves f t (Pick i kids)
with resolves_all : list (nat * tree) -> list choice -> Prop :=
| R_nil : resolves_all [] []
| R_cons f t us c cs : resolves f t c -> resolves_all us cs ->
    resolves_all ((f, t) :: us) (c :: cs).

(* The choices resolve the functions in [todo], whose types are in the store h. *)
Definition solution (h : heap) (todo : list occ) (cs : list choice) : Prop :=
  exists r, reading h r /\ resolves_all (map (fun o => (fst o, r (snd o))) todo) cs.

(* The search can make n choices one after the other and is then not at the end. *)
Inductive unfinished : list (nat * tree) -> nat -> Prop :=
| U_0 u us : unfinished (u :: us) 0
| U_S f t F i g uses us n : nth_error fns f = Some F -> nth_error (fn_alts F) i = Some g ->
    call g t uses -> unfinished (rev uses ++ us) n -> unfinished ((f, t) :: us) (S n).
Definition deep (h : heap) (todo : list occ) (n : nat) : Prop :=
  exists r, reading h r /\ unfinished (map (fun o => (fst o, r (snd o))) todo) n.

(* Every alternative is a function whose type is an arrow for each of its implicit arguments, and
   that accepts them. *)
Definition good_fn (gheap : heap) (g : nat) : Prop :=
  exists G c l, nth_error fns g = Some G
    /\ find_core_type gheap (length (fn_impl G)) (fn_type G) = Some c
    /\ sigma (fn_type G) = arrows l (sigma c)
    /\ Forall2 fun_type (fn_impl G) l.
Definition good_table (gheap : heap) : Prop :=
  (forall f F, nth_error fns f = Some F -> fn_type F < length gheap) /\
  (forall f F g, nth_error fns f = Some F -> In g (fn_alts F) -> good_fn gheap g).
End Spec.

(* The positions of the alternatives in the order in which they are chosen: the kids from right to
   left, each with everything below it. *)
Fixpoint flat (c : choice) : list nat :=
  match c with Pick i kids => i :: concat (rev (map flat kids)) end.
Definition flats (cs : list choice) : list nat := concat (map flat cs).
