(* A store and functions for the examples of C58. *)
From Coq Require Import String List Bool Arith Lia.
From Verif Require Import TyModel TyThms InfModel InfSpec InfEx OvModel ComSpec.
Import ListNotations.
Open Scope list_scope.

Definition ch_s : tstate := mkT
  [ NCon CInt []; NCon CBool []; NVar; NVar;
    NCon CArrow [2; 2];                          (* 4: a -> a *)
    NCon CArrow [0; 0]; NCon CArrow [1; 1];      (* 5: int -> int, 6: bool -> bool *)
    NCon CArrow [3; 3] ] [].                     (* 7: b -> b *)
(* 0: the identity; 1: overloaded, with 2 and 3 *)
Definition ch_fns : list fn :=
  [ mkFn 4 [] false []; mkFn 7 [] true [2; 3]; mkFn 5 [] false []; mkFn 6 [] false [] ].
Lemma ch_store : store arity (t_heap ch_s).
Proof. apply backwards_store. reflexivity. Qed.
Definition ch_run (f : nat) (type : option nat) : option (option nat * tree * tree) :=
  match find_overload_choice 20 ch_fns f type ch_s with
  | ROk o s => Some (o, expand 8 (t_heap s) 4, expand 8 (t_heap s) 7)
  | _ => None
  end.
