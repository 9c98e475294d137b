(* What index lists and vector names mean, without reference to the algorithms. *)
From Coq Require Import ZArith List Bool Ascii String Lia.
From Verif Require Import IlistModel.
Import ListNotations.
Open Scope Z_scope.

Local Notation length := List.length.

(* The index lists the program builds: a run covers from .. to. *)
Definition good (l : ilist) : Prop :=
  Forall (fun s => i_size s = Z.abs (i_to s - i_from s) + 1) l.

(* The integers from a to b, in that direction. *)
Fixpoint count_up (n : nat) (a : Z) : list Z :=
  match n with O => [] | S k => a :: count_up k (a + 1) end.
Fixpoint count_down (n : nat) (a : Z) : list Z :=
  match n with O => [] | S k => a :: count_down k (a - 1) end.
Definition run (a b : Z) : list Z :=
  if b <? a then count_down (Z.to_nat (a - b + 1)) a
  else count_up (Z.to_nat (b - a + 1)) a.

(* A scalar of a vector is given by one integer per index; coords lists the scalars in
   declaration order, the last index running fastest. *)
Fixpoint coords (v : vec) : list (list Z) :=
  match v with
  | [] => [[]]
  | Txt _ :: r => coords r
  | Idx rs :: r =>
      flat_map (fun i => map (cons i) (coords r)) (flat_map (fun p => run (fst p) (snd p)) rs)
  end.

(* Two names have the same texts at the same places. *)
Fixpoint same_shape (a b : vec) : Prop :=
  match a, b with
  | [], [] => True
  | Txt x :: a', Txt y :: b' => x = y /\ same_shape a' b'
  | Idx _ :: a', Idx _ :: b' => same_shape a' b'
  | _, _ => False
  end.

(* The position of the first occurrence. *)
Fixpoint position {A} (eq : forall x y : A, {x = y} + {x <> y}) (c : A) (l : list A) : nat :=
  match l with
  | [] => O
  | x :: r => if eq x c then O else S (position eq c r)
  end.

Definition coord_eq : forall x y : list Z, {x = y} + {x <> y} := list_eq_dec Z.eq_dec.

(* The node of a scalar of a declared vector: the one at the position of the scalar. *)
Definition node_of (decl : vec) (m : ilist) (c : list Z) : Z :=
  nth (position coord_eq c (coords decl)) (nodes m) 0.

(* All ranges are written from the larger to the smaller index. *)
Definition descending (v : vec) : Prop :=
  Forall (fun e => match e with
                   | Txt _ => True
                   | Idx rs => Forall (fun p => snd p <= fst p) rs
                   end) v.

(* All ranges except those of the first index are. *)
Fixpoint inner_descending (v : vec) : Prop :=
  match v with
  | [] => True
  | Txt _ :: r => inner_descending r
  | Idx _ :: r => descending r
  end.

(* Every index has at least one range, as in every name the parser accepts. *)
Definition indexed (v : vec) : Prop :=
  Forall (fun e => match e with Idx [] => False | _ => True end) v.

(* A declaration with the nodes it was given. *)
Definition declared (d : vinfo) : Prop :=
  good (snd d) /\ length (nodes (snd d)) = length (coords (fst d))
  /\ inner_descending (fst d) /\ NoDup (coords (fst d)).

(* The node of a scalar in a list of declarations: the first that has the scalar. *)
Fixpoint lookup (ds : list vinfo) (c : list Z) : option Z :=
  match ds with
  | [] => None
  | d :: r => if in_dec coord_eq c (coords (fst d)) then Some (node_of (fst d) (snd d) c)
              else lookup r c
  end.

(* No scalar is declared twice. *)
Fixpoint disjoint (ds : list vinfo) : Prop :=
  match ds with
  | [] => True
  | d :: r =>
      (forall c e, In c (coords (fst d)) -> In e r -> ~ In c (coords (fst e)))
      /\ disjoint r
  end.

(* The scalar name with the given indices. *)
Fixpoint scalar (v : vec) (c : list Z) : vec :=
  match v, c with
  | Txt n :: r, _ => Txt n :: scalar r c
  | Idx _ :: r, i :: c' => Idx [(i, i)] :: scalar r c'
  | _, _ => []
  end.
