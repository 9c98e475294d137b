(* Equality of graphs up to the choice of addresses. *)
From Coq Require Import ZArith List Ascii.
From Verif Require Import VnameModel ShaGraph.
Import ListNotations.
Open Scope list_scope.

(* Same constructor, same texts, children related by R (NULL only to NULL). *)
Inductive opt_rel (R : ptr -> ptr -> Prop) : option ptr -> option ptr -> Prop :=
| OR_null : opt_rel R None None
| OR_ptr : forall p q, R p q -> opt_rel R (Some p) (Some q).
Inductive node_rel (R : ptr -> ptr -> Prop) : node -> node -> Prop :=
| NR_nil : node_rel R NNil NNil
| NR_lam : forall v a b, opt_rel R a b -> node_rel R (NLam v a) (NLam v b)
| NR_app : forall a b a' b', opt_rel R a a' -> opt_rel R b b' -> node_rel R (NApp a b) (NApp a' b')
| NR_cons : forall a b a' b', opt_rel R a a' -> opt_rel R b b' -> node_rel R (NCons a b) (NCons a' b')
| NR_leaf : forall k, node_rel R (NLeaf k) (NLeaf k).

(* A one-to-one correspondence of nodes that takes root to root and respects the nodes. *)
Definition isomorphic (h1 : heap) (r1 : ptr) (h2 : heap) (r2 : ptr) : Prop :=
  exists R : ptr -> ptr -> Prop,
    R r1 r2
    /\ (forall p q q', R p q -> R p q' -> q = q')
    /\ (forall p p' q, R p q -> R p' q -> p = p')
    /\ (forall p q, R p q -> exists n m, h1 p = Some n /\ h2 q = Some m /\ node_rel R n m).

(* Every node lies in dom, has its children there, and none of them is NULL. *)
Definition closed (h : heap) (dom : list ptr) : Prop :=
  forall p, In p dom -> exists n, h p = Some n /\ forall k, In k (kids n) -> exists q, k = Some q /\ In q dom.

(* Texts that are printed faithfully: no newline, no 0, not too long for the buffer. *)
Definition node_text (n : node) : chars :=
  match n with NLam v _ => v | NLeaf k => leaf_text k | _ => [] end.
Definition text_ok (n : node) : Prop :=
  ~ In nl (node_text n) /\ ~ In zero (node_text n) /\ (length (node_text n) <= 3900)%nat.

(* Hexadecimal, two digits for a byte. *)
Definition hex_digits : list ascii :=
  ["0"; "1"; "2"; "3"; "4"; "5"; "6"; "7"; "8"; "9"; "a"; "b"; "c"; "d"; "e"; "f"]%char.
Definition hex (d : list Z) : list ascii :=
  flat_map (fun b => [nth (Z.to_nat (b / 16)) hex_digits zero; nth (Z.to_nat (b mod 16)) hex_digits zero]) d.
