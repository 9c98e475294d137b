(* Embeddings of a graph into another. *)
From Coq Require Import List Bool Arith.
Import ListNotations.

(* f sends node i of the needle (R nodes) to node f_i of the haystack (C nodes): one-to-one,
   along candidate pairs, and edges to edges. *)
Definition embedding (R C : nat) (cand needle haystack : nat -> nat -> Prop) (f : list nat) : Prop :=
  length f = R /\ NoDup f
  /\ (forall i, i < R -> nth i f 0 < C /\ cand i (nth i f 0))
  /\ (forall i j, i < R -> j < R -> needle i j -> haystack (nth i f 0) (nth j f 0)).

(* The pairs (i, f_i). *)
Definition pairs (f : list nat) : list (nat * nat) := combine (seq 0 (length f)) f.

(* The graphs that are asked for: off is 1 when the wrapper, index 0, is left out.  A node has a
   fingerprint and a SHA sum. *)
Definition edge (off : nat) (ps : list (nat * nat)) (i j : nat) : Prop :=
  i <> j /\ (In (off + i, off + j) ps \/ In (off + j, off + i) ps).
Definition alike (off : nat) (p g : list (nat * nat)) (i j : nat) : Prop :=
  let a := nth (off + i) p (0, 0) in let b := nth (off + j) g (0, 0) in fst a = fst b \/ snd a = snd b.
