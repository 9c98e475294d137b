(* Property theorems: the node store of the evaluator (C53). *)
From Coq Require Import List Bool Arith NArith ZArith.
From Verif Require Import RcModel RcSpec RcEx.
Import ListNotations.

(* C53: counting a reference down ends, gives a sound store again, and does not touch a node
   that can still be got at. *)
Theorem C53_count_down : forall st L n rt, sound st L (n :: rt) ->
  exists st' L', dec (S (top st)) st n = Some st' /\ sound st' L' rt /\ incl L' L /\
    tabs st' = tabs st /\ forall m, reach st rt m -> In m L' /\ cell st' m = cell st m.
Proof. exact count_down. Qed.
Print Assumptions C53_count_down.

(* C53: a new node is none of the live ones, and the others stay as they are. *)
Theorem C53_new_node : forall st L rt c n st',
  sound st L rt -> c <> Dead -> (forall b k, c <> Tab b k) -> (forall x, In x (kids c) -> In x L) ->
  alloc st c = (n, st') ->
  ~ In n L /\ cell st' n = c /\ (forall m, m <> n -> cell st' m = cell st m) /\
  sound (incr_all st' (kids c)) (n :: L) (n :: rt).
Proof. exact allocated. Qed.
Print Assumptions C53_new_node.

(* C53: a collection ends, keeps exactly the nodes that can be got at from the roots (through
   nodes, reference variables and memo tables, cycles included), leaves them as they are, frees
   all others, and makes every count right; the counts before do not matter. *)
Theorem C53_collect : forall st R,
  (forall n, reach st (map fst R) n -> n < top st /\ cell st n <> Dead /\
     forall b k, cell st n = Tab b k -> k < length (tabs st)) ->
  exists st' L, collect R st = Some st' /\ sound st' L (map fst R) /\
    (forall n, In n L <-> reach st (map fst R) n) /\
    (forall n, In n (free st') <-> n < top st /\ ~ reach st (map fst R) n) /\
    (forall n, In n L -> cell st' n = cell st n) /\ tabs st' = tabs st /\
    (forall n, In (n, true) R -> rc st' n = 3%N).
Proof. exact collected. Qed.
Print Assumptions C53_collect.

(* C53: an evaluation, with collections at any of its steps, ends in a sound store: at no time
   is a node freed that is used later, and no count is below the truth.  The result is the node
   that was asked for, in weak head normal form; roots that were values are as they were. *)
Theorem C53_evaluate : forall mm R vd f st L x y st',
  In (vd, true) R -> rc st vd = 3%N -> cell st vd = Void -> sound st L (map fst R) ->
  In x (map fst R) -> eval mm R vd f st x = Some (y, st') ->
  y = x /\ value st' x /\ (exists L', sound st' L' (map fst R)) /\
  rc st' vd = 3%N /\ cell st' vd = Void /\
  forall n, In n (map fst R) -> value st n -> cell st' n = cell st n.
Proof. exact evaluated. Qed.
Print Assumptions C53_evaluate.

(* C53: memory management cannot be noticed.  Two evaluations of the same graph, with or without
   it, with other counts, other free nodes and other collections, both give no answer or both
   give one, and then what can be seen from the roots, to any depth and through reference
   variables, is the same. *)
Theorem C53_unnoticed : forall m1 m2 R vd f st1 st2 x,
  In (vd, true) R -> rc st1 vd = 3%N -> rc st2 vd = 3%N -> cell st1 vd = Void ->
  (exists L, sound st1 L (map fst R)) -> (exists L, sound st2 L (map fst R)) ->
  same_graph st1 st2 -> In x (map fst R) ->
  match eval m1 R vd f st1 x, eval m2 R vd f st2 x with
  | None, None => True
  | Some (_, a), Some (_, b) => forall r d, In r (map fst R) -> see d a r = see d b r
  | _, _ => False
  end.
Proof. exact unnoticed. Qed.
Print Assumptions C53_unnoticed.

(* An example for the five above: a sound store with a shared redex, a cyclic list and a
   reference variable, run with the counts only, with many collections, and with neither. *)
Example C53_ex :
  (forall g, sound (load prog g) (seq 0 34) (map fst roots)) /\
  outcome (eval true roots 0 60 (load prog []) 33) = Some (33, VLeaf (Int 14), 28) /\
  outcome (eval true roots 0 60 (load prog often) 33) = Some (33, VLeaf (Int 14), 27) /\
  outcome (eval false roots 0 60 (load prog []) 33) = Some (33, VLeaf (Int 14), 1).
Proof. exact (conj load_sound (conj run_counts (conj run_often run_without))). Qed.

(* C53: GC_Protect makes the node a root. *)
Theorem C53_protect : forall st L rt tbl g b tbl' st',
  sound st L rt -> In g L -> gc_protect tbl st g = (b, (tbl', st')) ->
  In g tbl' /\ sound st' L (g :: rt) /\ cell st' = cell st.
Proof. exact protected. Qed.
Print Assumptions C53_protect.

(* C53, "GC_Unprotect lets go of a protected node": false, for every node and every table. *)
Theorem C53_unprotect_refuted : forall tbl g, snd (gc_unprotect tbl g) = tbl.
Proof. exact unprotect_nothing. Qed.
Print Assumptions C53_unprotect_refuted.

Example C53_unprotect_ex : gc_unprotect [3; 5; 8] 5 = (false, [3; 5; 8]).
Proof. reflexivity. Qed.

(* C53, "a node that cannot be got at any more is free at once, when there is no cycle and no
   count is saturated": false; a dereference leaks. *)
Theorem C53_leak_refuted : exists R vd f st L x st' n,
  In (vd, true) R /\ rc st vd = 3%N /\ cell st vd = Void /\ sound st L (map fst R) /\
  In x (map fst R) /\ (forall m, In m L -> m <> vd -> rc st m = 0%N) /\
  eval true R vd f st x = Some (x, st') /\
  n < top st' /\ ~ In n (free st') /\ ~ reach st' (map fst R) n /\ rc st' n = 0%N.
Proof. exact leak. Qed.
Print Assumptions C53_leak_refuted.
