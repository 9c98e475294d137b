(* Property theorems: graph reduction (C52). *)
From Coq Require Import String List Bool Arith ZArith Lia.
From Verif Require Import GredModel GredSpec GredConf GredFail GredHeap GredThms GredMain GredEx.
Import ListNotations.
Open Scope list_scope.
Open Scope nat_scope.

(* C52: the rewriting of trees is confluent, so that an answer that is data is the only one. *)
Theorem C52_confluent : forall t u v, steps t u -> steps t v ->
  exists w, steps u w /\ steps v w.
Proof. exact confluent. Qed.
Print Assumptions C52_confluent.

(* C52: evaluating a node of a heap, whatever is shared in it, rewrites the tree of EVERY node
   of the heap by steps of the specification (or makes it fail); the node itself becomes a weak
   head normal form or a failure.  This holds at every assignment s at which no conditional was
   decided by a path condition that is false at s. *)
Theorem C52_sound : forall s fuel h a h' r,
  fresh h -> graph s h -> a < length h ->
  force_top fuel Code h a = Ret h' r -> force_top fuel (Watch s) h a <> Cut ->
  r = a /\
  (exists t', tree s h' a t' /\ (whnf t' = true \/ exists m, t' = TFail m)) /\
  forall x t, tree s h x t ->
    exists t', tree s h' x t' /\ (failfree t' = true -> steps t t').
Proof. exact force_sound. Qed.
Print Assumptions C52_sound.

(* C52: if the answer is data, it is the one answer that the specification allows. *)
Theorem C52_answer : forall s fuel h a h' r t d,
  fresh h -> graph s h -> tree s h a t ->
  force_top fuel Code h a = Ret h' r -> force_top fuel (Watch s) h a <> Cut ->
  tree s h' r d -> data d = true ->
  steps t d /\ forall v, steps t v -> data v = true -> v = d.
Proof. exact force_answer. Qed.
Print Assumptions C52_answer.

(* C52: programs without BDD variables: no condition on the run is left. *)
Theorem C52_concrete : forall s fuel h a h' r t d,
  fresh h -> no_vars h -> graph s h -> tree s h a t ->
  force_top fuel Code h a = Ret h' r -> tree s h' r d -> data d = true ->
  steps t d /\ forall v, steps t v -> data v = true -> v = d.
Proof.
  intros s fuel h a h' r t d F N G T E. exact (force_answer s fuel h a h' r t d F G T E
    (concrete_never_cut s fuel h a N)).
Qed.
Print Assumptions C52_concrete.

(* C52: a symbolic run, read at an assignment, agrees with the run of the program in which the
   variables have been replaced by their values. *)
Theorem C52_symbolic : forall s fuel h a h' d fuel' h2 d2,
  fresh h -> graph s h -> a < length h ->
  force_top fuel Code h a = Ret h' a -> force_top fuel (Watch s) h a <> Cut ->
  tree s h' a d -> data d = true ->
  force_top fuel' Code (inst s h) a = Ret h2 a -> tree s h2 a d2 -> data d2 = true ->
  d = d2.
Proof. exact symbolic_is_concrete. Qed.
Print Assumptions C52_symbolic.

(* An example for the four above: [let x = a AND b in [IF c THEN x ELSE NOT x, hd [x, error],
   suc 4]], in which x is shared. *)
Example C52_ex :
  fine s_ex good_heap = true /\
  answer s_ex (force_top 60 Code good_heap 29) =
    Some (TCons (TBool false) (TCons (TBool true) (TCons (TInt 5) TNil))) /\
  answer s_ex (force_top 60 (Watch s_ex) good_heap 29) <> None /\
  answer s_ex (force_top 60 Code (inst s_ex good_heap) 29) =
    answer s_ex (force_top 60 Code good_heap 29).
Proof.
  exact (conj good_heap_fine (conj good_heap_runs (conj good_heap_not_cut good_heap_instance))).
Qed.

(* Branches that are never taken are not evaluated: [IF a THEN (IF a THEN b ELSE error) ELSE
   (IF a THEN error ELSE c)] is [IF a THEN b ELSE c]; neither error is met. *)
Example C52_ex_nested :
  fine s_sh nested_heap = true /\
  answer s_sh (force_top 60 Code nested_heap 17) = Some (TBool true) /\
  answer s_ex (force_top 60 Code nested_heap 17) = Some (TBool true) /\
  answer (fun _ => false) (force_top 60 Code nested_heap 17) = Some (TBool false).
Proof. exact (conj nested_fine nested_runs). Qed.

(* C52, without the condition on the run: false.  A shared conditional that is decided by the
   path condition of one branch is overwritten for all:
   [let x = IF a THEN b ELSE c in IF a THEN x ELSE NOT x] is [IF a THEN b ELSE NOT b]. *)
Theorem C52_sharing_refuted : exists s h a t h' fuel d v,
  fresh h /\ graph s h /\ tree s h a t /\ force_top fuel Code h a = Ret h' a /\
  tree s h' a d /\ data d = true /\ steps t v /\ data v = true /\ v <> d.
Proof. exact sharing_wrong. Qed.
Print Assumptions C52_sharing_refuted.

(* C52, with catch: false.  [(IF a THEN error "x" ELSE T) catch F] is F even where a is F. *)
Theorem C52_catch_refuted :
  fresh catch_heap /\ ~ instance_right catch_heap 13 (fun _ => false).
Proof. exact catch_wrong. Qed.
Print Assumptions C52_catch_refuted.

(* C52, with NONE: false.  [IF a THEN NONE ELSE SOME T] is [SOME T] even where a is T. *)
Theorem C52_none_refuted :
  fresh none_heap /\ ~ instance_right none_heap 9 (fun _ => true).
Proof. exact none_wrong. Qed.
Print Assumptions C52_none_refuted.

(* C52, without variables but with catch: e and b both fail, but (e catch b) is 1, because
   forcing e has marked a list as forced whose element fails. *)
Theorem C52_forced_refuted : exists h e b x m m', fresh h /\ no_vars h /\
  get h x = Some (App 15 b) /\ get h 15 = Some (App 14 e) /\ get h 14 = Some (Prm P_CATCH) /\
  answer (fun _ => true) (force_top 60 Code h e) = Some (TFail m) /\
  answer (fun _ => true) (force_top 60 Code h b) = Some (TFail m') /\
  answer (fun _ => true) (force_top 60 Code h x) = Some (TInt 1).
Proof. exact flag_wrong. Qed.
Print Assumptions C52_forced_refuted.

(* C52: an evaluation that is interrupted does not leave the heap as good as it was: evaluating
   the same node again goes wrong. *)
Theorem C52_interrupt_refuted : exists h a h1,
  fresh h /\ no_vars h /\ graph (fun _ => true) h /\
  force_top 6 Code h a = Stop h1 /\
  answer (fun _ => true) (force_top 60 Code h a) = Some (TInt 5) /\
  force_top 60 Code h1 a = Die.
Proof. exact stop_wrong. Qed.
Print Assumptions C52_interrupt_refuted.
