(* Property C61: cached functions. *)
From Coq Require Import ZArith List Bool String.
From Verif Require Import MemoModel MemoSpec MemoThms MemoEx.
Import ListNotations.
Open Scope Z_scope.

(* A computation with cached functions has an answer if it has one without caches, and that
   one: for all contents of the reference variables, all hash functions, and all garbage
   collections and clean_clets between the calls, up to 1.8 billion calls. *)
Theorem C61_memo deref ext_eq hash body lost K c v n :
  (forall c a b, ext_eq c a b = true -> a = b) -> typed body K -> within body K c ->
  runs body c v n -> n <= 1800000000 ->
  exists m t s, eval deref ext_eq hash body lost m 0 (fun _ => empty) c = Ok (v, t, s).
Proof. intros E T W R L. exact (memo_total deref ext_eq hash body lost K E T c v n W R L). Qed.
Print Assumptions C61_memo.

(* It has no other answers. *)
Theorem C61_only deref ext_eq hash body lost K c v m t s :
  (forall c a b, ext_eq c a b = true -> a = b) -> typed body K -> within body K c ->
  eval deref ext_eq hash body lost m 0 (fun _ => empty) c = Ok (v, t, s) ->
  exists n, runs body c v n.
Proof. intros E T W R. exact (memo_sound deref ext_eq hash body lost K E T c v m t s W R). Qed.
Print Assumptions C61_only.

(* The caches never leave their tables, also in computations that do not end. *)
Theorem C61_safe deref ext_eq hash body lost K c m :
  (forall c a b, ext_eq c a b = true -> a = b) -> typed body K -> within body K c ->
  eval deref ext_eq hash body lost m 0 (fun _ => empty) c <> Crash.
Proof. intros E T W. exact (memo_safe deref ext_eq hash body lost K E T c m W). Qed.
Print Assumptions C61_safe.

(* What was put in a cache last is found there. *)
Theorem C61_hit deref ext_eq hash n l k v c :
  (forall c a, ext_eq c a a = true) -> Forall plain k ->
  inserts hash (l ++ [(k, v)]) empty = Ok c ->
  find deref ext_eq hash n c k = Ok (Some v).
Proof. intros R P E. exact (memo_hit deref ext_eq hash R n l k v c P E). Qed.
Print Assumptions C61_hit.

(* With reference variables as arguments the answer is wrong: clet f r = r for two variables
   with equal contents. *)
Theorem C61_refs_refuted :
  exists deref ext_eq hash body lost c v w n m t s,
    runs body c v n /\
    eval deref ext_eq hash body lost m 0 (fun _ => empty) c = Ok (w, t, s) /\ v <> w.
Proof.
  destruct refs_wrong as (t & s & E).
  exists fives, same_obj, zero_hash, self, (fun _ _ => false), (twice (Ref 0) (Ref 1)),
    (Ref 1), (Ref 0), 2, 10%nat, t, s.
  split; [apply twice_runs|]. split; [exact E|discriminate].
Qed.
Print Assumptions C61_refs_refuted.

(* External objects of two classes as arguments of a polymorphic function. *)
Theorem C61_classes_refuted :
  exists deref ext_eq hash body lost c v n m,
    runs body c v n /\ eval deref ext_eq hash body lost m 0 (fun _ => empty) c = Crash.
Proof.
  exists fives, same_obj, zero_hash, self, (fun _ _ => false), (twice (Ext 1 7) (Ext 2 7)),
    (Ext 2 7), 2, 10%nat.
  split; [apply twice_runs|exact classes_wrong].
Qed.
Print Assumptions C61_classes_refuted.

(* The hypotheses hold for a cached Fibonacci function, which makes 39 calls instead of
   21891. *)
Example C61_ex :
  typed fib fibK /\ within fib fibK fib20 /\ runs fib fib20 (Int 6765) 21891 /\
  exists s, eval no_refs same_obj sum fib (fun _ _ => false) 60 0 (fun _ => empty) fib20
    = Ok (Int 6765, 39%nat, s).
Proof. exact (conj fib_typed (conj fib20_within (conj fib20_runs fib20_eval))). Qed.
(* Collections before every third call that empty the cache. *)
Example C61_ex_lost :
  exists t s, eval no_refs same_obj sum fib (fun t _ => Nat.eqb (Nat.modulo t 3) 0) 60 0
    (fun _ => empty) (Call 0 [Int 10] Ret) = Ok (Int 55, t, s) /\ (19 < t)%nat.
Proof. do 2 eexists. split; [vm_compute; reflexivity|repeat constructor]. Qed.
(* Growth: 300 insertions. *)
Example C61_ex_grow :
  exists c, inserts sum (map (fun i => ([Int (Z.of_nat i)], Int (Z.of_nat i))) (seq 0 300)) empty = Ok c /\
    size c = 503 /\ load c = 300.
Proof. eexists. split; [vm_compute; reflexivity|split; reflexivity]. Qed.
