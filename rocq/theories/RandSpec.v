(* What the theorems on random numbers speak of. *)
From Coq Require Import List ZArith.
Local Open Scope Z_scope.

(* answers of random() *)
Definition draws (rs : list Z) : Prop := Forall (fun r => 0 <= r < 2 ^ 31) rs.
Definition power_of_two (n : Z) : Prop := exists k, 0 <= k /\ n = 2 ^ k.
