(* What the theorems on bits needed and ranges speak of. *)
From Coq Require Import List ZArith Sorting.Sorted.
Local Open Scope Z_scope.

(* the numbers that vectors of k bits denote *)
Definition signed_fits (n k : Z) : Prop := 1 <= k /\ - 2 ^ (k - 1) <= n < 2 ^ (k - 1).
Definition unsigned_fits (n k : Z) : Prop := 1 <= k /\ 0 <= n < 2 ^ k.
Definition least (P : Z -> Prop) (k : Z) : Prop := P k /\ forall j, P j -> k <= j.

(* the list of the integers between a and b, in order *)
Definition increasing (l : list Z) (a b : Z) : Prop :=
  StronglySorted Z.lt l /\ forall x, In x l <-> a <= x <= b.
Definition decreasing (l : list Z) (a b : Z) : Prop :=
  StronglySorted Z.gt l /\ forall x, In x l <-> a <= x <= b.
