(* C68: bits needed for a number, and ranges of integers. *)
From Coq Require Import List ZArith Lia Sorting.Sorted.
From Verif Require Import RandModel RandSpec BitsModel BitsSpec BitsThms.
Import ListNotations.
Local Open Scope Z_scope.

(* sbits_needed is the least size of a signed vector that holds the number, *)
Theorem C68_sbits : forall n, exists k, sbits_needed n = Some k /\ least (signed_fits n) k.
Proof. exact sbits. Qed.
Print Assumptions C68_sbits.

(* ubits_needed that of an unsigned vector; it fails for negative numbers. *)
Theorem C68_ubits : forall n,
  (0 <= n -> exists k, ubits_needed n = Some k /\ least (unsigned_fits n) k) /\
  (n < 0 -> ubits_needed n = None).
Proof. exact (fun n => conj (ubits n) (ubits_none n)). Qed.
Print Assumptions C68_ubits.

(* nearest_power_of_2 is the first power of two from n on. *)
Theorem C68_nearest : forall n,
  (0 < n -> exists p, nearest_power_of_2 n = Some p /\ power_of_two p /\ n <= p < 2 * n) /\
  (n <= 0 -> nearest_power_of_2 n = None).
Proof. exact (fun n => conj (nearest n) (nearest_none n)). Qed.
Print Assumptions C68_nearest.

(* upto and downto list the numbers of an interval, in order; -- does either, by
   the order of its ends. *)
Theorem C68_upto : forall f t, exists l, upto f t = Some l /\ increasing l f t.
Proof. exact upto_spec. Qed.
Print Assumptions C68_upto.
Theorem C68_downto : forall f t, exists l, downto f t = Some l /\ decreasing l t f.
Proof. exact downto_spec. Qed.
Print Assumptions C68_downto.
Theorem C68_range : forall f t, exists l, BitsModel.range f t = Some l /\
  (f <= t -> increasing l f t) /\ (t <= f -> decreasing l t f).
Proof. exact range_spec. Qed.
Print Assumptions C68_range.

(* Non-vacuity *)
Example C68_ex :
  map sbits_needed [0; 1; 127; 128; -1; -2; -128; -129] =
    [Some 1; Some 2; Some 8; Some 9; Some 1; Some 2; Some 8; Some 9] /\
  map ubits_needed [0; 1; 255; 256; -1] = [Some 1; Some 1; Some 8; Some 9; None] /\
  map nearest_power_of_2 [1; 3; 1024; 1025; 0] = [Some 1; Some 4; Some 1024; Some 2048; None] /\
  upto 2 5 = Some [2; 3; 4; 5] /\ upto 5 2 = Some [] /\ downto 2 (-1) = Some [2; 1; 0; -1] /\
  BitsModel.range 1 3 = Some [1; 2; 3] /\ BitsModel.range 3 1 = Some [3; 2; 1] /\
  BitsModel.range 4 4 = Some [4].
Proof. repeat split. Qed.
Print Assumptions C68_ex.
