(** Property C49: bitwise operations and gcd of arbitrary precision integers (arb_prec.c).
    [ok], [canon] and [val] as in Arb_Props.v. *)
From Coq Require Import ZArith Bool List Lia.
From Verif Require Import ArbModel ArbBase ArbStr ArbMore.
Import ListNotations.
Open Scope Z_scope.

(** Bit i of the result is the operation on the bits i of the operands in two's complement of
    unbounded width. *)
Theorem C49_and x y : ok x -> ok y -> canon (Arbi_bvAND x y) /\
  forall i, 0 <= i -> Z.testbit (val (Arbi_bvAND x y)) i = Z.testbit (val x) i && Z.testbit (val y) i.
Proof. intros X Y. destruct (and_spec x y X Y) as [C ->]. split; [exact C|]. intros i _. apply Z.land_spec. Qed.
Print Assumptions C49_and.
Theorem C49_or x y : ok x -> ok y -> canon (Arbi_bvOR x y) /\
  forall i, 0 <= i -> Z.testbit (val (Arbi_bvOR x y)) i = Z.testbit (val x) i || Z.testbit (val y) i.
Proof. intros X Y. destruct (or_spec x y X Y) as [C ->]. split; [exact C|]. intros i _. apply Z.lor_spec. Qed.
Print Assumptions C49_or.
Theorem C49_xor x y : ok x -> ok y -> canon (Arbi_bvXOR x y) /\
  forall i, 0 <= i -> Z.testbit (val (Arbi_bvXOR x y)) i = xorb (Z.testbit (val x) i) (Z.testbit (val y) i).
Proof. intros X Y. destruct (xor_spec x y X Y) as [C ->]. split; [exact C|]. intros i _. apply Z.lxor_spec. Qed.
Print Assumptions C49_xor.
Theorem C49_not x : ok x -> canon (Arbi_bvNOT x) /\ val (Arbi_bvNOT x) = - val x - 1.
Proof. intros X. destruct (not_spec x X) as [C ->]. split; [exact C|]. unfold Z.lnot. lia. Qed.
Print Assumptions C49_not.
Theorem C49_negative x : canon x -> (Arbi_IsNegative x = true <-> val x < 0).
Proof. intros X. rewrite (isneg_spec x X). apply Z.ltb_lt. Qed.
Print Assumptions C49_negative.
(** The loops end, no division by 0 and no overflow happens, and the result is the greatest common
    divisor; gcd 0 0 = 0. *)
Theorem C49_gcd x y : canon x -> canon y -> Z.of_nat (length x) <= 32765 -> Z.of_nat (length y) <= 32765 ->
  exists n z, (forall fuel, arbi__gcd (n + fuel) x y = Some z) /\ canon z /\ 0 <= val z /\
    (val z | val x) /\ (val z | val y) /\ (forall d, (d | val x) -> (d | val y) -> (d | val z)).
Proof.
  intros X Y LX LY. destruct (gcd_spec x y X Y LX LY) as (n & z & G & C & V). exists n, z. rewrite V.
  exact (conj G (conj C (conj (Z.gcd_nonneg _ _) (conj (Z.gcd_divide_l _ _) (conj (Z.gcd_divide_r _ _) (fun d => Z.gcd_greatest _ _ d)))))).
Qed.
Print Assumptions C49_gcd.
Example C49_ex : Arbi_bvAND [5; -3; 1] [-2] = [4; -3; 1] /\ Arbi_bvXOR [5; -3; 1] [1; -3; 1] = [4] /\ Arbi_bvNOT [-1; 0] = [0; -1] /\
  arbi__gcd 99 [0; 0; 6] [0; -9] = Some [0; 3] /\ canon [5; -3; 1] /\ canon [0; 0; 6] /\ canon [0; -9].
Proof.
  split; [vm_compute; reflexivity|]. split; [vm_compute; reflexivity|]. split; [vm_compute; reflexivity|].
  split; [vm_compute; reflexivity|]. split; [|split]; apply canonb_ok; vm_compute; reflexivity.
Qed.
