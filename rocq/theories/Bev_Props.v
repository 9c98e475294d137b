(** Property C64: bit vectors over and-inverter graphs (bev.c and the functions on them in preamble.fl).

    [gives o f]: the operation succeeds with a vector without redundant sign bits whose two's complement value is
    [f val] for every assignment [val]; [decides o f]: it succeeds with a node that is true where [f] is.
    They speak of every implementation [A] of the operations on nodes and every assignment for which it is [sound]. *)
From Coq Require Import List NArith ZArith Bool.
Import ListNotations.
From Verif Require Import BevModel BevSpec BevThms BevEx.
Open Scope Z_scope.

Theorem C64_add A (l1 l2 : list (node A)) : l1 <> [] -> l2 <> [] -> gives (bev_add l1 l2) (fun val => num val l1 + num val l2).
Proof. exact (thm_add l1 l2). Qed.
Print Assumptions C64_add.
Theorem C64_sub A (l1 l2 : list (node A)) : l1 <> [] -> l2 <> [] -> gives (bev_sub l1 l2) (fun val => num val l1 - num val l2).
Proof. exact (thm_sub l1 l2). Qed.
Print Assumptions C64_sub.
Theorem C64_neg A (l : list (node A)) : l <> [] -> gives (bev_neg l) (fun val => - num val l).
Proof. exact (thm_neg l). Qed.
Print Assumptions C64_neg.
Theorem C64_mul A (l1 l2 : list (node A)) : l1 <> [] -> l2 <> [] -> gives (bev_mul l1 l2) (fun val => num val l1 * num val l2).
Proof. exact (thm_mul l1 l2). Qed.
Print Assumptions C64_mul.
(** [Z.div] and [Z.modulo] round towards minus infinity *)
Theorem C64_divmod A (l1 l2 : list (node A)) : l1 <> [] -> l2 <> [] -> exists q r, bev_div l1 l2 = Some q /\ bev_mod l1 l2 = Some r /\
  q <> [] /\ r <> [] /\ minimal q /\ minimal r /\
  forall val, sound A val -> num val l2 <> 0 -> num val q = num val l1 / num val l2 /\ num val r = num val l1 mod num val l2.
Proof. exact (thm_divmod l1 l2). Qed.
Print Assumptions C64_divmod.
Theorem C64_order A (l1 l2 : list (node A)) : l1 <> [] -> l2 <> [] ->
  decides (bev_less l1 l2) (fun val => num val l1 <? num val l2) /\ decides (bev_leq l1 l2) (fun val => num val l1 <=? num val l2) /\
  decides (bev_greater l1 l2) (fun val => num val l2 <? num val l1) /\ decides (bev_geq l1 l2) (fun val => num val l2 <=? num val l1).
Proof. intros H1 H2. exact (conj (thm_less l1 l2 H1 H2) (conj (thm_leq l1 l2 H1 H2) (conj (thm_greater l1 l2 H1 H2) (thm_geq l1 l2 H1 H2)))). Qed.
Print Assumptions C64_order.
Theorem C64_equal A (l1 l2 : list (node A)) : l1 <> [] -> l2 <> [] ->
  decides (bev_eq l1 l2) (fun val => num val l1 =? num val l2) /\ decides (bev_neq l1 l2) (fun val => negb (num val l1 =? num val l2)).
Proof. intros H1 H2. exact (conj (thm_eq l1 l2 H1 H2) (thm_neq l1 l2 H1 H2)). Qed.
Print Assumptions C64_equal.
Theorem C64_bitwise A (l1 l2 : list (node A)) : l1 <> [] -> l2 <> [] ->
  gives (bev_AND l1 l2) (fun val => Z.land (num val l1) (num val l2)) /\ gives (bev_OR l1 l2) (fun val => Z.lor (num val l1) (num val l2)) /\
  gives (bev_XOR l1 l2) (fun val => Z.lxor (num val l1) (num val l2)) /\ gives (bev_XNOR l1 l2) (fun val => Z.lnot (Z.lxor (num val l1) (num val l2))) /\
  gives (Some (bev_NOT l1)) (fun val => Z.lnot (num val l1)).
Proof. intros H1 H2. exact (conj (thm_and l1 l2 H1 H2) (conj (thm_or l1 l2 H1 H2) (conj (thm_xor l1 l2 H1 H2) (conj (thm_xnor l1 l2 H1 H2) (thm_not l1 H1))))). Qed.
Print Assumptions C64_bitwise.
Theorem C64_zero_extend A (l : list (node A)) : gives (Some (bev_ZX l)) (fun val => unum val l).
Proof. exact (thm_ZX l). Qed.
Print Assumptions C64_zero_extend.
Theorem C64_then A (c : node A) (t e : list (node A)) : t <> [] -> e <> [] -> gives (bevTHEN c t e) (fun val => if val c then num val t else num val e).
Proof. exact (thm_then c t e). Qed.
Print Assumptions C64_then.
Theorem C64_int2bev A n : gives (@int2bev A n) (fun _ => n).
Proof. exact (thm_int2bev n). Qed.
Print Assumptions C64_int2bev.
(** The integer is returned exactly for the vectors of constants. *)
Theorem C64_bev2int A (l : list (node A)) : folding A -> l <> [] -> match bev2int l with
  | Some (Some z) => Forall konst l /\ forall val, sound A val -> num val l = z
  | Some None => ~ Forall konst l
  | None => False
  end.
Proof. intros F. exact (thm_bev2int F l). Qed.
Print Assumptions C64_bev2int.
(** Shifts by less than the length of the vector only: see [C64_ashr_refuted]. *)
Theorem C64_ashr_partial A (l : list (node A)) n : (n < length l)%nat ->
  bev_ashr l n <> [] /\ forall val, sound A val -> num val (bev_ashr l n) = num val l / 2 ^ Z.of_nat n.
Proof. exact (thm_ashr l n). Qed.
Print Assumptions C64_ashr_partial.
(** A longer shift gives the vector of length 0, for negative numbers too, and the next operation takes the head of NIL. *)
Theorem C64_ashr_refuted :
  (forall A (l : list (node A)) n, (length l <= n)%nat -> (0 < n)%nat -> bev_ashr l n = []) /\
  exists (l : list (node tt4)) n val, minimal l /\ sound tt4 val /\ num val l / 2 ^ Z.of_nat n = -1 /\ num val (bev_ashr l n) = 0 /\ bev_add (bev_ashr l n) l = None.
Proof. split; [exact @ashr_empty|]. exists [One; Zero], 2%nat, (at_ 0). split; [reflexivity|]. split; [apply tt4_sound; reflexivity|]. vm_compute. repeat split; reflexivity. Qed.
Print Assumptions C64_ashr_refuted.
(** No amount of fuel is enough for [bev_pow], whatever its arguments: both branches of the THEN are evaluated, and the test is the wrong way round.
    The shifts by a vector call it. *)
Theorem C64_pow_refuted : forall A fuel (base n : list (node A)),
  bev_pow fuel base n = None /\ bev_shl fuel base n = None /\ bev_ashr_bevbev fuel base n = None.
Proof. intros A fuel base n. exact (conj (thm_pow fuel base n) (thm_shl fuel base n)). Qed.
Print Assumptions C64_pow_refuted.

(** The values under the four assignments of x and y. *)
Example C64_ex : values (Some va) = Some [2; -6; 6; -2] /\ values (Some vb) = Some [2; 1; -2; -3] /\
  values (bev_add va vb) = Some [4; -5; 4; -5] /\ values (bev_sub va vb) = Some [0; -7; 8; 1] /\ values (bev_mul va vb) = Some [4; -6; -12; 6] /\
  values (bev_div va vb) = Some [1; -6; -3; 0] /\ values (bev_mod va vb) = Some [0; 0; 0; -2] /\ values (bev_neg va) = Some [-2; 6; -6; 2] /\
  values (bev_XNOR va vb) = Some [-1; 4; 7; -4] /\ values (bevTHEN x va vb) = Some [2; -6; -2; -2] /\ values (Some (bev_ashr va 2)) = Some [0; -2; 1; -1] /\
  values (Some (bev_ZX va)) = Some [2; 10; 6; 14].
Proof. vm_compute. repeat split; reflexivity. Qed.
Example C64_ex_const : int2bev (A := tt4) (-5) = Some [One; Zero; One; One] /\ bev2int (A := tt4) [One; Zero; One; One] = Some (Some (-5)) /\ bev2int va = Some None /\
  folding tt4 /\ sound tt4 (at_ 3) /\ bev_leq va vb = Some 3%N /\ bev_eq va vb = Some 1%N /\ bev_neq va vb = Some 14%N.
Proof. split; [vm_compute; reflexivity|]. split; [vm_compute; reflexivity|]. split; [vm_compute; reflexivity|]. split; [exact tt4_folding|]. split; [apply tt4_sound; reflexivity|]. vm_compute. repeat split; reflexivity. Qed.
