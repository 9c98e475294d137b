(** Properties C11-C14: arbitrary precision integers (arb_prec.c).

    [canon x] (ArbBase.v): [x] is a non-empty list of 64-bit words, least
    significant first, with no redundant sign word at the top.  [val x]: the
    integer it stands for in two's complement.  [None] is a trap, an
    out-of-range access or shift, or no answer within the fuel.  The word count is a C short, hence the bound 32767. *)
From Coq Require Import ZArith Bool List Lia.
From Verif Require Import ArbModel ArbBase ArbMul ArbDiv ArbDivThm ArbStr.
Import ListNotations.
Open Scope Z_scope.

(** ** C11 *)
Theorem C11_add x y : ok x -> ok y -> canon (arbi__add x y) /\ val (arbi__add x y) = val x + val y.
Proof. exact (fun Hx Hy => add_spec x y Hx Hy). Qed.
Print Assumptions C11_add.
Theorem C11_sub x y : ok x -> ok y -> canon (arbi__sub x y) /\ val (arbi__sub x y) = val x - val y.
Proof. exact (fun Hx Hy => sub_spec x y Hx Hy). Qed.
Print Assumptions C11_sub.
Theorem C11_neg x : ok x -> canon (arbi__neg x) /\ val (arbi__neg x) = - val x.
Proof. exact (fun Hx => neg_spec x Hx). Qed.
Print Assumptions C11_neg.
Theorem C11_abs x : canon x -> canon (arbi__abs x) /\ val (arbi__abs x) = Z.abs (val x).
Proof. exact (fun Hx => abs_spec x Hx). Qed.
Print Assumptions C11_abs.
Theorem C11_cmp x y : canon x -> canon y -> Arbi_cmp x y = (val x ?= val y).
Proof. exact (fun Hx Hy => cmp_spec x y Hx Hy). Qed.
Print Assumptions C11_cmp.
Theorem C11_canonical x y : canon x -> canon y -> val x = val y -> x = y.
Proof. exact (fun Hx Hy => canon_inj x y Hx Hy). Qed.
Print Assumptions C11_canonical.
Example C11_ex : canon [5; -3; 1] /\ val [5; -3; 1] = 5 + (2 ^ 64 - 3) * 2 ^ 64 + 2 ^ 128 /\
  arbi__add [MaxWord] [1] = [MinWord; 0] /\ arbi__neg [MinWord; 0] = [MinWord] /\ arbi__neg [MinWord] = [MinWord; 0] /\
  arbi__sub [5; -3; 1] [5; -3; 1] = [0] /\ Arbi_cmp [0; -1] [MinWord] = Lt.
Proof. split; [apply canonb_ok; vm_compute; reflexivity|]. repeat split; vm_compute; reflexivity. Qed.

(** ** C12 *)
Theorem C12_mlt_partial x y : canon x -> canon y -> Z.of_nat (length x + length y) <= 32767 ->
  ~ (val x = -1 /\ val y = - 2 ^ 63) ->
  exists z, arbi__mlt x y = Some z /\ canon z /\ val z = val x * val y.
Proof. exact (fun Hx Hy => mlt_spec x y Hx Hy). Qed.
Print Assumptions C12_mlt_partial.
(** The excluded product traps: (-1) * (-2^63) divides MinWord by -1. *)
Theorem C12_mlt_refuted : exists x y, canon x /\ canon y /\ val x = -1 /\ val y = - 2 ^ 63 /\ arbi__mlt x y = None.
Proof. exact mlt_traps. Qed.
Print Assumptions C12_mlt_refuted.
Example C12_ex : arbi__mlt [MinWord] [-1] = Some [MinWord; 0] /\
  arbi__mlt [-1; MaxWord] [3; 5] = Some [-3; 9223372036854775802; -9223372036854775807; 2] /\
  canon [-1; MaxWord] /\ canon [3; 5].
Proof. split; [vm_compute; reflexivity|]. split; [vm_compute; reflexivity|]. split; apply canonb_ok; vm_compute; reflexivity. Qed.

(** ** C13: floor division *)
Theorem C13_div_partial x y : canon x -> canon y -> val y <> 0 -> val y <> - 2 ^ 63 -> Z.of_nat (1 + length y) <= 32767 ->
  exists n z, (forall fuel, arbi__div (n + fuel) x y = Some (Some z)) /\ canon z /\ val z = val x / val y.
Proof. exact (div_spec x y). Qed.
Print Assumptions C13_div_partial.
Theorem C13_mod_partial x y : canon x -> canon y -> val y <> 0 -> val y <> - 2 ^ 63 -> Z.of_nat (1 + length y) <= 32767 ->
  exists n z, (forall fuel, arbi__mod (n + fuel) x y = Some z) /\ canon z /\ val z = val x mod val y.
Proof. exact (mod_spec x y). Qed.
Print Assumptions C13_mod_partial.
(** 2^63 / (-2^63) traps. *)
Theorem C13_refuted : exists x y, canon x /\ canon y /\ val x = 2 ^ 63 /\ val y = - 2 ^ 63 /\ forall fuel, arbi__div fuel x y = None /\ arbi__mod fuel x y = None.
Proof. exact div_traps. Qed.
Print Assumptions C13_refuted.
Example C13_ex : arbi__div 99 [7; -9; 12; 5] [3; -4] = Some (Some [-3458764513820540929; -4611686018427387909; -2]) /\ arbi__mod 99 [7; -9; 12; 5] [3; -4] = Some [-8070450532247928822] /\
  canon [7; -9; 12; 5] /\ canon [3; -4].
Proof. split; [vm_compute; reflexivity|]. split; [vm_compute; reflexivity|]. split; apply canonb_ok; vm_compute; reflexivity. Qed.

(** ** C14
    [numeral base s v] (ArbStr.v): the digits 0-9, a-z of [s], most significant
    first, have value [v] in [base]; [snumeral] allows a leading minus. *)
Theorem C14_roundtrip_partial x base : canon x -> 2 <= base <= 36 -> Z.of_nat (length x) + 2 <= 32767 ->
  (top x <> - 2 ^ 63 \/ (length x = 1%nat /\ base = 10)) -> ~ (base = 16 /\ length x = 1%nat /\ val x < 0) ->
  exists n s, (forall fuel, arbi__ToString (n + fuel) x base = Some (Some s)) /\ snumeral base s (val x) /\
    Arbi_FromString s base = Some (Some x).
Proof. exact (string_roundtrip x base). Qed.
Print Assumptions C14_roundtrip_partial.
(** Reading alone. *)
Theorem C14_from_string base s v k : 2 <= base <= 36 -> snumeral base s v -> Z.abs v < 2 ^ (64 * Z.of_nat k) -> Z.of_nat k + 2 <= 32767 ->
  exists z, Arbi_FromString s base = Some (Some z) /\ canon z /\ val z = v.
Proof. exact (fromstring_pow base s v k). Qed.
Print Assumptions C14_from_string.
Theorem C14_refuted_top : exists x, canon x /\ val x = - 2 ^ 127 /\ forall fuel, arbi__ToString fuel x 10 = None.
Proof. exact tostring_overflow. Qed.
Print Assumptions C14_refuted_top.
Theorem C14_refuted_hex : exists x s y, canon x /\ val x = -1 /\ (forall fuel, arbi__ToString fuel x 16 = Some (Some s)) /\
  Arbi_FromString s 16 = Some (Some y) /\ val y = 2 ^ 64 - 1.
Proof. exact tostring_hex. Qed.
Print Assumptions C14_refuted_hex.
Example C14_ex : arbi__ToString 99 [7; -9; 3] 36 = 
  Some (Some [49; 111; 109; 102; 114; 111; 55; 122; 119; 109; 117; 109; 113; 52; 116; 97; 102; 108; 52; 103; 102; 99; 50; 108; 56; 110]) /\ canon [7; -9; 3] /\ top [7; -9; 3] <> - 2 ^ 63.
Proof. split; [vm_compute; reflexivity|]. split; [apply canonb_ok; vm_compute; reflexivity|]. vm_compute. discriminate. Qed.
