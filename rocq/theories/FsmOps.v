(* Model of the circuit operators of src/bin/fl/fsm.c 5630-6520.

   A node has two rails: H ("can be 1") and L ("can be 0"); (1,1) is X, (0,0) is
   the inconsistent value.  A rail is a Boolean function, held as a BDD or as a
   bexpr, combined by c_AND and c_OR; here the type of rails and the two
   combinators are parameters, since do_wl_op exchanges them for the dynamic
   weakening.  Vectors are lists with the most significant bit first; the input
   buffer of an operator is the concatenation of its arguments.  A loop
   FROM_LSB_TO_MSB with a carry is a fold_right.

   Not represented: bits with names, printing, the information flow variant of
   weakening (which names the cut functions by fresh variables). *)
From Coq Require Import List Arith NArith ZArith Bool.
Import ListNotations.

Section Ops.
Variable V : Type.
Variables cand cor : V -> V -> V.    (* c_AND, c_OR *)
Variables czero cone : V.            (* c_ZERO, c_ONE *)

Local Notation rail := (V * V)%type.     (* (H, L) *)
Definition rX : rail := (cone, cone).
Definition r1 : rail := (cone, czero).
Definition r0 : rail := (czero, cone).

(* INP_H(i), INP_L(i) *)
Definition inp (l : list rail) (i : nat) : rail := nth i l rX.
(* for each i from the MSB on: OUT(i) = f i *)
Definition tab {A} (n : nat) (f : nat -> A) : list A := map f (seq 0 n).
(* the two operands of a binary operator of width n *)
Definition pairs (n : nat) (l : list rail) : list (rail * rail) :=
  tab n (fun i => (inp l i, inp l (i + n))).

(* geq_fn 5642 (start r1), op_GR 6066 (start r0) *)
Definition ge_step (ab : rail * rail) (g : rail) : rail :=
  let '((aH, aL), (bH, bL)) := ab in
  (cor (cand aH bL) (cand (cor aH bL) (fst g)),
   cand (cor aL bH) (cor (cand aL bH) (snd g))).
Definition ge_from (g : rail) (l : list (rail * rail)) : rail := fold_right ge_step g l.

(* one position of the adders: sub_fn 5661, op_ADD 6086, op_SUB 6114, op_MUL 6163 *)
Definition add_step (ab : rail * rail) (co : rail * list rail) : rail * list rail :=
  let '((aH, aL), (bH, bL)) := ab in
  let '((cH, cL), out) := co in
  let sH := cor (cand (cor (cand aH bL) (cand aL bH)) cL)
                (cand (cand (cor aL bH) (cor aH bL)) cH) in
  let sL := cand (cor (cand (cor aL bH) (cor aH bL)) cH)
                 (cor (cor (cand aH bL) (cand aL bH)) cL) in
  let cH' := cor (cor (cand aH bH) (cand aH cH)) (cand bH cH) in
  let cL' := cand (cand (cor aL bL) (cor aL cL)) (cor bL cL) in
  ((cH', cL'), (sH, sL) :: out).
Definition add_from (c : rail) (l : list (rail * rail)) : list rail :=
  snd (fold_right add_step (c, []) l).
Definition swap (r : rail) : rail := (snd r, fst r).
(* subtraction: the second operand complemented, carry in 1 *)
Definition sub_list (l : list (rail * rail)) : list rail :=
  add_from r1 (map (fun ab => (fst ab, swap (snd ab))) l).

(* ITE_fn 5686, and op_ITE 6182 with RCaccurate_ite_comp *)
Definition ite1 (c a b : rail) : rail :=
  (cor (cor (cand (fst a) (fst b)) (cand (fst c) (fst a))) (cand (snd c) (fst b)),
   cand (cand (cor (snd a) (snd b)) (cor (snd c) (snd a))) (cor (fst c) (snd b))).
(* op_ITE without it *)
Definition ite1_plain (c a b : rail) : rail :=
  (cor (cand (fst c) (fst a)) (cand (snd c) (fst b)),
   cand (cor (snd c) (snd a)) (cor (fst c) (snd b))).
Definition ite_list (c : rail) (a b : list rail) : list rail :=
  map (fun ab => ite1 c (fst ab) (snd ab)) (combine a b).

(* op_AND 5966, op_OR 6022 *)
Definition and1 (a b : rail) : rail := (cand (fst a) (fst b), cor (snd a) (snd b)).
Definition or1 (a b : rail) : rail := (cor (fst a) (fst b), cand (snd a) (snd b)).

(* op_EQ 6045 *)
Definition eq_step (e : rail) (ab : rail * rail) : rail :=
  let '((aH, aL), (bH, bL)) := ab in
  (cand (cor (cand aH bH) (cand aL bL)) (fst e),
   cor (cand (cor aL bL) (cor aH bH)) (snd e)).
Definition op_EQ (sz : nat) (l : list rail) : list rail :=
  [fold_left eq_step (pairs sz l) r1].
Definition op_GR (sz : nat) (l : list rail) : list rail := [ge_from r0 (pairs sz l)].

Definition op_ADD (n : nat) (l : list rail) : list rail := add_from r0 (pairs n l).
Definition op_SUB (n : nat) (l : list rail) : list rail := sub_list (pairs n l).

(* op_MUL 6141: the partial product of bit i added to the sum so far *)
Definition mul_pp (n : nat) (l : list rail) (i : nat) : list rail :=
  let shift := n - i - 1 in
  tab n (fun j => if n - j - 1 <? shift then r0 else and1 (inp l (i + n)) (inp l (j + shift))).
Definition op_MUL (n : nat) (l : list rail) : list rail :=
  fold_right (fun i out => add_from r0 (combine (mul_pp n l i) out)) (repeat r0 n) (seq 0 n).

(* shift_left_by_1 5703 *)
Definition shl1 (v : list rail) (x : rail) : list rail := tl v ++ [x].
(* op_DIV 6226, op_MOD 6257: Q and R, the bits of the dividend taken MSB first *)
Definition div_step (b : list rail) (qr : list rail * list rail) (a : rail)
  : list rail * list rail :=
  let '(q, r) := qr in
  let r2 := shl1 r a in
  let c := ge_from r1 (combine r2 b) in
  (shl1 q c, ite_list c (sub_list (combine r2 b)) r2).
Definition div_loop (n : nat) (l : list rail) : list rail * list rail :=
  fold_left (div_step (tab n (fun i => inp l (i + n)))) (tab n (inp l)) (repeat r0 n, repeat r0 n).
Definition op_DIV (n : nat) (l : list rail) := fst (div_loop n l).
Definition op_MOD (n : nat) (l : list rail) := snd (div_loop n l).

(* int of an unsigned or a wrapped sum *)
Definition int32 (z : Z) : Z := ((z + 2147483648) mod 4294967296 - 2147483648)%Z.
Definition outside (n : nat) (i : Z) : bool := ((i <? 0) || (Z.of_nat n <=? i))%Z.
(* sshl_fun 5715, sshr_fun 5730, sashr_fun 5746; for the last two, i - cnt is an
   int subtraction that overflows if cnt is INT_MIN; taken to wrap here, see
   [shr_overflows]. *)
Definition sshl (n : nat) (v : list rail) (cnt : Z) : list rail :=
  tab n (fun i => let idx := int32 (Z.of_nat i + cnt) in
                  if outside n idx then r0 else inp v (Z.to_nat idx)).
Definition sshr (n : nat) (v : list rail) (cnt : Z) : list rail :=
  tab n (fun i => let idx := int32 (Z.of_nat i - cnt) in
                  if outside n idx then r0 else inp v (Z.to_nat idx)).
Definition sashr (n : nat) (v : list rail) (cnt : Z) : list rail :=
  tab n (fun i => let idx := int32 (Z.of_nat i - cnt) in
                  if outside n idx then inp v 0 else inp v (Z.to_nat idx)).
(* op_SHL 6288, op_SHR 6311, op_ASHR 6334; unint shift *= 2 *)
Definition shift_step (n : nat) (f : nat -> list rail -> Z -> list rail) (b : rail)
  (sc : Z * list rail) : Z * list rail :=
  let '(s, cur) := sc in
  ((s * 2) mod 4294967296, ite_list b (f n cur (int32 s)) cur)%Z.
Definition op_shift f (n : nat) (l : list rail) : list rail :=
  snd (fold_right (shift_step n f) (1%Z, tab n (inp l)) (tab n (fun i => inp l (i + n)))).

(* op_SX 6359, op_ZX 6378 *)
Definition op_SX (isz n : nat) (l : list rail) : list rail :=
  tab n (fun i => if n - 1 - i <? isz then inp l (isz - 1 - (n - 1 - i)) else inp l 0).
Definition op_ZX (isz n : nat) (l : list rail) : list rail :=
  tab n (fun i => if n - 1 - i <? isz then inp l (isz - 1 - (n - 1 - i)) else r0).
(* op_SLICE 6395; idx_list has n elements *)
Definition op_SLICE (il : list nat) (n : nat) (l : list rail) : list rail :=
  tab n (fun i => inp l (nth i il 0)).
(* op_UPDATE_SLICE 6407 *)
Fixpoint set_nth {A} (l : list A) (i : nat) (x : A) : list A :=
  match l, i with
  | [], _ => []
  | _ :: l, O => x :: l
  | y :: l, S i => y :: set_nth l i x
  end.
Fixpoint upd_loop (l : list rail) (n : nat) (il : list nat) (idx : nat) (out : list rail) :=
  match il with
  | [] => out
  | ti :: il => upd_loop l n il (S idx) (set_nth out ti (inp l (idx + n)))
  end.
Definition op_UPDATE_SLICE (il : list nat) (n : nat) (l : list rail) : list rail :=
  upd_loop l n il 0 (tab n (inp l)).

(* op_MEM_READ 6437, op_MEM_WRITE 6481: is this line addressed? *)
Definition sel_step (bit : rail) (ls : nat * rail) : nat * rail :=
  let '(l, (sH, sL)) := ls in
  (l / 2, if Nat.odd l then (cand sH (fst bit), cor sL (snd bit))
          else (cand sH (snd bit), cor sL (fst bit))).
Definition sel (addr : list rail) (line : nat) : rail :=
  snd (fold_right sel_step (line, r1) addr).
Definition op_MEM_READ (asz dsz lines n : nat) (l : list rail) : list rail :=
  fold_left (fun out line =>
    let s := sel (tab asz (inp l)) line in
    let base := (lines - line - 1) * dsz in
    tab n (fun i => if i <? dsz then ite1 s (inp l (asz + base + i)) (nth i out rX)
                    else nth i out rX))
    (seq 0 lines) (repeat rX n).
(* the lines are stored from the last one to line 0 *)
Definition op_MEM_WRITE (asz dsz lines : nat) (l : list rail) : list rail :=
  flat_map (fun line =>
    let s := sel (tab asz (inp l)) line in
    let base := (lines - line - 1) * dsz in
    tab dsz (fun i => ite1 s (inp l (asz + i)) (inp l (asz + dsz + base + i))))
    (rev (seq 0 lines)).

(* op_IDELAY 5979 *)
Definition op_IDELAY (mr Mr mf Mf n : nat) (l : list rail) : list rail :=
  tab n (fun i =>
    let h k := inp l ((1 + k) * n + i) in
    let cur := inp l i in
    (cor (fold_left (fun x k => cand x (fst (h k))) (seq 0 mr) cone)
         (cand (fst cur) (fold_left (fun x k => cor x (fst (h k))) (seq 0 Mf) czero)),
     cor (fold_left (fun x k => cand x (snd (h k))) (seq 0 mf) cone)
         (cand (snd cur) (fold_left (fun x k => cor x (snd (h k))) (seq 0 Mr) czero)))).

(* op_CONST 5930; the bits of the number's two's complement *)
Definition op_CONST (v : Z) (n : nat) : list rail :=
  snd (fold_right (fun (_ : nat) '(ptr, out) =>
        ((ptr * 2)%Z, (if (Z.land v ptr =? 0)%Z then r0 else r1) :: out))
      (1%Z, []) (seq 0 n)).

Inductive wop :=
| OX | OConst (v : Z) | OVar | OAnd | OOr | ONot | OWire
| OIdelay (mr Mr mf Mf : nat)
| OEq (sz : nat) | OGr (sz : nat)
| OAdd | OSub | OMul | OIte (accurate : bool) | ODiv | OMod
| OShl | OShr | OAshr
| OSx (isz : nat) | OZx (isz : nat)
| OSlice (il : list nat) | OUpdate (il : list nat)
| OMemRead (asz dsz lines : nat) | OMemWrite (asz dsz lines : nat).

(* op->op(op), for an operator with op->size n; op_LAT_LEQ is separate *)
Definition eval_op (o : wop) (n : nat) (l : list rail) : list rail :=
  match o with
  | OX => repeat rX n                                             (* 5920 *)
  | OConst v => op_CONST v n
  | OVar | OWire => tab n (inp l)                                 (* 5950, 6427 *)
  | OAnd => map (fun ab => and1 (fst ab) (snd ab)) (pairs n l)
  | OOr => map (fun ab => or1 (fst ab) (snd ab)) (pairs n l)
  | ONot => tab n (fun i => swap (inp l i))                       (* 6036 *)
  | OIdelay mr Mr mf Mf => op_IDELAY mr Mr mf Mf n l
  | OEq sz => op_EQ sz l
  | OGr sz => op_GR sz l
  | OAdd => op_ADD n l
  | OSub => op_SUB n l
  | OMul => op_MUL n l
  | OIte acc =>
      tab n (fun i => (if acc then ite1 else ite1_plain) (inp l 0) (inp l (1 + i)) (inp l (1 + i + n)))
  | ODiv => op_DIV n l
  | OMod => op_MOD n l
  | OShl => op_shift sshl n l
  | OShr => op_shift sshr n l
  | OAshr => op_shift sashr n l
  | OSx isz => op_SX isz n l
  | OZx isz => op_ZX isz n l
  | OSlice il => op_SLICE il n l
  | OUpdate il => op_UPDATE_SLICE il n l
  | OMemRead a d lines => op_MEM_READ a d lines n l
  | OMemWrite a d lines => op_MEM_WRITE a d lines l
  end.

(* op_LAT_LEQ 5957, with c_NOT *)
Definition op_LAT_LEQ (cnot : V -> V) (n : nat) (l : list rail) : list rail :=
  map (fun ab => let h := cand (cor (fst (snd ab)) (cnot (fst (fst ab))))
                               (cor (snd (snd ab)) (cnot (snd (fst ab)))) in (h, cnot h))
      (pairs n l).
End Ops.

(* Does the loop of op_SHR or op_ASHR at width n meet an overflow of i - cnt?
   cnt is 2^k for the k-th bit, and i at least 0. *)
Definition shr_overflows (n : nat) : bool :=
  existsb (fun k => let c := int32 (2 ^ Z.of_nat k mod 4294967296) in
     existsb (fun i => (2147483647 <? Z.of_nat i - c)%Z || (Z.of_nat i - c <? -2147483648)%Z)
             (seq 0 n)) (seq 0 n).

(* BDD_c_limited_AND 7001, BDD_c_limited_OR 7025 without information flow: a
   result that is too big becomes 1. *)
Definition limited {V} (big : V -> bool) (cone : V) (f : V -> V -> V) (a b : V) : V :=
  let r := f a b in if big r then cone else r.
