(** Arbitrary precision integers: /repo/src/bin/fl/arb_prec.c and arb_prec.h.

    An arbi_T is modelled by its words, least significant first.  Word is the
    64-bit 'long'.  The file is compiled without optimisation (Makefile line 61,
    NO_OPT_CFLAGS); signed overflow in the C text is modelled as wrap around.
    Traps (division overflow), shift counts out of range and reads or writes out
    of bounds are [None], as is running out of fuel.
    Simplifications: the word count (a short) is unbounded; the allocator
    (lines 925-1138) is not modelled, freeing is dropped. *)
From Coq Require Import ZArith Bool List Lia.
Import ListNotations.
Open Scope Z_scope.

Definition B : Z := 18446744073709551616.      (* 2^64 *)
Definition HB : Z := 9223372036854775808.       (* 2^63 *)
Definition MinWord : Z := - HB.                  (* arb_prec.h 82 *)
Definition MaxWord : Z := HB - 1.                (* arb_prec.h 83 *)
Definition H32 : Z := 4294967296.               (* 2^32 *)

(** Two's complement. *)
Definition wrap (z : Z) : Z := (z + HB) mod B - HB.
Definition uw (w : Z) : Z := w mod B.
Notation arbi := (list Z).

(** arb_prec.h 91-103: the value of a representation. *)
Fixpoint val (x : arbi) : Z :=
  match x with
  | [] => 0
  | [w] => w
  | w :: r => uw w + B * val r
  end.
(** x[Length(x)-1] *)
Definition top (x : arbi) : Z := last x 0.

(** arb_prec.c 85-106 (Arbi_cmp). *)
Fixpoint cmp_low (xs ys : list Z) : comparison :=
  match xs, ys with
  | x :: xs, y :: ys => if uw x <? uw y then Lt else if uw y <? uw x then Gt else cmp_low xs ys
  | _, _ => Eq
  end.
Definition Arbi_cmp (x y : arbi) : comparison :=
  if (length y <? length x)%nat then (if top x <? 0 then Lt else Gt) else
  if (length x <? length y)%nat then (if 0 <=? top y then Lt else Gt) else
  if top x <? top y then Lt else
  if top y <? top x then Gt else
  cmp_low (tl (rev x)) (tl (rev y)).

(** arb_prec.c 301-312 (cmp0). *)
Definition cmp0 (x : arbi) : Z :=
  if (top x =? 0) && (length x =? 1)%nat then 0 else if 0 <=? top x then 1 else -1.

(** arb_prec.c 314-323 (trim), on the words from the most significant down. *)
Definition ext_of (lo : Z) : Z := if lo <? 0 then -1 else 0.
Fixpoint trim_rev (x : list Z) : list Z :=
  match x with
  | t :: ((l :: _) as r) => if t =? ext_of l then trim_rev r else x
  | _ => x
  end.
Definition trim (x : arbi) : arbi := rev (trim_rev (rev x)).

(** arb_prec.c 331-378 (arbi__add).  The two loops are one loop over the words of
    the longer operand and the sign extended shorter one. *)
Definition neg (w : Z) : bool := w <? 0.
Definition carry_of (wx wy wz : Z) : bool := (neg wx && neg wy) || ((neg wx || neg wy) && negb (neg wz)).
Fixpoint add_loop (xys : list (Z * Z)) (carry : bool) : list Z :=
  match xys with
  | [] => []
  | (wx, wy) :: r => let wz := wrap (wx + wy + Z.b2z carry) in wz :: add_loop r (carry_of wx wy wz)
  end.
Definition sext (y : arbi) (n : nat) : arbi := y ++ repeat (ext_of (top y)) (n - length y).
Definition add_slow (x y : arbi) : arbi :=
  let '(x, y) := if (length x <? length y)%nat then (y, x) else (x, y) in
  let y' := sext y (length x) in
  let z := add_loop (combine x y') false in
  let wx := top x in let wy := top y' in let wz := top z in
  if eqb (neg wx) (neg wy) && negb (eqb (neg wz) (neg wx))
  then z ++ [if neg wz then 0 else -1] else trim z.
Definition arbi__add (x y : arbi) : arbi :=
  match x, y with
  | [wx], [wy] => let wz := wrap (wx + wy) in
      if negb (eqb (neg wx) (neg wy)) || eqb (neg wz) (neg wx) then [wz] else add_slow x y
  | _, _ => add_slow x y
  end.

(** arb_prec.c 381-432 (bv_xor, bv_or, bv_and, bv_not, arbi__bvop). *)
Definition arbi__bvop (op : Z -> Z -> Z) (x y : arbi) : arbi :=
  match x, y with
  | [wx], [wy] => [op wx wy]
  | _, _ =>
    let '(x, y) := if (length x <? length y)%nat then (y, x) else (x, y) in
    trim (map (fun p => op (fst p) (snd p)) (combine x (sext y (length x))))
  end.
Definition Arbi_bvAND := arbi__bvop Z.land.
Definition Arbi_bvOR := arbi__bvop Z.lor.
Definition Arbi_bvXOR := arbi__bvop Z.lxor.
Definition Arbi_bvNOT (x : arbi) := arbi__bvop (fun a _ => Z.lnot a) x x.

(** arb_prec.c 449-475 (arbi__neg), 477-483 (arbi__abs), 485-500 (arbi__sub). *)
Definition neg_slow (x : arbi) : arbi := arbi__add (map Z.lnot x ++ [if neg (top x) then 0 else -1]) [1].
Definition arbi__neg (x : arbi) : arbi :=
  match x with
  | [wx] => let wy := wrap (- wx) in if negb (eqb (neg wx) (neg wy)) then [wy] else neg_slow x
  | _ => neg_slow x
  end.
Definition arbi__abs (x : arbi) : arbi := if neg (top x) then arbi__neg x else x.
Definition arbi__sub (x y : arbi) : arbi :=
  match x, y with
  | [wx], [wy] => let wz := wrap (wx - wy) in
      if eqb (neg wx) (neg wy) || eqb (neg wx) (neg wz) then [wz] else arbi__add x (arbi__neg y)
  | _, _ => arbi__add x (arbi__neg y)
  end.

(** C division and remainder on words. *)
Definition cdiv (a b : Z) : option Z :=
  if (b =? 0) || ((a =? MinWord) && (b =? -1)) then None else Some (Z.quot a b).
Definition cmod (a b : Z) : option Z :=
  if (b =? 0) || ((a =? MinWord) && (b =? -1)) then None else Some (Z.rem a b).
Definition obind {A C} (m : option A) (f : A -> option C) : option C :=
  match m with Some a => f a | None => None end.
Notation "'let?' x := m 'in' e" := (obind m (fun x => e)) (at level 200, x pattern, e at level 200).

(** arb_prec.h 106-111: Split, Acc, Carry, Merge on unsigned words. *)
Definition u64 (z : Z) : Z := z mod B.
Record acc4 := mkAcc { p0 : Z; p1 : Z; p2 : Z; p3 : Z }.
Definition Acc01 (pp : Z) (a : acc4) := mkAcc (u64 (p0 a + pp mod H32)) (u64 (p1 a + pp / H32)) (p2 a) (p3 a).
Definition Acc12 (pp : Z) (a : acc4) := mkAcc (p0 a) (u64 (p1 a + pp mod H32)) (u64 (p2 a + pp / H32)) (p3 a).
Definition Acc23 (pp : Z) (a : acc4) := mkAcc (p0 a) (p1 a) (u64 (p2 a + pp mod H32)) (u64 (p3 a + pp / H32)).
Definition mul_step (xx yy : Z) (a : acc4) : acc4 :=
  let xl := uw xx mod H32 in let xh := uw xx / H32 in
  let yl := uw yy mod H32 in let yh := uw yy / H32 in
  Acc23 (u64 (xh * yh)) (Acc12 (u64 (xh * yl)) (Acc12 (u64 (xl * yh)) (Acc01 (u64 (xl * yl)) a))).
Definition merge (a b : Z) : Z := wrap (a mod H32 + H32 * (b mod H32)).

(** arb_prec.c 529-552: one column, then all columns. *)
Fixpoint mul_col (ax ay : arbi) (i : nat) (js : list nat) (a : acc4) : option acc4 :=
  match js with
  | [] => Some a
  | j :: js =>
    match nth_error ax j, nth_error ay (i - j) with
    | Some xx, Some yy => mul_col ax ay i js (mul_step xx yy a)
    | _, _ => None
    end
  end.
Definition col_js (lx ly i : nat) : list nat :=
  let jmax := if (i <? lx)%nat then i else (lx - 1)%nat in
  let kmax := if (i <? ly)%nat then i else (ly - 1)%nat in
  seq (i - kmax) (S jmax - (i - kmax)).
Fixpoint mul_cols (ax ay : arbi) (lx ly : nat) (is : list nat) (q0 q1 : Z) : option (list Z) :=
  match is with
  | [] => Some []
  | i :: is =>
    let? a := mul_col ax ay i (col_js lx ly i) (mkAcc q0 q1 0 0) in
    let c1 := u64 (p1 a + p0 a / H32) in
    let c2 := u64 (p2 a + c1 / H32) in
    let? r := mul_cols ax ay lx ly is c2 (p3 a) in
    Some (merge (p0 a) c1 :: r)
  end.
Definition mlt_slow (x y : arbi) : option arbi :=
  let nx := cmp0 x <? 0 in let ny := cmp0 y <? 0 in
  let ax := if nx then arbi__neg x else x in
  let ay := if ny then arbi__neg y else y in
  let? ap := mul_cols ax ay (length x) (length y) (seq 0 (length x + length y)) 0 0 in
  Some (trim (if xorb nx ny then arbi__neg ap else ap)).
(** arb_prec.c 508-559 (arbi__mlt). *)
Definition arbi__mlt (x y : arbi) : option arbi :=
  match x, y with
  | [wx], [wy] =>
    if (wx =? 0) || (wy =? 0) then Some [0] else
    let wp := wrap (wx * wy) in
    let? a := cdiv wp wx in
    if wy =? a then
      let? b := cdiv wp wy in
      if wx =? b then Some [wp] else mlt_slow x y
    else mlt_slow x y
  | _, _ => mlt_slow x y
  end.

(** arb_prec.c 561-571 (cmpa). *)
Definition cmpa (x y : arbi) : comparison := Arbi_cmp (arbi__abs x) (arbi__abs y).

(** C shifts of words; the count must be in range. *)
Definition shl (w s : Z) : option Z := if (0 <=? s) && (s <? 64) then Some (wrap (w * 2 ^ s)) else None.
Definition shr (w s : Z) : option Z := if (0 <=? s) && (s <? 64) then Some (w / 2 ^ s) else None.
Definition ushr (w s : Z) : option Z := if (0 <=? s) && (s <? 64) then Some (uw w / 2 ^ s) else None.

(** arb_prec.c 649 and 696: "for (s = ...; (w<0) == ((w << (s+k))<0); s++);" *)
Fixpoint norm_loop (fuel : nat) (w s k : Z) : option Z :=
  match fuel with
  | O => None
  | S fuel => let? t := shl w (s + k) in
      if eqb (neg w) (neg t) then norm_loop fuel w (s + 1) k else Some s
  end.
(** y[ly-2] *)
Definition second (y : arbi) : option Z := nth_error (rev y) 1.
(** arb_prec.c 649-654 and 696-702, the general case of the leading bits. *)
Definition lead_gen (y : arbi) (k : Z) : option (Z * Z) :=
  let yy := top y in
  let? s := norm_loop 70 yy (1 - k) k in
  if s <? 0 then (let? z := shr yy (- s) in Some (s, z)) else
  if (length y =? 1)%nat || (s =? 0) then (let? z := shl yy s in Some (s, z)) else
  let? h := shl yy s in let? y2 := second y in let? l := ushr y2 (64 - s) in
  Some (s, wrap (Z.lor h l)).
(** arb_prec.c 641-654: ys and z for the divisor. *)
Definition lead_minus1 (y : arbi) : option Z :=
  let? y2 := second y in let? a := shr y2 1 in shr (Z.lor a MinWord) 2.
Definition lead_y (y : arbi) : option (Z * Z) :=
  if top y =? 0 then (let? y2 := second y in let? z := ushr y2 2 in Some (62, z)) else
  if top y =? -1 then (let? z := lead_minus1 y in Some (61, z)) else lead_gen y 2.
(** arb_prec.c 689-702: rs and z for the remainder. *)
Definition lead_r (r : arbi) : option (Z * Z) :=
  if top r =? 0 then (let? r2 := second r in let? z := ushr r2 3 in Some (61, z)) else
  if top r =? -1 then (let? z := lead_minus1 r in Some (61, z)) else lead_gen r 3.

(** arb_prec.c 703-727: the guess. *)
Definition guess (r y : arbi) (ys yh yl : Z) : option Z :=
  let? (rs, z) := lead_r r in
  let? gh := cdiv z yh in
  let? zm := cmod z yh in
  let? zs := shl zm 31 in
  let? gl := cdiv (wrap (zs - wrap (yl * gh))) yh in
  let? ghs := shl gh 31 in
  let gg := wrap (gl + ghs) in
  let gs := 62 - 64 * (Z.of_nat (length r) - Z.of_nat (length y)) + (rs - ys) in
  if gs <? 0 then
    let? z := shl gg (- gs) in
    let ab (w : Z) := if 0 <=? w then w else wrap (- w) in
    if negb (eqb (neg z) (neg gg)) || (ab z <? ab gg) then Some (if neg gg then MinWord else MaxWord) else Some z
  else if gs =? 0 then Some gg
  else
    let? a := shr gg gs in let? b := shr gg (gs - 1) in
    let z := wrap (a + Z.land b 1) in
    if z =? 0 then Some (if eqb (neg (top r)) (neg (top y)) then 1 else -1) else Some z.

(** arb_prec.c 661-739: the loop; [xlow] are the words of x not yet brought down,
    the next one first. *)
Fixpoint div_loop (fuel : nat) (xlow : list Z) (y q r : arbi) (ys yh yl : Z) : option (arbi * arbi) :=
  match fuel with
  | O => None
  | S fuel =>
    match cmpa y r with
    | Gt =>
      match xlow with
      | [] =>
        if negb (eqb (cmp0 r <? 0) (cmp0 y <? 0)) && negb (cmp0 r =? 0)
        then Some (arbi__sub q [1], arbi__add r y) else Some (q, r)
      | xj :: xlow => div_loop fuel xlow y (trim (0 :: q)) (trim (xj :: r)) ys yh yl
      end
    | _ =>
      let? g := guess r y ys yh yl in
      let? t := arbi__mlt [g] y in
      div_loop fuel xlow y (arbi__add q [g]) (arbi__sub r t) ys yh yl
    end
  end.
(** arb_prec.c 611-740 (divmod). *)
Definition divmod (fuel : nat) (x y : arbi) : option (arbi * arbi) :=
  if (length x <? length y)%nat then
    if eqb (cmp0 x <? 0) (cmp0 y <? 0) || (cmp0 x =? 0) then Some ([0], x)
    else Some ([-1], arbi__add x y)
  else
    let? (ys, z) := lead_y y in
    let j := (length x - length y)%nat in
    div_loop fuel (rev (firstn j x)) y [0] (skipn j x) ys (z / 2 ^ 31) (z mod 2 ^ 31).

(** arb_prec.c 742-787 (arbi__div): [Some None] is the error return for a zero divisor. *)
Definition arbi__div (fuel : nat) (x y : arbi) : option (option arbi) :=
  let slow := let? (q, _) := divmod fuel x y in Some (Some q) in
  match y with
  | [wy] =>
    if wy =? 0 then Some None else
    if wy =? 1 then Some (Some x) else
    if wy =? -1 then Some (Some (arbi__neg x)) else
    match x with
    | [wx] =>
      if negb (wx =? MinWord) && negb (wy =? MinWord) then
        if (0 <=? wx) && (0 <=? wy) then (let? a := cdiv wx wy in Some (Some [a])) else
        if (wx <? 0) && (0 <=? wy) then
          (let? m := cmod (- wx) wy in let? a := cdiv (- wx) wy in
           Some (Some [if m =? 0 then - a else - a - 1])) else
        if (0 <=? wx) && (wy <? 0) then
          (let? m := cmod wx (- wy) in let? a := cdiv wx (- wy) in
           Some (Some [if m =? 0 then - a else - a - 1])) else
        (let? a := cdiv (- wx) (- wy) in Some (Some [a]))
      else slow
    | _ => slow
    end
  | _ => slow
  end.
(** arb_prec.c 789-821 (arbi__mod). *)
Definition arbi__mod (fuel : nat) (x y : arbi) : option arbi :=
  let slow := let? (_, r) := divmod fuel x y in Some r in
  match y with
  | [wy] =>
    if wy =? 0 then Some x else
    if (wy =? 1) || (wy =? -1) then Some [0] else
    match x with
    | [wx] =>
      if negb (wx =? MinWord) && negb (wy =? MinWord) then
        if (0 <=? wx) && (0 <=? wy) then (let? a := cmod wx wy in Some [a]) else
        let? m := cmod wx wy in
        if m =? 0 then Some [0] else
        if (wx <? 0) && (0 <=? wy) then (let? a := cmod (- wx) wy in Some [wy - a]) else
        if (0 <=? wx) && (wy <? 0) then (let? a := cmod wx (- wy) in Some [wy + a]) else
        (let? a := cmod (- wx) (- wy) in Some [- a])
      else slow
    | _ => slow
    end
  | _ => slow
  end.

(** Strings are lists of bytes (0-255, the terminating 0 not included).
    arb_prec.c 80-85: c2i_convert; a byte above 127 is a negative char and indexes
    outside the table. *)
Definition c2i (c : Z) : option Z :=
  if (c <? 0) || (127 <? c) then None else
  if (48 <=? c) && (c <=? 57) then Some (c - 48) else
  if (97 <=? c) && (c <=? 122) then Some (c - 97 + 10) else
  if (65 <=? c) && (c <=? 90) then Some (c - 65 + 10) else Some 1000.
(** arb_prec.c 78-79: i2c_convert *)
Definition i2c (d : Z) : Z := if d <? 10 then 48 + d else 97 + (d - 10).

(** arb_prec.c 883-911 (arbi__FromString); [Some None] is a NULL return. *)
Fixpoint from_loop (s : list Z) (base : Z) (x : arbi) : option (option arbi) :=
  match s with
  | [] => Some (Some x)
  | c :: s =>
    let? d := c2i c in
    if base <=? d then Some None else
    let? y := arbi__mlt x [base] in
    from_loop s base (arbi__add y [d])
  end.
Definition arbi__FromString (s : list Z) (base : Z) : option (option arbi) :=
  if (base <? 2) || (36 <? base) then Some None else from_loop s base [0].
(** arb_prec.c 159-167 (Arbi_FromString): arbi__neg reads through its argument. *)
Definition Arbi_FromString (s : list Z) (base : Z) : option (option arbi) :=
  match s with
  | 45 :: s =>
    let? r := arbi__FromString s base in
    match r with None => None | Some x => Some (Some (arbi__neg x)) end
  | _ => arbi__FromString s base
  end.

(** printf "%ld" and "%lx". *)
Fixpoint digits (fuel : nat) (base n : Z) (acc : list Z) : list Z :=
  match fuel with
  | O => acc
  | S fuel => let acc := i2c (n mod base) :: acc in if n / base =? 0 then acc else digits fuel base (n / base) acc
  end.
Definition fmt_ld (w : Z) : list Z := if w <? 0 then 45 :: digits 64 10 (- w) [] else digits 64 10 w [].
Definition fmt_lx (w : Z) : list Z := digits 64 16 (uw w) [].

(** arb_prec.c 943: lgb4 *)
Fixpoint lg_loop (fuel : nat) (b4 l : Z) : option Z :=
  match fuel with
  | O => None
  | S fuel => let? t := shr b4 (l + 1) in if t =? 0 then Some l else lg_loop fuel b4 (l + 1)
  end.
(** arb_prec.c 946: bits of the top word *)
Fixpoint bit_loop (fuel : nat) (w m : Z) : option Z :=
  match fuel with
  | O => None
  | S fuel => let? t := shr w m in if t =? 0 then Some m else bit_loop fuel w (m + 1)
  end.
(** arb_prec.c 953-957: the largest power of the base in a word *)
Fixpoint pow_loop (fuel : nat) (base bb w m : Z) : option (Z * Z) :=
  match fuel with
  | O => None
  | S fuel => let? t := cdiv w base in if t =? bb then pow_loop fuel base w (wrap (w * base)) (m + 1) else Some (bb, m)
  end.
(** arb_prec.c 967-970: the digits of one chunk; [room] is the space left in the
    buffer before the write position. *)
Fixpoint chunk (fuel : nat) (base : Z) (rz : bool) (w : Z) (room : Z) (s : list Z) : option (Z * list Z) :=
  match fuel with
  | O => Some (room, s)
  | S fuel =>
    if rz || negb (w =? 0) then
      if room <=? 0 then None else chunk fuel base rz (w / base) (room - 1) (i2c (w mod base) :: s)
    else Some (room, s)
  end.
(** arb_prec.c 961-972 *)
Fixpoint str_loop (fuel : nat) (base : Z) (bb : Z) (m : nat) (r : arbi) (room : Z) (s : list Z) : option (Z * list Z) :=
  if cmp0 r =? 0 then Some (room, s) else
  match fuel with
  | O => None
  | S fuel =>
    let? (q, a1) := divmod fuel r [bb] in
    let w := nth 0 a1 0 in
    let? (room, s) := chunk m base (negb (cmp0 q =? 0)) w room s in
    str_loop fuel base bb m q room s
  end.
(** arb_prec.c 913-978 (arbi__ToString); [Some None] is a NULL return. *)
Definition arbi__ToString (fuel : nat) (x : arbi) (base : Z) : option (option (list Z)) :=
  let single := (length x =? 1)%nat in
  if single && (base =? 10) then Some (Some (fmt_ld (nth 0 x 0))) else
  if single && (base =? 16) then Some (Some (fmt_lx (nth 0 x 0))) else
  if single && (nth 0 x 0 =? 0) then Some (Some [48]) else
  if (base <? 2) || (36 <? base) then Some None else
  let b4 := base * base * base * base in
  let? lgb4 := lg_loop 64 b4 4 in
  let w := if neg (top x) then wrap (- top x) else top x in
  let? mb := bit_loop 70 w 0 in
  let m := (4 * (mb + 64 * (Z.of_nat (length x) - 1)) + lgb4 - 1) / lgb4 + 1 in
  let m := if neg (top x) then m + 1 else m in
  let? (bb, k) := pow_loop 70 base b4 (wrap (b4 * base)) 4 in
  let? (room, s) := str_loop fuel base bb (Z.to_nat k) (arbi__abs x) (m - 1) [] in
  if neg (top x) then (if room <=? 0 then None else Some (Some (45 :: s))) else Some (Some s).
