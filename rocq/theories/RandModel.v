(* Model of random2 of src/bin/fl/int_ops.c (do_random2, 51-72) and of ipow,
   log2 and random of src/bin/fl/preamble.fl.

   The answers of random() come as a list; they are between 0 and 2^31 - 1.  A
   call gives its result and the rest of the list.  Shifts into the sign bit and
   the subtraction below INT_MIN wrap, as gcc computes them.  The operations on
   arbitrary precision integers are those of Z (C09, C12, C13: / and % round
   down). *)
From Coq Require Import List ZArith Bool.
Import ListNotations.
Local Open Scope Z_scope.

(* the value of an int with 32 bits *)
Definition wrap32 (x : Z) : Z := (x + 2 ^ 31) mod 2 ^ 32 - 2 ^ 31.
(* 1 << n; [None] where C does not define it *)
Definition shl1 (n : Z) : option Z :=
  if (0 <=? n) && (n <? 32) then Some (wrap32 (2 ^ n)) else None.

(* int_ops.c 61-67; [None]: undefined, or the list is too short *)
Fixpoint chunks (rs : list Z) (chunk bits res : Z) : option (Z * list Z) :=
  match rs with
  | [] => None
  | r :: rs =>
      if 31 <? bits then
        chunks rs chunk (bits - 31) (res * chunk + Z.land r (wrap32 (chunk - 1)))
      else
        match shl1 bits with
        | None => None
        | Some s => Some (res * s + Z.land r (wrap32 (s - 1)), rs)
        end
  end.
(* int_ops.c 51-60 *)
Definition random2 (rs : list Z) (bits : Z) : option (Z * list Z) :=
  match shl1 31 with
  | None => None
  | Some chunk => chunks rs chunk bits 0
  end.

(* preamble.fl log2 610: [None] is the failure for numbers that are not
   positive; the fuel is the number of binary digits *)
Fixpoint log_loop (fuel : nat) (n : Z) : option Z :=
  match fuel with
  | O => None
  | S fuel =>
      if n =? 1 then Some 0
      else match log_loop fuel (n / 2) with None => None | Some r => Some (1 + r) end
  end.
Definition log2 (n : Z) : option Z :=
  if n <=? 0 then None else log_loop (Pos.size_nat (Z.to_pos n)) n.

(* preamble.fl ipow 618.  The digits of sprintf "%b" n, reversed, are given by
   [digits]: the last binary digit first; for a digit other than "1" the factor
   is 1. *)
Fixpoint pow_loop (base : Z) (n : nat) : Z :=
  match n with O => 1 | S n => base * pow_loop base n end.
Fixpoint digits (p : positive) : list bool :=
  match p with xH => [true] | xO p => false :: digits p | xI p => true :: digits p end.
Fixpoint square (cur : Z) (ds : list bool) : Z :=
  match ds with
  | [] => 1
  | d :: ds => (if d then cur else 1) * square (cur * cur) ds
  end.
Definition ipow (base n : Z) : option Z :=
  if n <? 0 then None
  else if n =? 0 then Some 1
  else if n <=? 10 then Some (pow_loop base (Z.to_nat n))
  else Some (square base (digits (Z.to_pos n))).

(* preamble.fl random 1028-1045 *)
Inductive ans :=
| Val (v : Z) (rest : list Z)
| Fail
| Undef.  (* as [None] above *)

Fixpoint find_random (fuel : nat) (rs : list Z) (try n_max imax l_n_max : Z) : ans :=
  if try <? n_max / imax * imax then Val (try mod imax) rs
  else
    match fuel with
    | O => Undef
    | S fuel =>
        match random2 rs l_n_max with
        | None => Undef
        | Some (try, rs) => find_random fuel rs try n_max imax l_n_max
        end
    end.

Definition add_min (min : Z) (a : ans) : ans :=
  match a with Val v rs => Val (min + v) rs | a => a end.

Definition random (rs : list Z) (min max : Z) : ans :=
  if min =? max then Val min rs
  else if max <? min then Fail
  else
    let imax := max - min + 1 in
    match log2 imax with
    | None => Fail
    | Some l_imax =>
        match ipow 2 l_imax with
        | None => Fail
        | Some p =>
            if p =? imax then
              match random2 rs l_imax with
              | None => Undef
              | Some (v, rs) => Val (min + v) rs
              end
            else
              match log2 (10000 * imax) with
              | None => Fail
              | Some l_n_max =>
                  match ipow 2 l_n_max with
                  | None => Fail
                  | Some n_max =>
                      match random2 rs l_n_max with
                      | None => Undef
                      | Some (try, rs) =>
                          add_min min (find_random (length rs) rs try n_max imax l_n_max)
                      end
                  end
              end
        end
    end.
