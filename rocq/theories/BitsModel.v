(* Bits needed for a number, powers of two above it, and ranges of integers.
   Sources: /repo/src/bin/fl/preamble.fl 195-214 (upto, downto, --),
   2535-2545 (sbits_needed), 2548-2555 (ubits_needed), 2566-2571
   (nearest_power_of_2).
   Simplifications: integers are Z; [None] is the failure of eprintf, or of the
   log2 and ** called. *)
From Coq Require Import List ZArith.
From Verif Require Import RandModel.
Import ListNotations.
Local Open Scope Z_scope.

(* preamble.fl sbits_needed 2537-2545 *)
Definition sbits_needed (n : Z) : option Z :=
  if n =? 0 then Some 1
  else if 0 <? n then
    match log2 n with
    | None => None
    | Some r =>
        match ipow 2 r with
        | None => None
        | Some p => Some (if p <=? n then r + 2 else r + 1)
        end
    end
  else
    let n := -1 * n in
    match log2 n with
    | None => None
    | Some r =>
        match ipow 2 r with
        | None => None
        | Some p => Some (if p <? n then r + 2 else r + 1)
        end
    end.

(* preamble.fl ubits_needed 2550-2555 *)
Definition ubits_needed (n : Z) : option Z :=
  if n <? 0 then None
  else if n =? 0 then Some 1
  else
    match log2 n with
    | None => None
    | Some r =>
        match ipow 2 r with
        | None => None
        | Some p => Some (if p <=? n then r + 1 else r)
        end
    end.

(* preamble.fl nearest_power_of_2 2568-2571 *)
Definition nearest_power_of_2 (n : Z) : option Z :=
  match log2 n with
  | None => None
  | Some l =>
      match ipow 2 l with
      | None => None
      | Some p => if p =? n then Some n else ipow 2 (l + 1)
      end
  end.

(* preamble.fl upto 195, downto 202: the fuel is the number of items; [None]
   would be a list that does not end. *)
Fixpoint gen_up (fuel : nat) (i t : Z) : option (list Z) :=
  if t <? i then Some []
  else
    match fuel with
    | O => None
    | S fuel => match gen_up fuel (i + 1) t with None => None | Some l => Some (i :: l) end
    end.
Definition upto (f t : Z) : option (list Z) := gen_up (Z.to_nat (t - f + 1)) f t.
Fixpoint gen_down (fuel : nat) (i t : Z) : option (list Z) :=
  if i <? t then Some []
  else
    match fuel with
    | O => None
    | S fuel => match gen_down fuel (i - 1) t with None => None | Some l => Some (i :: l) end
    end.
Definition downto (f t : Z) : option (list Z) := gen_down (Z.to_nat (f - t + 1)) f t.

(* preamble.fl -- 211 *)
Definition range (f t : Z) : option (list Z) := if f <? t then upto f t else downto f t.
