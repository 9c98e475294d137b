(** * Formatted printing and scanning

    Source: src/bin/fl/io.h, [PROCESS_PRINTF_PAT] (16-85); src/bin/fl/io.c,
    [in_range] (319-335), [Sscanf] (337-588), [Printf] (591-888), [prs]
    (1430-1454), [print_list] (1457-1477); src/bin/fl/graph.c, [GET_INT]
    (1752-1760), [Make_Printf_Primitive] (716-740); src/bin/fl/typecheck.c,
    [Printf_arity] (1224-1250); src/lib/strmgr.c, [strtemp], [strappend],
    [charappend] (219-268).

    Texts are lists of character codes, without the terminating zero.  The
    arguments are the forced ones.  An integer is its value; its text is the one
    of [ArbModel.digits] (that [Arbi_ToString] gives this one for values that are
    not negative is part of C14).  A Boolean is the text that [B_Print] writes for
    it.  What is done with the result (stdout, file, failure) is left out. *)

From Coq Require Import String Ascii List Bool Arith ZArith.
From Verif Require Import ArbModel InfModel.
Import ListNotations.
Open Scope list_scope.
Open Scope Z_scope.

Definition text := list Z.
Definition code (c : ascii) : Z := Z.of_nat (nat_of_ascii c).

Inductive value :=
| VInt (z : Z) | VStr (t : text) | VBool (t : text) | VStrs (l : list text).

(** ** The temporary string (strmgr.c) *)
Definition lim : nat := Z.to_nat 130000.   (* STR_BLOCK_SIZE *)

Definition strtemp (s : text) : text := firstn lim s.
Definition strappend (b s : text) : text := b ++ firstn (lim - length b) s.
Definition charappend (b : text) (c : Z) : text :=
  if (lim <? S (length b))%nat then b else b ++ [c].

(** ** Integers *)

(** The text of [v], not negative. *)
Definition num (base v : Z) : text := ArbModel.digits (S (Z.to_nat (Z.log2 v))) base v [].

(** [Arbi_FromString] of a text without a sign; [None] is a NULL pointer. *)
Fixpoint from_str (base x : Z) (s : text) : option Z :=
  match s with
  | [] => Some x
  | c :: s =>
      match c2i c with
      | Some d => if base <=? d then None else from_str base (x * base + d) s
      | None => None
      end
  end.

(** [GET_INT]: a number of more than one word dereferences NULL; the others are
    cut to 32 bits. *)
Definition get_int (z : Z) : option Z :=
  if (- 2 ^ 63 <=? z) && (z <? 2 ^ 63)
  then Some ((z + 2 ^ 31) mod 2 ^ 32 - 2 ^ 31) else None.

(** [size = 10*size + (c - '0')] on ints; [None] is overflow. *)
Definition widen (size d : Z) : option Z :=
  let r := 10 * size + d in
  if (- 2 ^ 31 <=? r) && (r <? 2 ^ 31) then Some r else None.

(** ** Printing *)

(** [prs]; [None]: does not fit. *)
Definition prs (b s : text) (ljust zfill : bool) (size : Z) : option text :=
  let len := Z.of_nat (length s) in
  if (0 <? size) && (size <? len) then None else
  let size := if 0 <? size then size else len in
  let b := if ljust then strappend b s else b in
  let c := if negb ljust && zfill then 48 else 32 in
  let b := Nat.iter (Z.to_nat (size - len)) (fun b => charappend b c) b in
  Some (if ljust then b else strappend b s).

(** [for(s = tmp; s < last; s++)] with [last = rindex(tmp, '1')], on the reversed
    text: up to its first 1 it stays, after that 0 and 1 are exchanged. *)
Definition swap (c : Z) : Z := if c =? 49 then 48 else 49.
Fixpoint flip_rev (l : text) : text :=
  match l with
  | [] => []
  | c :: l => if c =? 49 then c :: map swap l else c :: flip_rev l
  end.
Definition flip (l : text) : text :=
  if existsb (Z.eqb 49) l then rev (flip_rev (rev l)) else l.

(** [pat_b] *)
Definition print_b (b : text) (v : Z) (ljust zfill : bool) (size : Z) : option text :=
  let zfill := if size =? 0 then zfill else true in
  let ljust := if size =? 0 then ljust else false in
  if v <? 0 then
    let b1 := if zfill then b else charappend b 48 in
    match prs b1 (num 2 (- v)) ljust zfill size with
    | None => None
    | Some b2 => Some (firstn (length b) b2 ++ flip (skipn (length b) b2))
    end
  else if negb zfill && negb (v =? 0) then
    let b := charappend b 48 in
    if size =? 1 then None
    else prs b (num 2 v) ljust zfill (if 0 <? size then size - 1 else size)
  else prs b (num 2 v) ljust zfill size.

(** The sign of [pat_o], [pat_x], [pat_d] put into what was appended. *)
Fixpoint minus_sp (l : text) : text :=    (* [l] starts with a space *)
  match l with
  | 32 :: ((32 :: _) as r) => 32 :: minus_sp r
  | _ :: r => 45 :: r
  | [] => []
  end.
Definition minus (l : text) : option text :=
  match l with
  | 48 :: r => Some (45 :: r)
  | 32 :: _ => Some (minus_sp l)
  | _ => None
  end.

Definition print_num (base : Z) (b : text) (v : Z) (ljust zfill : bool) (size : Z) : option text :=
  let neg := v <? 0 in
  let v := Z.abs v in
  if neg && ((size =? 0) || ljust) then
    let b := charappend b 45 in
    if size =? 1 then None
    else prs b (num base v) ljust zfill (if 0 <? size then size - 1 else size)
  else
    match prs b (num base v) ljust zfill size with
    | None => None
    | Some b2 =>
        if neg then
          match minus (skipn (length b) b2) with
          | Some r => Some (firstn (length b) b2 ++ r)
          | None => None
          end
        else Some b2
    end.

(** [print_list]; [sep] is the character to come. *)
Fixpoint print_items (b : text) (sep : Z) (l : list text) (ljust zfill : bool) (size : Z)
  : option text :=
  match l with
  | [] => Some (charappend b 93)
  | s :: l =>
      let b := charappend b sep in
      let b := if sep =? 44 then charappend b 32 else b in
      match prs b s ljust zfill size with
      | None => None
      | Some b => print_items b 44 l ljust zfill size
      end
  end.
Definition print_list (b : text) (l : list text) (ljust zfill : bool) (size : Z) : option text :=
  match l with
  | [] => Some (strappend b [91; 93])
  | _ => print_items b 91 l ljust zfill size
  end.

Inductive out :=
| Done (b : text)
| Failed        (* an argument does not fit *)
| Big           (* a width that is not an int: overflow, or NULL dereferenced *)
| Bad.          (* an argument of another kind or too many, or past the end of the pattern *)

Inductive mode := Plain | Direct (size : Z) (zfill ljust : bool).

Fixpoint printf (s : string) (m : mode) (args : list value) (b : text) : out :=
  match s with
  | EmptyString => match m with Plain => Done b | _ => Bad end
  | String c s =>
      match m with
      | Plain =>
          if Ascii.eqb c "%"%char then printf s (Direct 0 false false) args b
          else printf s Plain args (charappend b (code c))
      | Direct size zfill ljust =>
          let put v (r : option text) :=
            match r with Some b => printf s Plain v b | None => Failed end in
          let int f :=
            match args with VInt z :: args => put args (f z) | _ => Bad end in
          match c with
          | "0" =>
              match widen size 0 with
              | Some w => printf s (Direct w (if (size =? 0)%Z then true else zfill) ljust) args b
              | None => Big
              end
          | "1" | "2" | "3" | "4" | "5" | "6" | "7" | "8" | "9" =>
              match widen size (code c - 48) with
              | Some w => printf s (Direct w zfill ljust) args b
              | None => Big
              end
          | "-" => printf s (Direct size zfill true) args b
          | "*" =>
              match args with
              | VInt z :: args =>
                  match get_int z with
                  | Some w => printf s (Direct w zfill ljust) args b
                  | None => Big
                  end
              | _ => Bad
              end
          | "%" => printf s Plain args (charappend b 37)
          | "b" => int (fun z => print_b b z ljust zfill size)
          | "o" => int (fun z => print_num 8 b z ljust zfill size)
          | "x" => int (fun z => print_num 16 b z ljust zfill size)
          | "d" => int (fun z => print_num 10 b z ljust zfill size)
          | "s" => match args with VStr t :: args => put args (prs b t ljust zfill size) | _ => Bad end
          | "B" => match args with VBool t :: args => put args (prs b t ljust zfill size) | _ => Bad end
          | "S" => match args with VStrs l :: args => put args (print_list b l ljust zfill size) | _ => Bad end
          | _ => printf s Plain args b
          end%char
      end
  end.

Definition Sprintf (pat : string) (args : list value) : out := printf pat Plain args (strtemp []).

(** [Printf_arity], and the first pass of [Printf]. *)
Fixpoint arity (dir : bool) (s : string) : nat :=
  match s with
  | EmptyString => 0
  | String c s =>
      if dir then
        match c with
        | "0" | "1" | "2" | "3" | "4" | "5" | "6" | "7" | "8" | "9" | "-" => arity true s
        | "*" => S (arity true s)
        | "b" | "o" | "x" | "d" | "s" | "B" | "S" => S (arity false s)
        | _ => arity false s
        end%char
      else arity (Ascii.eqb c "%"%char) s
  end.

(** [printf pat] is made into [print pat] when there are no arguments
    ([Make_Printf_Primitive]). *)
Definition Printf (pat : string) (args : list value) : out :=
  if (arity false pat =? 0)%nat then Done (map code (list_ascii_of_string pat))
  else Sprintf pat args.

(** ** Scanning *)

Definition in_range (c max : Z) : bool :=
  if max <? 10 then (0 <=? c - 48) && (c - 48 <=? max)
  else ((0 <=? c - 48) && (c - 48 <=? 10)) || ((0 <=? c - 97) && (c - 97 <=? 6))
       || ((0 <=? c - 65) && (c - 65 <=? 6)).

Definition isspace (c : Z) : bool := (c =? 32) || ((9 <=? c) && (c <=? 13)).

Fixpoint span (max size : Z) (inp : text) : text * text :=
  match inp with
  | [] => ([], [])
  | c :: r =>
      if (0 <? size) && in_range c max
      then let '(x, y) := span max (size - 1) r in (c :: x, y)
      else ([], inp)
  end.

(** [pat_b], [pat_o], [pat_x], [pat_d]; [None] is a number that is NULL. *)
Definition scan_num (base size : Z) (inp : text) : option (Z * text) :=
  let size := if size =? 0 then Z.of_nat (length inp) else size in
  let '(neg, inp) := match inp with 45 :: r => (true, r) | _ => (false, inp) end in
  let '(ds, rest) := span (base - 1) size inp in
  match from_str base 0 ds with
  | Some v => Some (if neg then - v else v, rest)
  | None => None
  end.

(** [pat_s]; [None] reads past the terminating zero. *)
Fixpoint word (size : Z) (inp : text) : option (text * text) :=
  match inp with
  | [] => if 0 <? size then None else Some ([], [])
  | c :: r =>
      if (0 <? size) && negb (isspace c)
      then match word (size - 1) r with Some (x, y) => Some (c :: x, y) | None => None end
      else Some ([], inp)
  end.
Definition scan_str (size : Z) (inp : text) : option (text * text) :=
  word (if size =? 0 then Z.of_nat (length inp) else size) inp.

Inductive sout :=
| Found (l : list value)    (* the tuple that is delivered *)
| Mismatch
| Unsupported               (* %B or %S *)
| Past                      (* reads past the end of the input *)
| Null                      (* a number that is a NULL pointer *)
| SBig | SBad.

(** [dir] is the width while inside a directive. *)
Fixpoint sscanf (s : string) (dir : option Z) (args : list value) (inp : text) : sout :=
  match s with
  | EmptyString => match dir with None => Found [] | Some _ => SBad end
  | String c s =>
      match dir with
      | None =>
          if Ascii.eqb c "%"%char then sscanf s (Some 0) args inp
          else match inp with
               | x :: inp => if x =? code c then sscanf s None args inp else Mismatch
               | [] => Mismatch
               end
      | Some size =>
          let deliver v inp :=
            match sscanf s None args inp with Found l => Found (v :: l) | o => o end in
          let int base :=
            match scan_num base size inp with Some (z, inp) => deliver (VInt z) inp | None => Null end in
          match c with
          | "0" | "1" | "2" | "3" | "4" | "5" | "6" | "7" | "8" | "9" =>
              match widen size (code c - 48) with
              | Some w => sscanf s (Some w) args inp
              | None => SBig
              end
          | "-" => sscanf s (Some size) args inp
          | "*" =>
              match args with
              | VInt z :: args =>
                  match get_int z with Some w => sscanf s (Some w) args inp | None => SBig end
              | _ => SBad
              end
          | "%" =>
              match inp with
              | x :: inp => if (x =? 37)%Z then sscanf s None args inp else Mismatch
              | [] => Mismatch
              end
          | "b" => int 2
          | "o" => int 8
          | "x" => int 16
          | "d" => int 10
          | "s" => match scan_str size inp with
                   | Some (t, inp) => deliver (VStr t) inp
                   | None => Past
                   end
          | "B" | "S" => Unsupported
          | _ => sscanf s None args inp
          end%char
      end
  end.

Definition Sscanf (pat : string) (input : text) (args : list value) : sout :=
  sscanf pat None args (strtemp input).
