(* Model of string interning: wastrsave (src/bin/fl/symbol_tbl.c 37-47) on top of
   Strsave and WAstrsave (src/lib/strmgr.c 56-92), str_hash and str_equ
   (src/lib/hash.c 129-153).

   The memory of the string manager is one list of bytes; its blocks of
   STR_BLOCK_SIZE+1 bytes follow each other (they come from a record manager
   and are never freed).  A string pointer is the offset plus one, so that 0 is
   NULL.  The proofs need of str_hash only that it stays below the size. *)
From Coq Require Import List Arith NArith Bool.
From Verif Require Import HashModel.
Import ListNotations.

Definition byte := N.

(* str_hash, hash.c 129-145: unint is 32 bits, char is signed *)
Definition w32 (n : N) : N := N.land n 4294967295.
Definition sx (c : byte) : N := (if c <? 128 then c else c + 4294967040)%N.
Fixpoint hash_loop (s : list byte) (h : N) : N :=
  match s with
  | [] => h
  | c :: s =>
      let h := w32 (h + sx c) in
      let h := w32 (h + N.shiftl h 10) in
      hash_loop s (N.lxor h (N.shiftr h 6))
  end.
Definition str_hash_c (s : list byte) (size : N) : N :=
  let h := hash_loop s 0 in
  let h := w32 (h + N.shiftl h 3) in
  let h := N.lxor h (N.shiftr h 11) in
  (w32 (h + N.shiftl h 15) mod size)%N.

Section Str.
Variable B : nat.                       (* STR_BLOCK_SIZE *)

Record smgr := mkS {
  s_mem : list byte;
  s_cur : nat;                          (* offset of the current block *)
  s_used : nat }.

(* bcopy of the characters and the terminating zero *)
Definition write_str (mem : list byte) (o : nat) (s : list byte) : list byte :=
  firstn o mem ++ s ++ [0%N] ++ skipn (o + length s + 1) mem.

(* Strsave; [garbage] is what a new block contains.  The result is [None] if a
   byte outside the current block would be written. *)
Definition Strsave (garbage : nat -> byte) (m : smgr) (s : list byte)
  : option (N * smgr) :=
  let s := firstn B s in                                    (* 63-66 *)
  let m := if Nat.leb B (s_used m + length s)               (* 67-71 *)
           then mkS (s_mem m ++ map garbage (seq 0 (B + 1))) (length (s_mem m)) 0
           else m in
  let o := s_cur m + s_used m in
  if Nat.ltb B (s_used m + length s) then None else
  Some (N.of_nat (o + 1),
        mkS (write_str (s_mem m) o s) (s_cur m) (s_used m + length s + 1)).

(* WAstrsave *)
Definition WAstrsave (garbage : nat -> byte) (m : smgr) (s : list byte)
  : option (N * smgr) :=
  match Strsave garbage m s with
  | None => None
  | Some (p, m) =>
      let r := Nat.modulo (s_used m) 4 in
      Some (p, mkS (s_mem m) (s_cur m) (s_used m + (if Nat.ltb 0 r then 4 - r else 0)))
  end.

(* The string at a pointer. *)
Fixpoint until0 (l : list byte) : list byte :=
  match l with
  | [] => []
  | c :: l => if (c =? 0)%N then [] else c :: until0 l
  end.
Definition read_str (mem : list byte) (p : N) : list byte :=
  until0 (skipn (N.to_nat p - 1) mem).

(* A key of string_tbl: the string that is looked for is somewhere else, the
   keys in the table are in the memory of the manager. *)
Inductive skey := KExt (s : list byte) | KMem (p : N).
Definition chars (mem : list byte) (k : skey) : list byte :=
  match k with KExt s => s | KMem p => read_str mem p end.

Variable str_hash : list byte -> N -> N.
Definition shash (mem : list byte) (k : skey) (n : N) : N := str_hash (chars mem k) n.
Definition seq_eqb (mem : list byte) (k1 k2 : skey) : bool :=
  if list_eq_dec N.eq_dec (chars mem k1) (chars mem k2) then true else false.

Definition istate := (smgr * htab skey)%type.

(* new_strmgr and Init_symb_tbl *)
Definition init_symb (garbage : nat -> byte) : option istate :=
  match create_hash 10000%N with
  | None => None
  | Some t => Some (mkS (map garbage (seq 0 (B + 1))) 0 0, t)
  end.

(* wastrsave *)
Definition wastrsave (garbage : nat -> byte) (x : istate) (s : list byte)
  : option (N * istate) :=
  let (m, t) := x in
  match find_hash (shash (s_mem m)) (seq_eqb (s_mem m)) t (KExt s) with
  | None => None
  | Some p =>
      if (p =? 0)%N then
        match WAstrsave garbage m s with
        | None => None
        | Some (p, m) =>
            match insert_hash (shash (s_mem m)) t (KMem p) p with
            | None => None
            | Some t => Some (p, (m, t))
            end
        end
      else Some (p, (m, t))
  end.

Fixpoint wrun (garbage : nat -> byte) (l : list (list byte)) (x : istate)
  : option (list N * istate) :=
  match l with
  | [] => Some ([], x)
  | s :: l =>
      match wastrsave garbage x s with
      | None => None
      | Some (p, x) =>
          match wrun garbage l x with
          | None => None
          | Some (ps, x) => Some (p :: ps, x)
          end
      end
  end.

(* C strings: no zero byte inside *)
Definition cstring (s : list byte) : Prop := Forall (fun c => c <> 0%N) s.
End Str.
