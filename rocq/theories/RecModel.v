(* Model of the record manager of src/lib/rec.c (and include/rec.h).

   A record is addressed by its block and its index in the block (REC_ADDR).
   The blocks form a chain, the last block first; [r_mem] is the first word of
   each record, where the free list is threaded.  malloc is not modelled: the
   address of a new block is an argument.  Simplifications: alignment and record
   sizes do not appear, records do not overlap by construction. *)
From Coq Require Import List Arith Bool.
Import ListNotations.

Definition rptr := (nat * nat)%type.      (* block, index *)
Definition rptr_eqb (a b : rptr) : bool := Nat.eqb (fst a) (fst b) && Nat.eqb (snd a) (snd b).

Record rmgr := mkR {
  r_blocks : list nat;                    (* last_blk and its BACK_BLK_PTRs *)
  r_free : option rptr;
  r_alloc : nat;
  r_live : nat;
  r_pure : bool;
  r_mem : rptr -> option rptr }.

(* aligned_new_mgr 11-38 *)
Definition new_mgr (blk : nat) : rmgr := mkR [blk] None 0 0 true (fun _ => None).

(* new_rec 60-90; [None] cannot happen but for an empty chain of blocks *)
Definition new_rec (capacity : nat) (m : rmgr) (new_blk : nat) : option (rptr * rmgr) :=
  match r_free m with
  | Some p =>
      Some (p, mkR (r_blocks m) (r_mem m p) (r_alloc m) (S (r_live m)) (r_pure m) (r_mem m))
  | None =>
      match r_blocks m with
      | [] => None
      | last :: _ =>
          if Nat.ltb (r_alloc m) capacity then
            Some ((last, r_alloc m),
                  mkR (r_blocks m) None (S (r_alloc m)) (S (r_live m)) (r_pure m) (r_mem m))
          else
            Some ((new_blk, 0),
                  mkR (new_blk :: r_blocks m) None 1 (S (r_live m)) (r_pure m) (r_mem m))
      end
  end.

(* free_rec 105-134; [None]: an ASSERT fails *)
Definition free_rec (capacity : nat) (m : rmgr) (r : rptr) : option rmgr :=
  match r_alloc m, r_live m, r_blocks m with
  | S a, S live, last :: back =>
      if rptr_eqb r (last, a) then
        match a, back with
        | 0, [] => Some (mkR [last] (r_free m) 0 live (r_pure m) (r_mem m))
        | 0, _ => Some (mkR back (r_free m) capacity live (r_pure m) (r_mem m))
        | _, _ => Some (mkR (last :: back) (r_free m) a live (r_pure m) (r_mem m))
        end
      else
        Some (mkR (r_blocks m) (Some r) (r_alloc m) live false
                  (fun p => if rptr_eqb p r then r_free m else r_mem m p))
  | _, _, _ => None
  end.

(* The owner of a record may write anything into it. *)
Definition write_rec (m : rmgr) (r : rptr) (w : option rptr) : rmgr :=
  mkR (r_blocks m) (r_free m) (r_alloc m) (r_live m) (r_pure m)
      (fun p => if rptr_eqb p r then w else r_mem m p).

(* rec_element 150-166 on the chain of blocks, first block first *)
Definition rec_element (capacity : nat) (m : rmgr) (i : nat) : option rptr :=
  let k := i / capacity in
  match nth_error (rev (r_blocks m)) k with
  | None => None
  | Some b =>
      if Nat.eqb (S k) (length (r_blocks m)) && Nat.leb (r_alloc m) (i mod capacity)
      then None
      else Some (b, i mod capacity)
  end.

Inductive rop :=
| RNew (blk : nat)              (* [blk]: what malloc would return *)
| RFree (r : rptr)
| RWrite (r : rptr) (w : option rptr).

(* Histories, with the records that have been handed out and not freed. *)
Inductive rstep (capacity : nat) : rop -> rmgr * list rptr -> rmgr * list rptr -> Prop :=
| step_new blk m live p m' :
    new_rec capacity m blk = Some (p, m') ->
    rstep capacity (RNew blk) (m, live) (m', p :: live)
| step_free r m live m' :
    free_rec capacity m r = Some m' ->
    rstep capacity (RFree r) (m, live) (m', filter (fun q => negb (rptr_eqb q r)) live)
| step_write r w m live :
    rstep capacity (RWrite r w) (m, live) (write_rec m r w, live).

(* Proper use: only records that are out are freed or written to, and malloc
   does not return a block that is in use. *)
Definition allowed_r (o : rop) (x : rmgr * list rptr) : Prop :=
  match o with
  | RNew blk => ~ In blk (r_blocks (fst x))
  | RFree r => In r (snd x)
  | RWrite r _ => In r (snd x)
  end.

Inductive rrun (capacity : nat) : rmgr * list rptr -> list rop -> rmgr * list rptr -> Prop :=
| run_nil x : rrun capacity x [] x
| run_cons x o y l z : allowed_r o x -> rstep capacity o x y ->
    rrun capacity y l z -> rrun capacity x (o :: l) z.
