(* Model of the list functions of src/bin/fl/list_ops.c.

   A graph node is a word (its address, 0 is NULL).  The contents of the nodes
   enter only through the parameters: [hf], [he] are the hash function and the
   equality used for nodes (G_rec_hash / G_rec_equ or Graph_hash / Graph_equ),
   [hd_of], [tl_of] the components of a pair.  The hash tables are those of
   HashModel.v.  Reference counts and the storage of the result cells are not
   represented: a result is the list of the elements of the result cells. *)
From Coq Require Import List NArith ZArith Bool.
From Verif Require Import HashModel.
Import ListNotations.
Local Open Scope N_scope.

(* A list whose spine may still be unevaluated: evaluating a tail can give a
   failure instead of a list. *)
Inductive llist := LNil | LFail | LCons (e : N) (l : llist).
Fixpoint lof (l : list N) : llist :=
  match l with [] => LNil | e :: l => LCons e (lof l) end.

(* Result of a function: a value, a failure (MAKE_REDEX_FAILURE), or following a
   null pointer / undefined behaviour of C. *)
Inductive res (A : Type) := Ok (a : A) | Fail | Undef.
Arguments Ok {A}. Arguments Fail {A}. Arguments Undef {A}.

Section Lookup.
Variable hf : N -> N -> N.
Variable he : N -> N -> bool.

(* assoc_tbl_rec *)
Record atp := mkA { a_tbl : htab N; a_next : llist }.

(* assoc 256-300, rev_assoc 303-347 and mem 487-530 are three copies of the same
   code; [kf] is the key of an entry (GET_CONS_HD, GET_CONS_TL, the entry), [vf]
   what is stored for it (GET_CONS_TL, GET_CONS_HD, INT2PTR(1)).  [LFail] cannot
   be met: the arguments are evaluated in full (strictness "11"). *)
Section Assoc.
Variables kf vf : N -> N.
Fixpoint assoc_loop (key : N) (t : htab N) (cur : llist) : option (res N * atp) :=
  match cur with
  | LNil => Some (Fail, mkA t LNil)
  | LFail => None
  | LCons e cur' =>
      match find_hash hf he t (kf e) with
      | None => None
      | Some d =>
          match (if d =? 0 then insert_hash hf t (kf e) (vf e) else Some t) with
          | None => None
          | Some t => if he key (kf e) then Some (Ok (vf e), mkA t cur')
                      else assoc_loop key t cur'
          end
      end
  end.
Definition assoc_q (key : N) (a : atp) : option (res N * atp) :=
  match find_hash hf he (a_tbl a) key with
  | None => None
  | Some d => if d =? 0 then assoc_loop key (a_tbl a) (a_next a) else Some (Ok d, a)
  end.
End Assoc.

(* int_hash, int_equ: hash.c 171-180 *)
Definition int_hash (k n : N) : N := k mod n.

(* el 350-409.  The tail is evaluated (traverse_left) before the entry is
   recorded; if that fails el fails. *)
Fixpoint el_loop (idx : N) (t : htab N) (last_idx : N) (cur : llist)
  : option (res N * atp) :=
  match cur with
  | LNil => Some (Fail, mkA t LNil)
  | LFail => None
  | LCons e cur' =>
      match cur' with
      | LFail => Some (Fail, mkA t cur)
      | _ =>
          match insert_hash int_hash t (last_idx + 1) e with
          | None => None
          | Some t => if last_idx + 1 =? idx then Some (Ok e, mkA t cur')
                      else el_loop idx t (last_idx + 1) cur'
          end
      end
  end.
Definition el_q (idx : N) (a : atp) : option (res N * atp) :=
  match find_hash int_hash N.eqb (a_tbl a) idx with
  | None => None
  | Some d => if d =? 0 then el_loop idx (a_tbl a) (h_elems (a_tbl a)) (a_next a)
              else Some (Ok d, a)
  end.

(* assoc_tbls, rev_assoc_tbls, mem_tbls, el_tbls: from the address of a list to
   its table.  Hash tables on addresses; here association lists (see C32). *)
Record tbls := mkT {
  t_assoc : list (N * atp); t_rev : list (N * atp);
  t_mem : list (N * atp); t_el : list (N * atp) }.
Definition tbls0 := mkT [] [] [] [].

Fixpoint get_tbl (p : N) (m : list (N * atp)) : option atp :=
  match m with
  | [] => None
  | (q, a) :: m => if p =? q then Some a else get_tbl p m
  end.
Fixpoint put_tbl (p : N) (a : atp) (m : list (N * atp)) : list (N * atp) :=
  match m with
  | [] => [(p, a)]
  | (q, b) :: m => if p =? q then (q, a) :: m else (q, b) :: put_tbl p a m
  end.
Fixpoint del_tbl (p : N) (m : list (N * atp)) : list (N * atp) :=
  match m with
  | [] => []
  | (q, b) :: m => if p =? q then del_tbl p m else (q, b) :: del_tbl p m
  end.

(* The beginning of each function: find the table of the list, or make one. *)
Definition lookup_in (q : atp -> option (res N * atp)) (p : N) (l : llist)
    (m : list (N * atp)) : option (res N * list (N * atp)) :=
  match (match get_tbl p m with
         | Some a => Some a
         | None => option_map (fun t => mkA t l) (create_hash 100)
         end) with
  | None => None
  | Some a =>
      match q a with
      | None => None
      | Some (r, a) => Some (r, put_tbl p a m)
      end
  end.

Variables hd_of tl_of : N -> N.

(* Histories: look-ups on the list at address p, and a garbage collection that
   finds the list at p dead (List_GC 56-87), after which the address is reused
   for another list. *)
Inductive lop :=
| QAssoc (p k : N) | QRev (p k : N) | QMem (p k : N) | QEl (p : N) (i : Z)
| QReuse (p : N) (l : llist).

Definition heap := N -> llist.
Definition hset (h : heap) (p : N) (l : llist) : heap :=
  fun q => if q =? p then l else h q.

Definition lstep (o : lop) (h : heap) (s : tbls) : option (list (res N) * heap * tbls) :=
  match o with
  | QAssoc p k =>
      match lookup_in (assoc_q hd_of tl_of k) p (h p) (t_assoc s) with
      | None => None
      | Some (r, m) => Some ([r], h, mkT m (t_rev s) (t_mem s) (t_el s))
      end
  | QRev p k =>
      match lookup_in (assoc_q tl_of hd_of k) p (h p) (t_rev s) with
      | None => None
      | Some (r, m) => Some ([r], h, mkT (t_assoc s) m (t_mem s) (t_el s))
      end
  | QMem p k =>
      match lookup_in (assoc_q (fun e => e) (fun _ => 1) k) p (h p) (t_mem s) with
      | None => None
      | Some (r, m) =>
          Some ([match r with Ok _ => Ok 1 | _ => Ok 0 end], h,
                mkT (t_assoc s) (t_rev s) m (t_el s))
      end
  | QEl p i =>
      if (i <=? 0)%Z then Some ([Fail], h, s)
      else
        match lookup_in (el_q (Z.to_N i)) p (h p) (t_el s) with
        | None => None
        | Some (r, m) => Some ([r], h, mkT (t_assoc s) (t_rev s) (t_mem s) m)
        end
  | QReuse p l =>
      Some ([], hset h p l,
            mkT (del_tbl p (t_assoc s)) (del_tbl p (t_rev s))
                (del_tbl p (t_mem s)) (del_tbl p (t_el s)))
  end.
Fixpoint lrun (l : list lop) (h : heap) (s : tbls) : option (list (res N)) :=
  match l with
  | [] => Some []
  | o :: l =>
      match lstep o h s with
      | None => None
      | Some (r, h, s) =>
          match lrun l h s with None => None | Some rs => Some (r ++ rs) end
      end
  end.

(* Specification: scan the list. *)
Fixpoint scan (kf vf : N -> N) (key : N) (l : llist) : res N :=
  match l with
  | LCons e l => if he key (kf e) then Ok (vf e) else scan kf vf key l
  | _ => Fail
  end.
(* The element at position i (from 1); the list after it must not be a failure. *)
Fixpoint sp_el (i : nat) (l : llist) : res N :=
  match l, i with
  | LCons e LFail, _ => Fail
  | LCons e _, 1%nat => Ok e
  | LCons _ l, S i => sp_el i l
  | _, _ => Fail
  end.
Definition sp_lop (o : lop) (h : heap) : list (res N) * heap :=
  match o with
  | QAssoc p k => ([scan hd_of tl_of k (h p)], h)
  | QRev p k => ([scan tl_of hd_of k (h p)], h)
  | QMem p k =>
      ([match scan (fun e => e) (fun e => e) k (h p) with Ok _ => Ok 1 | _ => Ok 0 end], h)
  | QEl p i => ([if (i <=? 0)%Z then Fail else sp_el (Z.to_nat i) (h p)], h)
  | QReuse p l => ([], hset h p l)
  end.
Fixpoint sp_lrun (l : list lop) (h : heap) : list (res N) :=
  match l with
  | [] => []
  | o :: l => let (r, h) := sp_lop o h in r ++ sp_lrun l h
  end.

(* ---------------------------------------------------------------------- *)
(* The set functions. *)

(* One pass of setify 577-601 and of the loops of my_union 1176-1193: the
   elements appended to the result, and the table. *)
Fixpoint collect (t : htab N) (l : list N) : option (list N * htab N) :=
  match l with
  | [] => Some ([], t)
  | e :: l =>
      match find_hash hf he t e with
      | None => None
      | Some d =>
          if d =? 0 then
            match insert_hash hf t e e with
            | None => None
            | Some t =>
                match collect t l with
                | None => None
                | Some (r, t) => Some (e :: r, t)
                end
            end
          else collect t l
      end
  end.
(* setify 577 *)
Definition setify (l : list N) : option (list N) :=
  match create_hash 100 with
  | None => None
  | Some t => match collect t l with None => None | Some (r, _) => Some r end
  end.
(* my_union 1159 *)
Definition my_union (l1 l2 : list N) : option (list N) :=
  match l1, l2 with
  | [], _ => Some l2
  | _, [] => Some l1
  | _, _ =>
      match create_hash 100 with
      | None => None
      | Some t =>
          match collect t l1 with
          | None => None
          | Some (r1, t) =>
              match collect t l2 with
              | None => None
              | Some (r2, _) => Some (r1 ++ r2)
              end
          end
      end
  end.
(* The loops that enter a list in a table (1211, 1252, 1290). *)
Definition fill (t : htab N) (l : list N) : option (htab N) :=
  match collect t l with None => None | Some (_, t) => Some t end.

(* intersect 1219-1233; leaving the loop as soon as the table is empty *)
Fixpoint inter_loop (t : htab N) (l : list N) : option (list N) :=
  match l with
  | [] => Some []
  | e :: l =>
      match find_hash hf he t e with
      | None => None
      | Some d =>
          if d =? 0 then inter_loop t l
          else
            match delete_hash hf he t e with
            | None => None
            | Some t =>
                if h_elems t =? 0 then Some [e]
                else match inter_loop t l with None => None | Some r => Some (e :: r) end
            end
      end
  end.
(* intersect 1197 *)
Definition intersect (l1 l2 : list N) : option (list N) :=
  match l1, l2 with
  | [], _ | _, [] => Some []
  | _, _ =>
      match create_hash 100 with
      | None => None
      | Some t =>
          match fill t l2 with
          | None => None
          | Some t => inter_loop t l1
          end
      end
  end.
(* overlap 1261-1268 *)
Fixpoint over_loop (t : htab N) (l : list N) : option bool :=
  match l with
  | [] => Some false
  | e :: l =>
      match find_hash hf he t e with
      | None => None
      | Some d => if d =? 0 then over_loop t l else Some true
      end
  end.
(* overlap 1237 *)
Definition overlap (l1 l2 : list N) : option bool :=
  match l1, l2 with
  | [], _ | _, [] => Some false
  | _, _ =>
      match create_hash 100 with
      | None => None
      | Some t =>
          match fill t l1 with
          | None => None
          | Some t => over_loop t l2
          end
      end
  end.
(* subtract 1301-1308 *)
Fixpoint sub_loop (t : htab N) (l : list N) : option (list N) :=
  match l with
  | [] => Some []
  | e :: l =>
      match find_hash hf he t e with
      | None => None
      | Some d =>
          match sub_loop t l with
          | None => None
          | Some r => Some (if d =? 0 then e :: r else r)
          end
      end
  end.
(* subtract 1277 *)
Definition subtract (l1 l2 : list N) : option (list N) :=
  match l1, l2 with
  | [], _ | _, [] => Some l1
  | _, _ =>
      match create_hash 100 with
      | None => None
      | Some t =>
          match fill t l2 with
          | None => None
          | Some t => sub_loop t l1
          end
      end
  end.
(* set_eq 1327-1342: [Some None] is the failure on a duplicate *)
Fixpoint fill_distinct (t : htab N) (l : list N) : option (option (htab N)) :=
  match l with
  | [] => Some (Some t)
  | e :: l =>
      match find_hash hf he t e with
      | None => None
      | Some d =>
          if d =? 0 then
            match insert_hash hf t e e with
            | None => None
            | Some t => fill_distinct t l
            end
          else Some None
      end
  end.
(* set_eq 1346-1366: [Ok false] on an element that is not in the first table *)
Fixpoint check_distinct (t1 t2 : htab N) (l : list N) : option (res bool) :=
  match l with
  | [] => Some (Ok true)
  | e :: l =>
      match find_hash hf he t1 e with
      | None => None
      | Some d1 =>
          if d1 =? 0 then Some (Ok false)
          else
            match find_hash hf he t2 e with
            | None => None
            | Some d2 =>
                if d2 =? 0 then
                  match insert_hash hf t2 e e with
                  | None => None
                  | Some t2 => check_distinct t1 t2 l
                  end
                else Some Fail
            end
      end
  end.
(* set_eq 1312 *)
Definition set_eq (l1 l2 : list N) : option (res bool) :=
  match l1, l2 with
  | [], [] => Some (Ok true)
  | [], _ | _, [] => Some (Ok false)
  | _, _ =>
      match create_hash 100 with
      | None => None
      | Some t =>
          match fill_distinct t l1 with
          | None => None
          | Some None => Some Fail
          | Some (Some t1) =>
              match check_distinct t1 t l2 with
              | None => None
              | Some (Ok true) => Some (Ok (Nat.eqb (length l1) (length l2)))
              | Some r => Some r
              end
          end
      end
  end.

(* Specification of the set functions. *)
Definition elem (x : N) (l : list N) : bool := existsb (he x) l.
(* the first occurrences *)
Fixpoint nub (l : list N) : list N :=
  match l with
  | [] => []
  | x :: l => x :: filter (fun y => negb (he x y)) (nub l)
  end.
Fixpoint distinct (l : list N) : Prop :=
  match l with
  | [] => True
  | x :: l => elem x l = false /\ distinct l
  end.
End Lookup.

(* ---------------------------------------------------------------------- *)
(* Segments. *)

(* GET_INT, graph.c 1753, with Arbi_ToInt, arb_prec.c 111: a number of more than
   one word gives NULL, which is followed; a word is cut to an int. *)
Definition wrap32 (z : Z) : Z := ((z + 2147483648) mod 4294967296 - 2147483648)%Z.
Definition get_int (z : Z) : res Z :=
  if ((-9223372036854775808 <=? z) && (z <=? 9223372036854775807))%Z
  then Ok (wrap32 z) else Undef.

Section Seg.
Local Open Scope Z_scope.

(* firstn 744 *)
Fixpoint firstn_loop (i cnt : Z) (l : llist) : res (list N) :=
  if i <? cnt then
    match l with
    | LNil => Fail
    | LFail => Fail          (* not a list: only after traverse_left, see below *)
    | LCons e l =>
        match l with
        | LFail => Fail
        | _ => match firstn_loop (i + 1) cnt l with
               | Ok r => Ok (e :: r)
               | Fail => Fail
               | Undef => Undef
               end
        end
    end
  else Ok [].
Definition c_firstn (n : Z) (l : llist) : res (list N) :=
  match get_int n with Ok cnt => firstn_loop 0 cnt l | Fail => Fail | Undef => Undef end.

(* butfirstn 631 *)
Fixpoint butfirstn_loop (i cnt : Z) (l : llist) : res llist :=
  if i <? cnt then
    match l with
    | LNil => Fail
    | LFail => Fail
    | LCons e l => match l with LFail => Fail | _ => butfirstn_loop (i + 1) cnt l end
    end
  else Ok l.
Definition c_butfirstn (n : Z) (l : llist) : res llist :=
  match get_int n with Ok cnt => butfirstn_loop 0 cnt l | Fail => Fail | Undef => Undef end.

(* lastn 669: the second loop; GET_CONS_TL of NIL is NULL, which is followed
   either in the next round or by OVERWRITE *)
Fixpoint drop_loop (i cnt : Z) (l : list N) : res (list N) :=
  if i <? cnt then
    match l with [] => Undef | _ :: l => drop_loop (i + 1) cnt l end
  else Ok l.
Definition int_ok (z : Z) : bool := (-2147483648 <=? z) && (z <=? 2147483647).
Definition c_lastn (n : Z) (l : list N) : res (list N) :=
  match get_int n with
  | Ok cnt =>
      let len := Z.of_nat (length l) in
      if len <? cnt then Fail
      else if int_ok (len - cnt) then drop_loop 0 (len - cnt) l else Undef
  | Fail => Fail
  | Undef => Undef
  end.

(* butlastn 706: GET_CONS_HD of NIL is NULL, followed by INC_REFCNT *)
Fixpoint take_loop (i cnt : Z) (l : list N) : res (list N) :=
  if i <? cnt then
    match l with
    | [] => Undef
    | e :: l => match take_loop (i + 1) cnt l with Ok r => Ok (e :: r) | x => x end
    end
  else Ok [].
Definition c_butlastn (n : Z) (l : list N) : res (list N) :=
  match get_int n with
  | Ok cnt =>
      let len := Z.of_nat (length l) in
      if len <? cnt then Fail
      else if int_ok (len - cnt) then take_loop 0 (len - cnt) l else Undef
  | Fail => Fail
  | Undef => Undef
  end.

(* butlast 604 *)
Fixpoint butlast_loop (e : N) (l : list N) : list N :=
  match l with [] => [] | e' :: l => e :: butlast_loop e' l end.
Definition c_butlast (l : list N) : res (list N) :=
  match l with [] => Fail | e :: l => Ok (butlast_loop e l) end.

(* last 1430 *)
Fixpoint last_loop (prev : N) (cur : list N) : N :=
  match cur with [] => prev | e :: cur => last_loop e cur end.
Definition c_last (l : list N) : res N :=
  match l with [] => Fail | e :: l => Ok (last_loop e l) end.

(* rev 532: the elements go to a buffer, which is read from the end (FUB_ROF) *)
Fixpoint buf_down (buf : list N) (i : nat) : list N :=
  match i with
  | O => []
  | S i => match nth_error buf i with
           | Some e => e :: buf_down buf i
           | None => buf_down buf i
           end
  end.
Definition c_rev (l : list N) : list N := buf_down l (length l).

(* length 560 *)
Fixpoint length_loop (cnt : Z) (l : list N) : Z :=
  match l with [] => cnt | _ :: l => length_loop (cnt + 1) l end.
Definition c_length (l : list N) : Z := length_loop 0 l.

(* append 1377: list1 is copied, the tail of its last cell is set to list2 *)
Definition c_append (l1 l2 : list N) : list N :=
  match l1 with
  | [] => l2
  | _ => (fix link (cur : list N) : list N :=
            match cur with
            | [] => []
            | [e] => e :: l2
            | e :: cur => e :: link cur
            end) l1
  end.

(* flat 1408: [done] is the part of the result before the tail cell *)
Fixpoint flat_loop (done : list N) (l : list (list N)) : list N :=
  match l with
  | [] => done
  | ll :: l => flat_loop (done ++ ll) l
  end.
Definition c_flat (l : list (list N)) : list N := flat_loop [] l.

(* gather 1457: an index is read as unsigned (ui idx = GET_INT(..)) *)
Definition to_ui (z : Z) : Z := if z <? 0 then z + 4294967296 else z.
Fixpoint c_gather (l : list N) (indices : list Z) : res (list N) :=
  match indices with
  | [] => Ok []
  | i :: indices =>
      match get_int i with
      | Ok i =>
          let idx := to_ui i in
          if (idx <? 1) || (Z.of_nat (length l) <? idx) then Fail
          else match nth_error l (Z.to_nat (idx - 1)) with
               | None => Undef
               | Some e =>
                   match c_gather l indices with Ok r => Ok (e :: r) | x => x end
               end
      | Fail => Fail
      | Undef => Undef
      end
  end.

(* separate 1495: the buffer, with NULL for the elements already selected *)
Fixpoint sep_loop (buf : list (option N)) (indices : list Z)
  : res (list N * list (option N)) :=
  match indices with
  | [] => Ok ([], buf)
  | i :: indices =>
      match get_int i with
      | Ok i =>
          let idx := to_ui i in
          if (idx <? 1) || (Z.of_nat (length buf) <? idx) then Fail
          else
            let k := Z.to_nat (idx - 1) in
            match nth_error buf k with
            | None => Undef
            | Some None => sep_loop buf indices
            | Some (Some e) =>
                match sep_loop (firstn k buf ++ None :: skipn (S k) buf) indices with
                | Ok (r, buf) => Ok (e :: r, buf)
                | x => x
                end
            end
      | Fail => Fail
      | Undef => Undef
      end
  end.
Fixpoint somes (l : list (option N)) : list N :=
  match l with [] => [] | Some e :: l => e :: somes l | None :: l => somes l end.
Definition c_separate (l : list N) (indices : list Z) : res (list N * list N) :=
  match sep_loop (map Some l) indices with
  | Ok (sel, buf) => Ok (sel, somes buf)
  | Fail => Fail
  | Undef => Undef
  end.
End Seg.

(* ---------------------------------------------------------------------- *)
(* Graph_cmp 109-190.  Not represented: bexpr and external objects (compared by
   truncated addresses), printf-like primitives, reference variables, user
   functions. *)
Inductive gval :=
| GNull
| GApply (l r : gval)
| GCons (h t : gval)
| GInt (z : Z)
| GStr (s : list N)        (* bytes, without the final 0 *)
| GBool (f : N)            (* the 32 bits of a formula *)
| GPrim (p : N)            (* a primitive without an argument *)
| GVar (s : list N).

Section Cmp.
Local Open Scope Z_scope.
(* GET_TYPE, GET_LEAF_TYPE: graph.h 186-189, 280-286 *)
Definition gtype (v : gval) : Z :=
  match v with GApply _ _ => 1 | GCons _ _ => 2 | _ => 3 end.
Definition gleaf (v : gval) : Z :=
  match v with GInt _ => 0 | GStr _ => 1 | GBool _ => 2 | GPrim _ => 5 | GVar _ => 6 | _ => -1 end.

(* strcmp, up to the size of the result *)
Fixpoint strcmp (s t : list N) : Z :=
  match s, t with
  | [], [] => 0
  | [], _ => -1
  | _, [] => 1
  | a :: s, b :: t => if N.eqb a b then strcmp s t else if N.ltb a b then -1 else 1
  end.
(* Arbi_cmp: arbi_LESS -1, arbi_EQ 0, arbi_GREAT 1; see ArbThms.v *)
Definition arbi_cmp (x y : Z) : Z := if x <? y then -1 else if x =? y then 0 else 1.
(* a difference of two ints: [None] is an overflow *)
Definition int_sub (x y : Z) : option Z := if int_ok (x - y) then Some (x - y) else None.
(* (int) of an unsigned *)
Definition as_int (n : N) : Z := wrap32 (Z.of_N n).

Fixpoint gcmp (n1 n2 : gval) : option Z :=
  match n1, n2 with
  | GNull, GNull => Some 0
  | GNull, _ => Some (-1)
  | _, GNull => Some 1
  | _, _ =>
      if negb (gtype n1 =? gtype n2) then Some (gtype n1 - gtype n2)
      else
        match n1, n2 with
        | GApply a b, GApply c d | GCons a b, GCons c d =>
            match gcmp a c with
            | None => None
            | Some r => if negb (r =? 0) then Some r else gcmp b d
            end
        | _, _ =>
            if negb (gleaf n1 =? gleaf n2) then Some (gleaf n1 - gleaf n2)
            else
              match n1, n2 with
              | GInt x, GInt y => Some (arbi_cmp x y)
              | GStr s, GStr t => Some (strcmp s t)
              | GBool f, GBool g => int_sub (as_int f) (as_int g)
              | GPrim p, GPrim q => Some (Z.of_N p - Z.of_N q)
              | GVar s, GVar t => Some (strcmp s t)
              | _, _ => None
              end
        end
  end.
End Cmp.

(* ---------------------------------------------------------------------- *)
(* G_rec_hash / G_rec_equ, cache.c 266-411, on the same values.  [ihash] is
   Arbi_hash, [sptr] the address of an interned string (C38).  On APPLY nodes
   both functions use addresses; such nodes are not covered ([GApply] is not
   equal to anything here, and the theorems exclude it). *)
Section GRec.
Variable ihash : Z -> N -> N.
Variable sptr : list N -> N.
Fixpoint g_hash (sz : nat) (v : gval) (n : N) : N :=
  match sz with
  | O => 13
  | S sz =>
      match v with
      | GNull => 1
      | GCons a b => ((931 * g_hash sz a n + 137 * g_hash sz b n) mod 4294967296) mod n
      | GApply _ _ => 0
      | GInt z => ihash z n
      | GStr s => (sptr s mod 4294967296) mod n
      | GBool f => f mod n
      | GPrim p => p mod n
      | GVar s => 0
      end
  end.
Definition G_rec_hash (v : gval) (n : N) : N := g_hash 10 v n.
Fixpoint G_rec_equ (v w : gval) : bool :=
  match v, w with
  | GNull, GNull => true
  | GCons a b, GCons c d => G_rec_equ a c && G_rec_equ b d
  | GInt x, GInt y => Z.eqb x y
  | GStr s, GStr t => if list_eq_dec N.eq_dec s t then true else false
  | GBool f, GBool g => N.eqb f g
  | GPrim p, GPrim q => N.eqb p q
  | _, _ => false
  end.
(* Values that can be keys *)
Fixpoint data (v : gval) : bool :=
  match v with
  | GApply _ _ | GVar _ => false
  | GCons a b => data a && data b
  | _ => true
  end.
End GRec.
