(* Model of the growing buffers of src/lib/buf.c and of the buffers of distinct
   items of src/lib/uniq_buf.c.

   Memory is a list of bytes; the block from Calloc(n) is n zero bytes (running
   out of memory is not represented).  A read or write outside the block, and a
   failing ASSERT, is [None].  unint is an unsigned int of 32 bits: products and
   sums wrap. *)
From Coq Require Import List NArith ZArith Bool.
From Verif Require Import HashModel.
Import ListNotations.
Local Open Scope N_scope.

Notation "'get' x 'from' o ; k" := (match o with Some x => k | None => None end)
  (at level 200, x pattern, k at level 200, only parsing).

Definition w32 (x : N) : N := x mod 2 ^ 32.

Notation bytes := (list N).
Definition zeros (n : N) : bytes := repeat 0 (N.to_nat n).
(* bcopy from and to the block *)
Definition read_at (d : bytes) (off len : N) : option bytes :=
  if off + len <=? N.of_nat (length d)
  then Some (firstn (N.to_nat len) (skipn (N.to_nat off) d)) else None.
Definition write_at (d : bytes) (off : N) (b : bytes) : option bytes :=
  if off + N.of_nat (length b) <=? N.of_nat (length d)
  then Some (firstn (N.to_nat off) d ++ b ++ skipn (N.to_nat off + length b) d) else None.

(* buf.h 21-27 *)
Record buffer := mkB { b_size : N; b_item : N; b_alloc : N; b_data : bytes }.

(* new_buf 12-21 *)
Definition new_buf (n size : N) : buffer :=
  let n := if n <? 1 then 1 else n in
  mkB 0 size (w32 (n * size)) (zeros (w32 (n * size))).

(* M_LOCATE_BUF, buf.h 31: an offset in the block, [None] for NULL *)
Definition locate (b : buffer) (i : N) : option N :=
  if i <=? b_size b then Some (w32 (i * b_item b)) else None.

(* push_buf 38-54 *)
Definition grow (b : buffer) (size : N) : option buffer :=
  let n := w32 (size * b_item b) in
  get old from read_at (b_data b) 0 (w32 (b_size b * b_item b));
  get d from write_at (zeros n) 0 old;
  Some (mkB (b_size b) (b_item b) n d).
Definition push_buf (b : buffer) (item : bytes) : option buffer :=
  get b from (if b_alloc b <=? w32 (b_item b * b_size b)
              then grow b (w32 (2 * b_size b)) else Some b);
  get d from write_at (b_data b) (w32 (b_item b * b_size b)) item;
  Some (mkB (w32 (b_size b + 1)) (b_item b) (b_alloc b) d).

(* pop_buf 56-64, with a place for the item *)
Definition pop_buf (b : buffer) : option (bytes * buffer) :=
  if b_size b =? 0 then None else
  get x from read_at (b_data b) (w32 ((b_size b - 1) * b_item b)) (b_item b);
  Some (x, mkB (b_size b - 1) (b_item b) (b_alloc b) (b_data b)).

(* store_buf 66-72 *)
Definition store_buf (b : buffer) (i : N) (item : bytes) : option buffer :=
  if i <? b_size b then
    get d from write_at (b_data b) (w32 (i * b_item b)) item;
    Some (mkB (b_size b) (b_item b) (b_alloc b) d)
  else None.

(* fetch_buf 74-84: the empty list for the answer FALSE *)
Definition fetch_buf (b : buffer) (i : N) : option bytes :=
  match locate b i with
  | None => Some []
  | Some off => read_at (b_data b) off (b_item b)
  end.

(* resize_buf 86-108 *)
Definition resize_buf (b : buffer) (size : N) : option buffer :=
  if size <? b_size b then Some (mkB size (b_item b) (b_alloc b) (b_data b))
  else
    get b from (if b_alloc b <=? w32 (b_item b * size) then grow b size else Some b);
    get d from write_at (b_data b) (w32 (b_size b * b_item b))
                        (zeros (w32 ((size - b_size b) * b_item b)));
    Some (mkB size (b_item b) (b_alloc b) d).

(* locate_buf 110-117; the answer is what the pointer points to *)
Definition locate_buf (b : buffer) (i : N) : option (bytes * buffer) :=
  get b from (if b_size b <=? i then resize_buf b (w32 (i + 1)) else Some b);
  get off from locate b i;
  get x from read_at (b_data b) off (b_item b);
  Some (x, b).

(* top_of_buf 119-124 *)
Definition top_of_buf (b : buffer) : option bytes :=
  if b_size b =? 0 then None else
  get off from locate b (b_size b - 1); read_at (b_data b) off (b_item b).

(* Histories *)
Inductive bop :=
| BPush (x : bytes) | BPop | BStore (i : N) (x : bytes) | BFetch (i : N)
| BResize (n : N) | BLocate (i : N) | BTop | BEmpty | BCount.
Definition bstep (o : bop) (b : buffer) : option (bytes * buffer) :=
  match o with
  | BPush x => option_map (pair []) (push_buf b x)
  | BPop => pop_buf b
  | BStore i x => option_map (pair []) (store_buf b i x)
  | BFetch i => option_map (fun x => (x, b)) (fetch_buf b i)
  | BResize n => option_map (pair []) (resize_buf b n)
  | BLocate i => locate_buf b i
  | BTop => option_map (fun x => (x, b)) (top_of_buf b)
  | BEmpty => Some ([if b_size b =? 0 then 1 else 0], b)
  | BCount => Some ([b_size b], b)
  end.
Fixpoint brun (l : list bop) (b : buffer) : option (list bytes * buffer) :=
  match l with
  | [] => Some ([], b)
  | o :: l =>
      get (a, b) from bstep o b;
      get (r, b) from brun l b;
      Some (a :: r, b)
  end.

(* ---------------------------------------------------------------------- *)
(* uniq_buf.c.  A key of the hash table is a pointer to a copy of the item in a
   record of its own; here it is the item. *)

(* item_hash 107-118: char is signed, int wraps *)
Definition s8 (c : N) : Z := (if (c <? 128)%N then Z.of_N c else Z.of_N c - 256)%Z.
Definition s32 (x : Z) : Z := ((x + 2 ^ 31) mod 2 ^ 32 - 2 ^ 31)%Z.
(* the characters read, one after the other *)
Fixpoint chars (size : nat) (key : bytes) : bytes :=
  match size with O => [] | S size => hd 0 key :: chars size (tl key) end.
Definition item_hash (size : N) (key : bytes) (n : N) : N :=
  let res := fold_left (fun res c => s32 (s32 (res * 997) + s8 c))
                       (chars (N.to_nat size) key) 0%Z in
  w32 (Z.to_N (Z.abs res)) mod n.
(* item_equ 121-132 *)
Fixpoint item_equ (size : nat) (k1 k2 : bytes) : bool :=
  match size with
  | O => true
  | S size => (hd 0 k1 =? hd 0 k2) && item_equ size (tl k1) (tl k2)
  end.

Record ubuf := mkU { u_buf : buffer; u_items : N; u_idx : htab bytes }.

Definition hfn (b : buffer) := item_hash (b_item b).
Definition heq (b : buffer) := item_equ (N.to_nat (b_item b)).

(* new_uniq_buf 17-26 *)
Definition new_uniq_buf (n size : N) : option ubuf :=
  get t from create_hash n; Some (mkU (new_buf n size) 0 t).

Definition u_find (u : ubuf) (item : bytes) : option N :=
  find_hash (hfn (u_buf u)) (heq (u_buf u)) (u_idx u) item.
(* 52-57 and 76-81 *)
Definition u_add (u : ubuf) (item : bytes) : option ubuf :=
  get b from push_buf (u_buf u) item;
  let items := u_items u + 1 in
  get t from insert_hash (hfn (u_buf u)) (u_idx u) item items;
  Some (mkU b items t).
(* push_uniq_buf 47-59 *)
Definition push_uniq_buf (u : ubuf) (item : bytes) : option (bool * ubuf) :=
  get d from u_find u item;
  if d =? 0 then get u from u_add u item; Some (true, u) else Some (false, u).
(* get_uniq_buf_index 61-66 *)
Definition get_uniq_buf_index (u : ubuf) (item : bytes) : option Z :=
  get d from u_find u item; Some (Z.of_N d - 1)%Z.
(* find_insert_uniq_buf 68-84 *)
Definition find_insert_uniq_buf (u : ubuf) (item : bytes) : option (Z * ubuf) :=
  get d from u_find u item;
  if d =? 0 then get u from u_add u item; Some (Z.of_N (u_items u) - 1, u)%Z
  else Some (Z.of_N d - 1, u)%Z.
(* locate_uniq_buf 87-92, fetch_uniq_buf 94-99 *)
Definition locate_uniq_buf (u : ubuf) (i : N) : option (bytes * ubuf) :=
  get (x, b) from locate_buf (u_buf u) i; Some (x, mkU b (u_items u) (u_idx u)).
Definition fetch_uniq_buf (u : ubuf) (i : N) : option bytes := fetch_buf (u_buf u) i.

(* Histories; an answer is a number or an item *)
Inductive uop :=
| UPush (x : bytes) | UIndex (x : bytes) | UAdd (x : bytes) | ULocate (i : N) | UFetch (i : N).
Inductive uans := Num (z : Z) | Item (x : bytes).
Definition ustep (o : uop) (u : ubuf) : option (uans * ubuf) :=
  match o with
  | UPush x => get (r, u) from push_uniq_buf u x; Some (Num (if r then 1 else 0)%Z, u)
  | UIndex x => get i from get_uniq_buf_index u x; Some (Num i, u)
  | UAdd x => get (i, u) from find_insert_uniq_buf u x; Some (Num i, u)
  | ULocate i => get (x, u) from locate_uniq_buf u i; Some (Item x, u)
  | UFetch i => get x from fetch_uniq_buf u i; Some (Item x, u)
  end.
Fixpoint urun (l : list uop) (u : ubuf) : option (list uans * ubuf) :=
  match l with
  | [] => Some ([], u)
  | o :: l =>
      get (a, u) from ustep o u;
      get (r, u) from urun l u;
      Some (a :: r, u)
  end.
