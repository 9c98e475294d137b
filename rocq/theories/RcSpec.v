(** * What the node store has to guarantee

    Nothing here mentions reference counts, marks or free lists: which nodes a
    client can still get at, and what it can see from there. *)

From Coq Require Import List Bool Arith NArith ZArith.
Import ListNotations.
From Verif Require Import RcModel.

(** The nodes that can be got at from [rt]: through the children of a node,
    and through a table that a node names. *)
Inductive reach (st : store) (rt : list addr) : addr -> Prop :=
| reach_root n : In n rt -> reach st rt n
| reach_kid m n : reach st rt m -> In n (kids (cell st m)) -> reach st rt n
| reach_tab m b k n : reach st rt m -> cell st m = Tab b k ->
    In n (nth k (tabs st) []) -> reach st rt n.

(** The number of pointers to [n]: from [rt], from the nodes [L], and from the
    tables that these nodes name. *)
Definition occ (l : list addr) (n : addr) : nat := count_occ Nat.eq_dec l n.

Definition names (st : store) (L : list addr) (k : nat) : bool :=
  existsb (fun m => match cell st m with Tab _ k' => k' =? k | _ => false end) L.

Definition tab_refs (st : store) (L : list addr) : list addr :=
  flat_map (fun k => if names st L k then nth k (tabs st) [] else [])
           (seq 0 (length (tabs st))).

Definition pointers (st : store) (L rt : list addr) (n : addr) : nat :=
  occ rt n + occ (flat_map (fun m => kids (cell st m)) L) n
  + occ (tab_refs st L) n.

(** What a count stands for: 00 one reference, 01 two, 11 any number. *)
Definition covers (r : N) (h : nat) : Prop :=
  r = 3%N \/ (r = 0%N /\ h <= 1) \/ (r = 1%N /\ h <= 2).

(** A sound store: the live nodes [L] and the free list are all the nodes, every
    pointer held by the client or by a live node is to a live node, and every
    count covers the pointers there are. *)
Record sound (st : store) (L rt : list addr) : Prop := {
  sound_split : NoDup (L ++ free st) /\
                forall n, In n (L ++ free st) <-> n < top st;
  sound_live : forall n, 0 < pointers st L rt n -> In n L;
  sound_count : forall n, In n L -> covers (rc st n) (pointers st L rt n);
  sound_node : forall n, In n L -> cell st n <> Dead;
  sound_tab : forall n b k, In n L -> cell st n = Tab b k -> k < length (tabs st)
}.

(** What can be seen from a node down to a given depth, without the addresses.
    The content of a reference variable is seen through it. *)
Inductive view :=
| VCut | VApp (l r : view) | VCons (h t : view) | VLeaf (c : node)
| VTab (b : bool) (k : nat) (l : list view).

Fixpoint see (d : nat) (st : store) (n : addr) : view :=
  match d with
  | 0 => VCut
  | S d =>
      match cell st n with
      | App l r => VApp (see d st l) (see d st r)
      | Cons h t => VCons (see d st h) (see d st t)
      | Tab b k => VTab b k (map (see d st) (nth k (tabs st) []))
      | c => VLeaf c
      end
  end.

(** Weak head normal form: the head of the application and the number of its
    arguments. *)
Inductive head (st : store) : addr -> addr -> nat -> Prop :=
| head_here n : head st n n 0
| head_app n l a r k : cell st n = App l a -> head st l r k -> head st n r (S k).

Definition value (st : store) (n : addr) : Prop :=
  exists r k, head st n r k /\
    match cell st r with
    | App _ _ | Dead => False
    | Prim p => k < arity p
    | _ => k = 0
    end.

(** The same store at another time: only the counts, the free nodes and the coming
    collections may differ. *)
Definition same_graph (st1 st2 : store) : Prop :=
  cell st2 = cell st1 /\ tabs st2 = tabs st1.
