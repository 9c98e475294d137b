(* Model of the tables of src/bin/fl/table.c.

   A table value is a graph node holding a reference to a table record.  An
   update changes the record in place, makes a new node for it, and overwrites
   the old node with a failure.  Nodes are numbered in the order in which they
   are made; keys and data are node addresses, 0 is NULL; [hf], [he] are
   G_rec_hash and G_rec_equ (see ListModel.v).  Not represented: garbage
   collection and reuse of table records, saving and loading. *)
From Coq Require Import List NArith ZArith Bool Permutation.
From Verif Require Import HashModel.
Import ListNotations.
Local Open Scope N_scope.

Section Tbl.
Variable hf : N -> N -> N.
Variable he : N -> N -> bool.

Record tstate := mkS {
  s_nodes : list (option nat);    (* [None]: the node is a failure *)
  s_tabs : list (htab N) }.       (* the table records *)

Inductive top :=
| TCreate (n : Z)                 (* tbl_create *)
| TSize (h : nat) | TMember (h : nat) (k : N) | TGet (h : nat) (k : N)
| TInsert (h : nat) (k d : N)
| TInsertn (h : nat) (kds : list (N * N))
| TSetInsertn (h : nat) (ks : list N)
| TDelete (h : nat) (k : N)
| TClear (h : nat)
| TList (h : nat)                 (* tbl2list; tbl2keys and tbl2data are its columns *)
| TFromList (kds : list (N * N))  (* list2tbl *)
| TCopy (h : nat).                (* OVERWRITE of some other node with this one *)

Inductive tans :=
| AHandle (h : nat) | AVal (d : N) | ABool (b : bool) | AInt (n : N)
| AList (l : list (N * N)) | AFail.

Fixpoint upd {A} (l : list A) (i : nat) (x : A) : list A :=
  match l, i with
  | [], _ => []
  | _ :: l, O => x :: l
  | y :: l, S i => y :: upd l i x
  end.

(* the loop of table_insertn 112-125, set_table_insertn 139-150 and
   list_to_table 252-262: the flag is false if a duplicate was met *)
Fixpoint ins_loop (t : htab N) (kds : list (N * N)) : option (bool * htab N) :=
  match kds with
  | [] => Some (true, t)
  | (k, d) :: kds =>
      match find_hash hf he t k with
      | None => None
      | Some x =>
          if x =? 0 then
            match insert_hash hf t k d with
            | None => None
            | Some t => ins_loop t kds
            end
          else Some (false, t)
      end
  end.

(* the new node for table id, the old node h being spoilt *)
Definition moved (s : tstate) (h id : nat) (t : htab N) : tans * tstate :=
  (AHandle (length (s_nodes s)),
   mkS (upd (s_nodes s) h None ++ [Some id]) (upd (s_tabs s) id t)).

(* a failing node or an unknown one *)
Definition on_tab (s : tstate) (h : nat) (f : nat -> htab N -> option (tans * tstate))
  : option (tans * tstate) :=
  match nth_error (s_nodes s) h with
  | Some (Some id) =>
      match nth_error (s_tabs s) id with Some t => f id t | None => None end
  | _ => Some (AFail, s)
  end.

Definition insertn (s : tstate) (h : nat) (kds : list (N * N)) : option (tans * tstate) :=
  on_tab s h (fun id t =>
    match ins_loop t kds with
    | None => None
    | Some (true, t) => Some (moved s h id t)
    | Some (false, t) => Some (AFail, mkS (s_nodes s) (upd (s_tabs s) id t))
    end).

(* an int as the unsigned size of create_hash *)
Definition as_size (n : Z) : N := Z.to_N (n mod 4294967296).

Definition tstep (o : top) (s : tstate) : option (tans * tstate) :=
  match o with
  | TCreate n =>                                             (* table_create 39 *)
      match create_hash (as_size n) with
      | None => None
      | Some t => Some (AHandle (length (s_nodes s)),
                        mkS (s_nodes s ++ [Some (length (s_tabs s))]) (s_tabs s ++ [t]))
      end
  | TSize h => on_tab s h (fun _ t => Some (AInt (h_elems t), s))   (* 50 *)
  | TMember h k =>                                           (* table_member 61 *)
      on_tab s h (fun _ t =>
        option_map (fun d => (ABool (negb (d =? 0)), s)) (find_hash hf he t k))
  | TGet h k =>                                              (* table_get 74 *)
      on_tab s h (fun _ t =>
        option_map (fun d => (if d =? 0 then AFail else AVal d, s)) (find_hash hf he t k))
  | TInsert h k d =>                                         (* table_insert 88 *)
      on_tab s h (fun id t =>
        match find_hash hf he t k with
        | None => None
        | Some x =>
            if x =? 0 then
              match insert_hash hf t k d with
              | None => None
              | Some t => Some (moved s h id t)
              end
            else Some (AFail, s)
        end)
  | TInsertn h kds => insertn s h kds                        (* 106 *)
  | TSetInsertn h ks => insertn s h (map (fun k => (k, k)) ks)  (* 133 *)
  | TDelete h k =>                                           (* table_delete 156 *)
      on_tab s h (fun id t =>
        match find_hash hf he t k with
        | None => None
        | Some x =>
            if x =? 0 then Some (AFail, s)
            else
              match delete_hash hf he t k with
              | None => None
              | Some t => Some (moved s h id t)
              end
        end)
  | TClear h =>                                              (* table_clear 171 *)
      on_tab s h (fun id t =>
        match create_hash (h_elems t) with
        | None => None
        | Some t => Some (moved s h id t)
        end)
  | TList h => on_tab s h (fun _ t => Some (AList (scan_hash t), s))   (* 193 *)
  | TFromList kds =>                                         (* list_to_table 241 *)
      match create_hash (N.of_nat (length kds)) with
      | None => None
      | Some t =>
          match ins_loop t kds with
          | None => None
          | Some (true, t) =>
              Some (AHandle (length (s_nodes s)),
                    mkS (s_nodes s ++ [Some (length (s_tabs s))]) (s_tabs s ++ [t]))
          | Some (false, t) => Some (AFail, mkS (s_nodes s) (s_tabs s ++ [t]))
          end
      end
  | TCopy h =>
      Some (AHandle (length (s_nodes s)),
            mkS (s_nodes s ++ [match nth_error (s_nodes s) h with Some n => n | None => None end])
                (s_tabs s))
  end.
Fixpoint trun (l : list top) (s : tstate) : option (list tans * tstate) :=
  match l with
  | [] => Some ([], s)
  | o :: l =>
      match tstep o s with
      | None => None
      | Some (a, s) =>
          match trun l s with None => None | Some (r, s) => Some (a :: r, s) end
      end
  end.
Definition s0 := mkS [] [].

(* ---------------------------------------------------------------------- *)
(* Specification: each handle is a finite map (bindings, latest first), or dead. *)
Definition amap := list (N * N).
Definition astate := list (option amap).

(* insert until a key is bound already; the flag tells whether all went in *)
Fixpoint a_ins (kds : list (N * N)) (m : amap) : bool * amap :=
  match kds with
  | [] => (true, m)
  | (k, d) :: kds => if bound he k m then (false, m) else a_ins kds ((k, d) :: m)
  end.
Definition a_moved (a : astate) (h : nat) (m : amap) : tans * astate :=
  (AHandle (length a), upd a h None ++ [Some m]).
Definition on_map (a : astate) (h : nat) (f : amap -> tans * astate) : tans * astate :=
  match nth_error a h with Some (Some m) => f m | _ => (AFail, a) end.
Definition a_insertn (a : astate) (h : nat) (kds : list (N * N)) : tans * astate :=
  on_map a h (fun m =>
    match a_ins kds m with
    | (true, m) => a_moved a h m
    | (false, m) => (AFail, upd a h (Some m))
    end).
Definition astep (o : top) (a : astate) : tans * astate :=
  match o with
  | TCreate _ => (AHandle (length a), a ++ [Some []])
  | TSize h => on_map a h (fun m => (AInt (N.of_nat (length m)), a))
  | TMember h k => on_map a h (fun m => (ABool (bound he k m), a))
  | TGet h k =>
      on_map a h (fun m => (if bound he k m then AVal (sp_find he k m) else AFail, a))
  | TInsert h k d =>
      on_map a h (fun m => if bound he k m then (AFail, a) else a_moved a h ((k, d) :: m))
  | TInsertn h kds => a_insertn a h kds
  | TSetInsertn h ks => a_insertn a h (map (fun k => (k, k)) ks)
  | TDelete h k =>
      on_map a h (fun m => if bound he k m then a_moved a h (sp_del he k m) else (AFail, a))
  | TClear h => on_map a h (fun m => a_moved a h [])
  | TList h => on_map a h (fun m => (AList m, a))
  | TFromList kds =>
      match a_ins kds [] with
      | (true, m) => (AHandle (length a), a ++ [Some m])
      | (false, _) => (AFail, a)
      end
  | TCopy h => (AHandle (length a), a ++ [match nth_error a h with Some n => n | None => None end])
  end.
Fixpoint arun (l : list top) (a : astate) : list tans * astate :=
  match l with
  | [] => ([], a)
  | o :: l => let (x, a) := astep o a in let (r, a) := arun l a in (x :: r, a)
  end.

(* Answers agree; the order of a listing is not determined. *)
Definition agree (x y : tans) : Prop :=
  match x, y with
  | AList l, AList l' => Permutation l l'
  | _, _ => x = y
  end.

(* Proper use: data are not NULL, sizes are representable, no copying of handles. *)
Definition aroom (a : astate) (extra : nat) : Prop :=
  forall h m, nth_error a h = Some (Some m) -> N.of_nat (length m + extra) <= 2147483629.
Definition tallowed (o : top) (a : astate) : Prop :=
  match o with
  | TCreate n => (0 <= n <= 2147483629)%Z
  | TInsert _ _ d => d <> 0 /\ aroom a 1
  | TInsertn _ kds => Forall (fun kd => snd kd <> 0) kds /\ aroom a (length kds)
  | TSetInsertn _ ks => Forall (fun k => k <> 0) ks /\ aroom a (length ks)
  | TFromList kds => Forall (fun kd => snd kd <> 0) kds /\ N.of_nat (length kds) <= 2147483629
  | TClear _ => aroom a 0
  | TCopy _ => False
  | _ => True
  end.
Fixpoint tproper (l : list top) (a : astate) : Prop :=
  match l with
  | [] => True
  | o :: l => tallowed o a /\ tproper l (snd (astep o a))
  end.
End Tbl.
