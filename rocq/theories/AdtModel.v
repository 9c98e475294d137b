(* Names in and out of abstract types: begin_abstype, end_abstype, export
   (src/bin/fl/symbol.c, language.y).

   Simplifications: names are numbers; a definition has a value instead of its expression and
   type; forward declarations, overloads and the table of constructors are left out.  The
   table of names is the chain of one bucket: insert_hash puts in front, find_hash and
   delete_hash take the first one (that growing reverses chains is C32_refuted).  A definition
   is pointed to by its number.  Failed definitions and types do not get here. *)
From Coq Require Import Arith List Bool.
Import ListNotations.

(* fn_rec (symbol.h 111-140). *)
Record def := Def { id : nat; name : nat; value : nat; visible : bool; exported : bool; level : nat }.
(* symb_tbl, ADT_buf and ADT_level; the next number. *)
Record state := State {
  defs : list def; tbl : list (nat * nat); buf : list nat; adt_level : nat; next : nat }.

(* find_hash, delete_hash. *)
Fixpoint look (t : list (nat * nat)) (n : nat) : option nat :=
  match t with
  | [] => None
  | (m, i) :: t => if Nat.eqb m n then Some i else look t n
  end.
Fixpoint drop (t : list (nat * nat)) (n : nat) : list (nat * nat) :=
  match t with
  | [] => []
  | (m, i) :: t => if Nat.eqb m n then t else (m, i) :: drop t n
  end.

Definition pointed (l : list def) (i : nat) : option def := find (fun d => Nat.eqb (id d) i) l.
Definition hide (d : def) : def := Def (id d) (name d) (value d) false (exported d) (level d).
Definition change (f : def -> def) (i : nat) (l : list def) : list def :=
  map (fun d => if Nat.eqb (id d) i then f d else d) l.

(* update_stbl (symbol.c 2629-2645), for a definition d that is in the list. *)
Definition update_stbl (d : def) (s : state) : state :=
  match look (tbl s) (name d) with
  | None => State (defs s) ((name d, id d) :: tbl s) (buf s) (adt_level s) (next s)
  | Some i =>
      if Nat.eqb i (id d) then s
      else
        let l := match pointed (defs s) i with
                 | Some last => if Nat.eqb (level last) (level d) then change hide i (defs s) else defs s
                 | None => defs s
                 end in
        State l ((name d, id d) :: drop (tbl s) (name d)) (buf s) (adt_level s) (next s)
  end.

(* New_fn_def (953-1048): in front of the list. *)
Definition new_def (n v : nat) (s : state) : state :=
  let d := Def (next s) n v true false (adt_level s) in
  update_stbl d (State (d :: defs s) (tbl s) (buf s) (adt_level s) (S (next s))).

(* lettype: the constructors have their own list, and Merge_fn_defs (654-672, language.y 520)
   puts it behind the list of all definitions. *)
Definition new_type (ns : list nat) (v : nat) (s : state) : state :=
  let ds := map (fun p => Def (next s + fst p) (snd p) v true false (adt_level s))
                (combine (seq 0 (length ns)) ns) in
  fold_left (fun s d => update_stbl d s) ds
    (State (defs s ++ ds) (tbl s) (buf s) (adt_level s) (next s + length ns)).

(* Export_Fun (1057-1064). *)
Definition mark (d : def) : def := Def (id d) (name d) (value d) (visible d) true (level d).
Definition export_fun (n : nat) (s : state) : state :=
  match look (tbl s) n with
  | None => s
  | Some i => State (change mark i (defs s)) (tbl s) (buf s) (adt_level s) (next s)
  end.

(* Begin_ADT (1050-1055): the start of the list is remembered. *)
Definition begin_adt (s : state) : state :=
  match defs s with
  | [] => s
  | d :: _ => State (defs s) (tbl s) (id d :: buf s) (S (adt_level s)) (next s)
  end.

(* keep_tbl (1086-1106). *)
Definition mem (n : nat) (l : list nat) : bool := existsb (Nat.eqb n) l.
Fixpoint keep_tbl (ns : list nat) (keep : list nat) : list nat :=
  match ns with
  | [] => keep
  | n :: ns => keep_tbl ns (if mem n keep then keep else n :: keep)
  end.
Fixpoint without (n : nat) (l : list nat) : list nat :=
  match l with
  | [] => []
  | m :: l => if Nat.eqb m n then l else m :: without n l
  end.
(* The loop over the definitions since the begin (1111-1129). *)
Definition show (lv : nat) (d : def) : def := Def (id d) (name d) (value d) true (exported d) lv.
Fixpoint close (lv : nat) (l : list def) (keep : list nat) (t : list (nat * nat)) :
  list def * list (nat * nat) :=
  match l with
  | [] => ([], t)
  | d :: l =>
      if exported d then
        let (r, t) := close lv l keep ((name d, id d) :: t) in (show lv d :: r, t)
      else if mem (name d) keep then
        let (r, t) := close lv l (without (name d) keep) ((name d, id d) :: t) in (show lv d :: r, t)
      else
        let (r, t) := close lv l keep t in (hide d :: r, t)
  end.
(* The loop over the rest (1132-1141). *)
Fixpoint restore (l : list def) (t : list (nat * nat)) : list (nat * nat) :=
  match l with
  | [] => t
  | d :: l =>
      restore l (if visible d
                 then match look t (name d) with None => (name d, id d) :: t | Some _ => t end
                 else t)
  end.
Fixpoint cut (last : nat) (l : list def) : list def * list def :=
  match l with
  | [] => ([], [])
  | d :: r => if Nat.eqb (id d) last then ([], l) else let (a, b) := cut last r in (d :: a, b)
  end.
(* End_ADT (1066-1143). *)
Definition end_adt (ns : list nat) (s : state) : state :=
  match buf s with
  | [] => State (defs s) (tbl s) (buf s) 1 (next s)
  | last :: b =>
      if forallb (fun n => match look (tbl s) n with None => false | Some _ => true end) ns then
        let lv := pred (adt_level s) in
        let (inside, outside) := cut last (defs s) in
        let (inside, t) := close lv inside (keep_tbl ns []) [] in
        State (inside ++ outside) (restore outside t) b lv (next s)
      else State (defs s) (tbl s) b 1 (next s)
  end.

(* What is typed in. *)
Inductive command :=
| Let (n v : nat) | Type_ (ns : list nat) (v : nat) | Export (n : nat)
| Begin_abstype | End_abstype (ns : list nat).
Definition step (s : state) (c : command) : state :=
  match c with
  | Let n v => new_def n v s
  | Type_ ns v => new_type ns v s
  | Export n => export_fun n s
  | Begin_abstype => begin_adt s
  | End_abstype ns => end_adt ns s
  end.
Definition run (l : list command) (s : state) : state := fold_left step l s.
(* Init_symbol (439-483): the name of the dummy cannot be typed; here it is 0. *)
Definition init : state := State [Def 0 0 0 true false 1] [(0, 0)] [] 1 1.
(* Find_Function_Def (1145-1149): what a name means. *)
Definition meaning (s : state) (n : nat) : option nat :=
  match look (tbl s) n with
  | None => None
  | Some i => option_map value (pointed (defs s) i)
  end.
