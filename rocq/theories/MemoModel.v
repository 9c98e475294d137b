(* The caches of functions declared with clet (src/bin/fl/cache.c, P_CACHE in graph.c).

   A cached function evaluates its arguments, looks for them in its cache, and evaluates its
   body only if they are not there.  Simplifications: the arguments and the answer are trees
   instead of graphs; a function as an argument (an APPLY_ND) is the address of its node, which
   the cache keeps alive; the answer is as far evaluated as an argument is; a body is a tree of
   calls, and any other work in it is done in no time.  Evaluation is sequential, and a failing
   argument is not modelled (the call fails before the cache is asked).  unints are Z. *)
From Coq Require Import ZArith List Bool String Lia.
Import ListNotations.
Open Scope Z_scope.

(* The values that force leaves.  Bdd and Bex: the handles.  The primitives: with no data, with
   a pointer or number (P_PRINTF, ..., P_DEBUG, in GET_PRIM_FN order), and P_CACHE. *)
Inductive val :=
| Nil | Cons (a b : val)
| Fun (node : Z) | Int (z : Z) | Str (s : string) | Bdd (b : Z) | Bex (b : Z)
| Prim (p : Z) | Data (p d : Z) | Cache (c : Z)
| Ref (r : nat)
| Ext (class obj : Z).

Section Memo.
(* The content of the reference variables, the eq_fn of the classes of external objects, and
   the sum in main_cache_hash (any function; cache.c 509-520). *)
Variable deref : nat -> val.
Variable ext_eq : Z -> Z -> Z -> bool.
Variable hash : list val -> Z -> Z.

(* cache_eq (cache.c 417-507).  None: the ASSERT on the classes fails, or the comparison of
   the contents of reference variables does not end after n of them.  Two nodes that are equal
   as pointers are equal at once; here that matters for reference variables only. *)
Fixpoint cache_eq (n : nat) : val -> val -> option bool :=
  fix go (v w : val) : option bool :=
    match v, w with
    | Nil, Nil => Some true
    | Cons a b, Cons c d =>
        match go a c with
        | Some true => go b d
        | r => r
        end
    | Fun a, Fun b => Some (Z.eqb a b)
    | Int a, Int b => Some (Z.eqb a b)
    | Str a, Str b => Some (String.eqb a b)
    | Bdd a, Bdd b => Some (Z.eqb a b)
    | Bex a, Bex b => Some (Z.eqb a b)
    | Prim p, Prim q => Some (Z.eqb p q)
    | Data p a, Data q b => Some (Z.eqb p q && Z.eqb a b)
    | Cache _, Cache _ => Some true
    | Ref r, Ref s =>
        if Nat.eqb r s then Some true
        else match n with O => None | S n => cache_eq n (deref r) (deref s) end
    | Ext c a, Ext d b => if Z.eqb c d then Some (ext_eq c a b) else None
    | _, _ => Some false
    end.
Definition args := list val.
Fixpoint args_eq (n : nat) (k l : args) : option bool :=
  match k, l with
  | [], [] => Some true
  | v :: k, w :: l =>
      match cache_eq n v w with
      | Some true => args_eq n k l
      | r => r
      end
  | _, _ => Some false
  end.

(* g_cache_rec: a line holds the arguments and the answer. *)
Record cache := mkCache { size : Z; load : Z; tbl : list (option (args * val)) }.
(* Make_g_cache (cache.c 69-80), and what Sweep_G_caches and clean_clets make of a cache. *)
Definition empty : cache := mkCache 0 0 [].

(* Ok: done.  Crash: the program stops or leaves its tables.  Full: there is no larger prime
   (the loop in new_prime leaves the array).  More: not done yet. *)
Inductive res (A : Type) := Ok (a : A) | Crash | Full | More.
Arguments Ok {A}. Arguments Crash {A}. Arguments Full {A}. Arguments More {A}.

Definition line_of (k : args) (n : Z) : nat := Z.to_nat (hash k n mod n).

(* Find_in_g_cache (cache.c 82-100). *)
Definition find (n : nat) (c : cache) (k : args) : res (option val) :=
  if Z.eqb (load c) 0 then Ok None
  else
    match nth_error (tbl c) (line_of k (size c)) with
    | None => Crash
    | Some None => Ok None
    | Some (Some (k', v)) =>
        match args_eq n k' k with
        | None => Crash
        | Some true => Ok (Some v)
        | Some false => Ok None
        end
    end.

(* new_prime (cache.c 561-569).  Behind the last prime there is a 0, and the loop goes on. *)
Definition primes : list Z :=
  [241; 503; 1019; 2039; 4091; 8179; 16369; 32749; 65521; 131063; 262139; 524269; 1048571;
   2097143; 4194287; 8388593; 16777199; 33554393; 67108859; 134217689; 268435399; 536870879;
   1073741789; 2147483629].
Fixpoint new_prime (l : list Z) (cur : Z) : option Z :=
  match l with
  | [] => None
  | p :: l => if p <=? cur then new_prime l cur else Some p
  end.

Fixpoint put {A} (l : list A) (i : nat) (x : A) : list A :=
  match l, i with
  | [], _ => []
  | _ :: l, O => x :: l
  | y :: l, S i => y :: put l i x
  end.

(* Storing one pair (cache.c 128-133 and 141-147). *)
Definition store (k : args) (v : val) (c : cache) : res cache :=
  let i := line_of k (size c) in
  match nth_error (tbl c) i with
  | None => Crash
  | Some old =>
      Ok (mkCache (size c) (match old with None => load c + 1 | Some _ => load c end)
                  (put (tbl c) i (Some (k, v))))
  end.

(* The loop over the lines of the old table (cache.c 125-136). *)
Fixpoint rehash (l : list (option (args * val))) (c : cache) : res cache :=
  match l with
  | [] => Ok c
  | None :: l => rehash l c
  | Some (k, v) :: l =>
      match store k v c with
      | Ok c => rehash l c
      | r => r
      end
  end.

(* Insert_in_g_cache (cache.c 102-148); MAX_CACHE_LOAD is 85. *)
Definition insert (k : args) (v : val) (c : cache) : res cache :=
  if Z.eqb (size c) 0 || (85 <? (100 * load c) / size c) then
    match new_prime primes (size c + 1) with
    | None => Full
    | Some n =>
        match rehash (tbl c) (mkCache n 0 (repeat None (Z.to_nat n))) with
        | Ok c => store k v c
        | r => r
        end
    end
  else store k v c.

(* --- programs --------------------------------------------------------------------- *)

(* What a body does: it has an answer, or it calls a cached function and goes on with the
   answer of that call. *)
Inductive comp := Ret (v : val) | Call (f : nat) (k : args) (next : val -> comp).

(* The bodies of the cached functions. *)
Variable body : nat -> args -> comp.

(* The caches, and the number of calls so far.  At each call there may be a garbage collection
   that empties some caches (Sweep_G_caches), or a clean_clets: lost says which. *)
Definition caches := nat -> cache.
Variable lost : nat -> nat -> bool.
Definition sweep (t : nat) (s : caches) : caches :=
  fun f => if lost t f then empty else s f.
Definition set (s : caches) (f : nat) (c : cache) : caches :=
  fun g => if Nat.eqb g f then c else s g.

(* The rule of P_CACHE (graph.c 4403-4444).  The condition under which evaluation takes place is
   the first one of the arguments k. *)
Fixpoint eval (n : nat) (t : nat) (s : caches) (c : comp) : res (val * nat * caches) :=
  match n with
  | O => More
  | S n =>
      match c with
      | Ret v => Ok (v, t, s)
      | Call f k next =>
          let s := sweep t s in
          match find n (s f) k with
          | Crash => Crash
          | Full => Full
          | More => More
          | Ok (Some v) => eval n (S t) s (next v)
          | Ok None =>
              match eval n (S t) s (body f k) with
              | Ok (v, t, s) =>
                  match insert k v (s f) with
                  | Ok c => eval n t (set s f c) (next v)
                  | Crash => Crash
                  | Full => Full
                  | More => More
                  end
              | r => r
              end
          end
      end
  end.
End Memo.
Arguments Ok {A}. Arguments Crash {A}. Arguments Full {A}. Arguments More {A}.
