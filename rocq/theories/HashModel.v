(* Model of the chained hash tables of src/lib/hash.c.

   A table is a list of chains; a chain is a list of (key, data) pairs, first
   bucket first.  Keys are of any type; hash_fn and hash_eq are parameters of
   the operations.  Data are words, 0 is NULL.  Simplifications: the bucket
   records come from a record manager (see RecModel.v) and are not represented;
   counters do not wrap (the theorems bound the number of elements). *)
From Coq Require Import List NArith Bool.
Import ListNotations.
Local Open Scope N_scope.

(* hash.c 12-41 *)
Definition primes : list N :=
  [13; 23; 59; 113; 241; 503; 1019; 2039; 4091; 8179; 16369; 32749; 65521;
   131063; 262139; 524269; 1048571; 2097143; 4194287; 8388593; 16777199;
   33554393; 67108859; 134217689; 268435399; 536870879; 1073741789; 2147483629].

(* The loops "while( primes[i] < size ) i++;" of create_hash (56) and
   insert_hash (206).  The terminating 0 does not stop them for a positive
   size: [None] is reading past the end of the array. *)
Fixpoint first_prime (l : list N) (size : N) : option N :=
  match l with
  | [] => if size =? 0 then Some 0 else None
  | p :: l => if p <? size then first_prime l size else Some p
  end.

Section Hash.
Context {K : Type}.
Variable hash_fn : K -> N -> N.
Variable hash_eq : K -> K -> bool.

Record htab := mkH {
  h_auto : bool;
  h_size : N;
  h_elems : N;
  h_tab : list (list (K * N)) }.

(* create_hash 47-72 *)
Definition create_hash (size : N) : option htab :=
  match first_prime primes size with
  | None => None
  | Some n => Some (mkH true n 0 (repeat [] (N.to_nat n)))
  end.

(* autosize_hash 80, freeze_size_hash 87 *)
Definition set_auto (b : bool) (t : htab) : htab :=
  mkH b (h_size t) (h_elems t) (h_tab t).

(* find_hash 180: the chain walk *)
Fixpoint walk (key : K) (c : list (K * N)) : N :=
  match c with
  | [] => 0
  | (k, d) :: c => if hash_eq key k then d else walk key c
  end.
(* [None]: the bucket is outside the table *)
Definition find_hash (t : htab) (key : K) : option N :=
  match nth_error (h_tab t) (N.to_nat (hash_fn key (h_size t))) with
  | None => None
  | Some c => Some (walk key c)
  end.

(* pushing on a chain: FAST_LOC_BUF / store_buf, with the bounds check *)
Fixpoint push_chain (tab : list (list (K * N))) (i : nat) (e : K * N)
  : option (list (list (K * N))) :=
  match tab, i with
  | [], _ => None
  | c :: tab, O => Some ((e :: c) :: tab)
  | c :: tab, S i =>
      match push_chain tab i e with None => None | Some tab => Some (c :: tab) end
  end.

(* insert_hash 216-227: moving the old chains, in order, to the new table *)
Fixpoint move_chain (new_size : N) (c : list (K * N)) (new_tbl : list (list (K * N)))
  : option (list (list (K * N))) :=
  match c with
  | [] => Some new_tbl
  | (k, d) :: c =>
      match push_chain new_tbl (N.to_nat (hash_fn k new_size)) (k, d) with
      | None => None
      | Some new_tbl => move_chain new_size c new_tbl
      end
  end.
Fixpoint move_all (new_size : N) (tab : list (list (K * N)))
    (new_tbl : list (list (K * N))) : option (list (list (K * N))) :=
  match tab with
  | [] => Some new_tbl
  | c :: tab =>
      match move_chain new_size c new_tbl with
      | None => None
      | Some new_tbl => move_all new_size tab new_tbl
      end
  end.

(* insert_hash 200-231 *)
Definition resize (t : htab) : option htab :=
  if h_auto t && (2 * h_size t <? h_elems t) then
    match first_prime primes (h_elems t) with
    | None => None
    | Some n =>
        match move_all n (h_tab t) (repeat [] (N.to_nat n)) with
        | None => None
        | Some tab => Some (mkH (h_auto t) n (h_elems t) tab)
        end
    end
  else Some t.

(* insert_hash 193-239 *)
Definition insert_hash (t : htab) (key : K) (data : N) : option htab :=
  match resize t with
  | None => None
  | Some t =>
      match push_chain (h_tab t) (N.to_nat (hash_fn key (h_size t))) (key, data) with
      | None => None
      | Some tab => Some (mkH (h_auto t) (h_size t) (h_elems t + 1) tab)
      end
  end.

(* delete_hash 242: [None] when the end of the chain is reached, because
   bp->key is then read through NULL *)
Fixpoint unchain (key : K) (c : list (K * N)) : option (list (K * N)) :=
  match c with
  | [] => None
  | (k, d) :: c =>
      if hash_eq key k then Some c
      else match unchain key c with None => None | Some c => Some ((k, d) :: c) end
  end.
Fixpoint del_chain (tab : list (list (K * N))) (i : nat) (key : K)
  : option (list (list (K * N))) :=
  match tab, i with
  | [], _ => None
  | c :: tab, O => match unchain key c with None => None | Some c => Some (c :: tab) end
  | c :: tab, S i =>
      match del_chain tab i key with None => None | Some tab => Some (c :: tab) end
  end.
Definition delete_hash (t : htab) (key : K) : option htab :=
  match del_chain (h_tab t) (N.to_nat (hash_fn key (h_size t))) key with
  | None => None
  | Some tab => Some (mkH (h_auto t) (h_size t) (h_elems t - 1) tab)
  end.

(* scan_hash 262: the pairs in the order in which scan_fn is called *)
Definition scan_hash (t : htab) : list (K * N) := concat (h_tab t).

(* insert_check_hash 286 *)
Definition insert_check_hash (t : htab) (key : K) (data : N) : option (bool * htab) :=
  match find_hash t key with
  | None => None
  | Some d =>
      if d =? 0 then
        match insert_hash t key data with
        | None => None
        | Some t => Some (true, t)
        end
      else Some (false, t)
  end.

(* Histories.  The answer to a call is a number: what find_hash returns, the
   truth value of insert_check_hash, hash_size, 0 otherwise. *)
Inductive hop :=
| HIns (k : K) (d : N)
| HDel (k : K)
| HFind (k : K)
| HCheckIns (k : K) (d : N)
| HSize
| HAuto (b : bool).

Definition hstep (o : hop) (t : htab) : option (N * htab) :=
  match o with
  | HIns k d => option_map (pair 0) (insert_hash t k d)
  | HDel k => option_map (pair 0) (delete_hash t k)
  | HFind k => option_map (fun d => (d, t)) (find_hash t k)
  | HCheckIns k d =>
      option_map (fun bt : bool * htab => (if fst bt then 1 else 0, snd bt))
                 (insert_check_hash t k d)
  | HSize => Some (h_elems t, t)
  | HAuto b => Some (0, set_auto b t)
  end.
Fixpoint hrun (l : list hop) (t : htab) : option (list N * htab) :=
  match l with
  | [] => Some ([], t)
  | o :: l =>
      match hstep o t with
      | None => None
      | Some (a, t) =>
          match hrun l t with
          | None => None
          | Some (r, t) => Some (a :: r, t)
          end
      end
  end.

(* ---------------------------------------------------------------------- *)
(* Specification: the bindings in a list, latest first.  A look-up gives the
   latest binding of the key; a deletion takes the latest binding away. *)
Fixpoint sp_find (key : K) (m : list (K * N)) : N :=
  match m with
  | [] => 0
  | (k, d) :: m => if hash_eq key k then d else sp_find key m
  end.
Fixpoint sp_del (key : K) (m : list (K * N)) : list (K * N) :=
  match m with
  | [] => []
  | (k, d) :: m => if hash_eq key k then m else (k, d) :: sp_del key m
  end.
Definition bound (key : K) (m : list (K * N)) : bool :=
  existsb (fun kd => hash_eq key (fst kd)) m.

Definition sp_step (o : hop) (m : list (K * N)) : N * list (K * N) :=
  match o with
  | HIns k d => (0, (k, d) :: m)
  | HDel k => (0, sp_del k m)
  | HFind k => (sp_find k m, m)
  | HCheckIns k d =>
      if sp_find k m =? 0 then (1, (k, d) :: m) else (0, m)
  | HSize => (N.of_nat (length m), m)
  | HAuto _ => (0, m)
  end.
Fixpoint sp_run (l : list hop) (m : list (K * N)) : list N * list (K * N) :=
  match l with
  | [] => ([], m)
  | o :: l =>
      let (a, m) := sp_step o m in
      let (r, m) := sp_run l m in (a :: r, m)
  end.

(* Proper use: only bound keys are deleted, and no more elements than the
   largest prime. *)
Definition room (m : list (K * N)) : Prop := N.of_nat (length m) <= 2147483629.
Definition allowed (o : hop) (m : list (K * N)) : Prop :=
  match o with
  | HIns _ _ | HCheckIns _ _ => room m
  | HDel k => bound k m = true
  | _ => True
  end.
Fixpoint proper (l : list hop) (m : list (K * N)) : Prop :=
  match l with
  | [] => True
  | o :: l => allowed o m /\ proper l (snd (sp_step o m))
  end.
(* Only unbound keys are inserted. *)
Definition fresh (o : hop) (m : list (K * N)) : Prop :=
  match o with
  | HIns k _ => bound k m = false
  | HCheckIns k _ => sp_find k m = 0 -> bound k m = false
  | _ => True
  end.
Fixpoint fresh_inserts (l : list hop) (m : list (K * N)) : Prop :=
  match l with
  | [] => True
  | o :: l => fresh o m /\ fresh_inserts l (snd (sp_step o m))
  end.
(* The size is never released. *)
Definition frozen (l : list hop) : Prop :=
  Forall (fun o => match o with HAuto b => b = false | _ => True end) l.

(* What hash_fn and hash_eq have to satisfy. *)
Record good_hash : Prop := {
  gh_range : forall k n, 0 < n -> hash_fn k n < n;
  gh_refl : forall k, hash_eq k k = true;
  gh_sym : forall k1 k2, hash_eq k1 k2 = true -> hash_eq k2 k1 = true;
  gh_trans : forall k1 k2 k3,
    hash_eq k1 k2 = true -> hash_eq k2 k3 = true -> hash_eq k1 k3 = true;
  gh_hash : forall k1 k2 n, hash_eq k1 k2 = true -> hash_fn k1 n = hash_fn k2 n }.
End Hash.

Arguments htab : clear implicits.
Arguments hop : clear implicits.
