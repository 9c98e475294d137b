(* Model of the hash tables with generations of src/lib/generation_hash.c, over
   the model of hash.c in HashModel.v.

   A record is the main table and the difference records, the latest first
   (diff_rec_buf); cur_diff is the first of them, and NULL when there is none.
   [None] is undefined behaviour: a null pointer followed, or an access outside
   a table.  Keys are of any type; [word] is a key read as a pointer, for the
   table to_del has keys as data.  Simplification: the magic numbers checked by
   ASSERT are not represented (a record is created once, and not used after
   dispose_gen_hash). *)
From Coq Require Import List NArith Bool.
From Verif Require Import HashModel.
Import ListNotations.
Local Open Scope N_scope.

Notation "'get' x 'from' o ; k" := (match o with Some x => k | None => None end)
  (at level 200, x pattern, k at level 200, only parsing).

Section Gen.
Context {K : Type}.
Variable hash_fn : K -> N -> N.
Variable hash_eq : K -> K -> bool.
Variable word : K -> N.

(* generation_hash.h 21-34; a difference record is (to_del, to_add) *)
Record gtab := mkG {
  g_main : htab K;
  g_diffs : list (htab K * htab K) }.

(* begin_generation 22-32 *)
Definition begin_generation (g : gtab) : option gtab :=
  get td from create_hash 100;
  get ta from create_hash 100;
  Some (mkG (g_main g) ((td, ta) :: g_diffs g)).

(* create_gen_hash 34-46 *)
Definition create_gen_hash (size : N) : option gtab :=
  get main from create_hash size;
  begin_generation (mkG main []).

(* find_gen_hash 63-68 *)
Definition find_gen_hash (g : gtab) (key : K) : option N :=
  find_hash hash_fn hash_eq (g_main g) key.

(* insert_gen_hash 70-91 *)
Definition insert_gen_hash (g : gtab) (key : K) (data : N) : option gtab :=
  match g_diffs g with
  | [] => None
  | (td, ta) :: ds =>
      get in_del from find_hash hash_fn hash_eq td key;
      get in_add from find_hash hash_fn hash_eq ta key;
      get in_main from find_hash hash_fn hash_eq (g_main g) key;
      if negb (in_del =? 0) || negb (in_add =? 0) then
        get main from insert_hash hash_fn (g_main g) key data;
        Some (mkG main ((td, ta) :: ds))
      else
        get td from insert_hash hash_fn td key (word key);
        get ta from (if negb (in_main =? 0) then insert_hash hash_fn ta key in_main
                     else Some ta);
        get main from insert_hash hash_fn (g_main g) key data;
        Some (mkG main ((td, ta) :: ds))
  end.

(* delete_gen_hash 93-113 *)
Definition delete_gen_hash (g : gtab) (key : K) : option gtab :=
  match g_diffs g with
  | [] => None
  | (td, ta) :: ds =>
      get in_del from find_hash hash_fn hash_eq td key;
      get in_add from find_hash hash_fn hash_eq ta key;
      get in_main from find_hash hash_fn hash_eq (g_main g) key;
      if negb (in_del =? 0) || negb (in_add =? 0) then
        get main from delete_hash hash_fn hash_eq (g_main g) key;
        Some (mkG main ((td, ta) :: ds))
      else
        get ta from (if negb (in_main =? 0) then insert_hash hash_fn ta key in_main
                     else Some ta);
        get main from delete_hash hash_fn hash_eq (g_main g) key;
        Some (mkG main ((td, ta) :: ds))
  end.

(* scan_hash(to_del, del_fun) and scan_hash(to_add, add_fun), with del_fun
   139-144 and add_fun 146-150 *)
Fixpoint del_all (l : list (K * N)) (main : htab K) : option (htab K) :=
  match l with
  | [] => Some main
  | (k, _) :: l => get main from delete_hash hash_fn hash_eq main k; del_all l main
  end.
Fixpoint add_all (l : list (K * N)) (main : htab K) : option (htab K) :=
  match l with
  | [] => Some main
  | (k, d) :: l => get main from insert_hash hash_fn main k d; add_all l main
  end.

(* end_generation 116-133 *)
Definition end_generation (g : gtab) : option gtab :=
  match g_diffs g with
  | [] => None
  | (td, ta) :: ds =>
      get main from del_all (scan_hash td) (g_main g);
      get main from add_all (scan_hash ta) main;
      Some (mkG main ds)
  end.

(* Histories; the answer to a call is what find_gen_hash returns, and 0 for the
   other calls. *)
Inductive gop :=
| GIns (k : K) (d : N)
| GDel (k : K)
| GFind (k : K)
| GBegin
| GEnd.

Definition gstep (o : gop) (g : gtab) : option (N * gtab) :=
  match o with
  | GIns k d => option_map (pair 0) (insert_gen_hash g k d)
  | GDel k => option_map (pair 0) (delete_gen_hash g k)
  | GFind k => option_map (fun d => (d, g)) (find_gen_hash g k)
  | GBegin => option_map (pair 0) (begin_generation g)
  | GEnd => option_map (pair 0) (end_generation g)
  end.
Fixpoint grun (l : list gop) (g : gtab) : option (list N * gtab) :=
  match l with
  | [] => Some ([], g)
  | o :: l =>
      get (a, g) from gstep o g;
      get (r, g) from grun l g;
      Some (a :: r, g)
  end.
End Gen.
Arguments gtab : clear implicits.
Arguments gop : clear implicits.
