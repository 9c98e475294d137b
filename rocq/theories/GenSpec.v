(* What a table with generations is meant to be: a finite map, and the maps as
   they were when the open generations began, the latest first.  A map is a
   function here; 0 stands for no binding. *)
From Coq Require Import List NArith Bool.
From Verif Require Import GenModel.
Import ListNotations.
Local Open Scope N_scope.

Section Spec.
Context {K : Type}.
Variable hash_eq : K -> K -> bool.

Definition fmap := K -> N.
Definition put (k : K) (d : N) (m : fmap) : fmap :=
  fun j => if hash_eq j k then d else m j.

Definition world : Type := fmap * list fmap.
Definition sp_step (o : gop K) (w : world) : N * world :=
  let (m, st) := w in
  match o with
  | GIns k d => (0, (put k d m, st))
  | GDel k => (0, (put k 0 m, st))
  | GFind k => (m k, w)
  | GBegin => (0, (m, m :: st))
  | GEnd => (0, match st with [] => w | s :: st => (s, st) end)
  end.
Fixpoint sp_run (l : list (gop K)) (w : world) : list N * world :=
  match l with
  | [] => ([], w)
  | o :: l =>
      let (a, w) := sp_step o w in
      let (r, w) := sp_run l w in (a :: r, w)
  end.
(* the table just created *)
Definition start : world := (fun _ => 0, [fun _ => 0]).

(* Proper use.  [ts] has, for each open generation, the keys inserted or deleted
   in it.  A key is inserted when it has no binding and deleted when it has one,
   and at most one of the two in a generation; data are not NULL; a generation
   is open whenever the table is changed.  [n] bounds the number of bindings. *)
Definition touched (k : K) (ts : list (list K)) : bool :=
  match ts with [] => true | t :: _ => existsb (hash_eq k) t end.
Definition touch (k : K) (ts : list (list K)) : list (list K) :=
  match ts with [] => [] | t :: ts => (k :: t) :: ts end.
Fixpoint proper (l : list (gop K)) (w : world) (ts : list (list K)) : Prop :=
  match l with
  | [] => True
  | o :: l =>
      let w' := snd (sp_step o w) in
      match o with
      | GIns k d => d <> 0 /\ fst w k = 0 /\ touched k ts = false /\ proper l w' (touch k ts)
      | GDel k => fst w k <> 0 /\ touched k ts = false /\ proper l w' (touch k ts)
      | GFind k => proper l w' ts
      | GBegin => proper l w' ([] :: ts)
      | GEnd => ts <> [] /\ proper l w' (tl ts)
      end
  end.
(* the number of insertions *)
Definition inserts (l : list (gop K)) : N :=
  N.of_nat (length (filter (fun o => match o with GIns _ _ => true | _ => false end) l)).

(* Each GEnd in [l] closes a generation begun in [l], and all are closed. *)
Fixpoint closes (n : nat) (l : list (gop K)) : bool :=
  match l with
  | [] => Nat.eqb n 0
  | GBegin :: l => closes (S n) l
  | GEnd :: l => match n with O => false | S n => closes n l end
  | _ :: l => closes n l
  end.
End Spec.
