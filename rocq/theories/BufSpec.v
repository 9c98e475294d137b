(* What a buffer is meant to be: a list of items; and a buffer of distinct
   items: a list without repetition, an item known by its place. *)
From Coq Require Import List NArith ZArith Bool.
From Verif Require Import BufModel.
Import ListNotations.
Local Open Scope N_scope.

Section Spec.
Variable s : N.  (* the size of the items *)

Definition blank : bytes := zeros s.
Definition resized (l : list bytes) (n : N) : list bytes :=
  firstn (N.to_nat n) (l ++ repeat blank (N.to_nat n - length l)).
Definition set_nth (l : list bytes) (i : N) (x : bytes) : list bytes :=
  firstn (N.to_nat i) l ++ x :: skipn (S (N.to_nat i)) l.
Definition len {A} (l : list A) : N := N.of_nat (length l).
Definition at_ (l : list bytes) (i : N) : bytes := nth (N.to_nat i) l [].

Definition sp_step (o : bop) (l : list bytes) : bytes * list bytes :=
  match o with
  | BPush x => ([], l ++ [x])
  | BPop => (last l [], removelast l)
  | BStore i x => ([], set_nth l i x)
  | BFetch i => (at_ l i, l)
  | BResize n => ([], resized l n)
  | BLocate i => if len l <=? i then (blank, resized l (i + 1)) else (at_ l i, l)
  | BTop => (last l [], l)
  | BEmpty => ([if len l =? 0 then 1 else 0], l)
  | BCount => ([len l], l)
  end.
Fixpoint sp_run (o : list bop) (l : list bytes) : list bytes * list bytes :=
  match o with
  | [] => ([], l)
  | a :: o => let (x, l) := sp_step a l in let (r, l) := sp_run o l in (x :: r, l)
  end.

(* Proper use: items of the right size; nothing is taken from an empty buffer;
   an item is stored below the count, and not fetched just at the count; the
   block stays below 4 GB (2 GB when an item is pushed). *)
Definition allowed (o : bop) (l : list bytes) : Prop :=
  match o with
  | BPush x => len x = len blank /\ 2 * s * len l < 2 ^ 32
  | BPop | BTop => l <> []
  | BStore i x => len x = len blank /\ i < len l
  | BFetch i => i <> len l
  | BResize n => s * n < 2 ^ 32
  | BLocate i => s * (i + 1) < 2 ^ 32
  | BEmpty | BCount => True
  end.
Fixpoint proper (o : list bop) (l : list bytes) : Prop :=
  match o with
  | [] => True
  | a :: o => allowed a l /\ proper o (snd (sp_step a l))
  end.

(* distinct items *)
Fixpoint place (x : bytes) (l : list bytes) : Z :=
  match l with
  | [] => -1
  | y :: l =>
      if list_eq_dec N.eq_dec x y then 0
      else if place x l =? -1 then -1 else place x l + 1
  end%Z.
Definition us_step (o : uop) (l : list bytes) : uans * list bytes :=
  match o with
  | UPush x => if (place x l =? -1)%Z then (Num 1, l ++ [x]) else (Num 0, l)
  | UIndex x => (Num (place x l), l)
  | UAdd x => if (place x l =? -1)%Z then (Num (Z.of_N (len l)), l ++ [x]) else (Num (place x l), l)
  | ULocate i | UFetch i => (Item (at_ l i), l)
  end.
Fixpoint us_run (o : list uop) (l : list bytes) : list uans * list bytes :=
  match o with
  | [] => ([], l)
  | a :: o => let (x, l) := us_step a l in let (r, l) := us_run o l in (x :: r, l)
  end.
Definition u_allowed (o : uop) (l : list bytes) : Prop :=
  match o with
  | UPush x | UAdd x => len x = len blank /\ 2 * s * len l < 2 ^ 32 /\ len l <= 2147483629
  | UIndex x => len x = len blank
  | ULocate i => i < len l
  | UFetch i => i <> len l
  end.
Fixpoint u_proper (o : list uop) (l : list bytes) : Prop :=
  match o with
  | [] => True
  | a :: o => u_allowed a l /\ u_proper o (snd (us_step a l))
  end.
End Spec.
