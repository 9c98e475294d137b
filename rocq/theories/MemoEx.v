(* Cached functions: examples, and what goes wrong with reference variables and external
   objects. *)
From Coq Require Import ZArith List Bool String Lia.
From Verif Require Import MemoModel MemoSpec MemoThms.
Import ListNotations.
Open Scope Z_scope.

(* The answer without caches, by computation. *)
Fixpoint direct (body : nat -> args -> comp) (n : nat) (c : comp) : option (val * Z) :=
  match n with
  | O => None
  | S n =>
      match c with
      | Ret v => Some (v, 0)
      | Call f k next =>
          match direct body n (body f k) with
          | Some (v, a) =>
              match direct body n (next v) with Some (w, b) => Some (w, 1 + a + b) | None => None end
          | None => None
          end
      end
  end.
Lemma direct_runs body n : forall c v a, direct body n c = Some (v, a) -> runs body c v a.
Proof.
  induction n as [|n IH]; intros c v a; [discriminate|].
  destruct c as [w|f k next]; cbn [direct].
  - intros H; inversion H; subst. constructor.
  - destruct (direct body n (body f k)) as [[w b]|] eqn:E1; [|discriminate].
    destruct (direct body n (next w)) as [[x d]|] eqn:E2; [|discriminate].
    intros H; inversion H; subst. econstructor; eauto.
Qed.

(* clet fib n = n < 2 => n | fib (n-1) + fib (n-2) *)
Definition fib (f : nat) (k : args) : comp :=
  match k with
  | [Int n] =>
      if n <? 2 then Ret (Int n)
      else Call f [Int (n - 1)] (fun a => Call f [Int (n - 2)] (fun b =>
        match a, b with Int a, Int b => Ret (Int (a + b)) | _, _ => Ret Nil end))
  | _ => Ret Nil
  end.
Definition fibK (f : nat) (k : args) : Prop := exists n, k = [Int n].
Definition sum (k : args) (n : Z) : Z := match k with [Int z] => z | _ => 0 end.
Definition no_refs (r : nat) : val := Nil.
Definition same_obj (c a b : Z) : bool := Z.eqb a b.

Lemma fib_typed : typed fib fibK.
Proof.
  split.
  - intros f k l (a & ->) (b & ->). constructor; [exact I|constructor].
  - intros f k (n & ->). cbn [fib]. destruct (n <? 2); [exact I|].
    split; [eexists; reflexivity|]. intros v _ _. split; [eexists; reflexivity|].
    intros w _ _. destruct v; try exact I. destruct w; exact I.
Qed.

(* 20 is called 21891 times without caches, and 39 times with them. *)
Definition fib20 : comp := Call 0 [Int 20] Ret.
Lemma fib20_within : within fib fibK fib20.
Proof. split; [eexists; reflexivity|]. intros v n _. exact I. Qed.
Lemma fib20_runs : runs fib fib20 (Int 6765) 21891.
Proof. apply (direct_runs fib 60). vm_compute. reflexivity. Qed.
Lemma fib20_eval : exists s, eval no_refs same_obj sum fib (fun _ _ => false) 60 0 (fun _ => empty) fib20 = Ok (Int 6765, 39%nat, s).
Proof. eexists. vm_compute. reflexivity. Qed.

(* Two calls of a function that returns its argument. *)
Definition self (f : nat) (k : args) : comp := match k with v :: _ => Ret v | [] => Ret Nil end.
Definition twice (v w : val) : comp := Call 0 [v] (fun _ => Call 0 [w] Ret).
Lemma twice_runs v w : runs self (twice v w) w 2.
Proof.
  apply (runs_call self 0 [v] _ v w 0 1); [constructor|].
  apply (runs_call self 0 [w] _ w w 0 0); constructor.
Qed.

Definition fives (r : nat) : val := Int 5.
Definition zero_hash (k : args) (n : Z) : Z := 0.
Lemma refs_wrong : exists t s,
  eval fives same_obj zero_hash self (fun _ _ => false) 10 0 (fun _ => empty) (twice (Ref 0) (Ref 1))
  = Ok (Ref 0, t, s).
Proof. do 2 eexists. vm_compute. reflexivity. Qed.

Lemma classes_wrong :
  eval fives same_obj zero_hash self (fun _ _ => false) 10 0 (fun _ => empty) (twice (Ext 1 7) (Ext 2 7))
  = Crash.
Proof. vm_compute. reflexivity. Qed.
