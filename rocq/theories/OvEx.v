(* Stores and functions for the examples of C55. *)
From Coq Require Import String List Bool Arith Lia.
From Verif Require Import TyModel TyThms InfModel InfSpec InfEx InfRun InfTop InfEnd
  OvModel OvSpec OvPath OvStore OvThms OvEnd.
Import ListNotations.
Open Scope list_scope.

(* The persistent store. *)
Definition ov_g : heap :=
  [ NVar; NCon CInt []; NCon CBool []; NCon CString [];
    NCon CArrow [0; 2]; NCon CArrow [0; 4];              (* 5: a -> a -> bool *)
    NCon CArrow [1; 2]; NCon CArrow [1; 6];              (* 7: int -> int -> bool *)
    NCon CArrow [2; 2]; NCon CArrow [2; 8];              (* 9: bool -> bool -> bool *)
    NCon CList [0]; NCon CArrow [10; 2]; NCon CArrow [10; 11];
    NCon CArrow [5; 12];                                 (* 13: (a -> a -> bool) -> a list -> a list -> bool *)
    NCon CArrow [0; 3];                                  (* 14: a -> string *)
    NCon CArrow [1; 3];                                  (* 15: int -> string *)
    NCon CArrow [11; 4] ].                               (* 16: (a list -> bool) -> a -> bool *)
(* 0: equality, overloaded, with 1, 2, 3 for integers, truth values and lists; 4: show, overloaded,
   with 5; 6: overloaded, with 7, whose implicit argument is 6 at a larger type. *)
Definition ov_fns : list fn :=
  [ mkFn 5 [] true [1; 2; 3]; mkFn 7 [] false []; mkFn 9 [] false []; mkFn 13 [0] false [];
    mkFn 14 [] true [5]; mkFn 15 [] false [];
    mkFn 4 [] true [7]; mkFn 16 [6] false [] ].
(* The store of the expression; there is one context. *)
Definition ov_s : tstate := mkT
  [ NVar; NCon CInt []; NCon CBool []; NCon CString [];
    NCon CList [1]; NCon CList [4]; NCon CArrow [5; 2]; NCon CArrow [5; 6];   (* 7: at int list list *)
    NCon CArrow [3; 2]; NCon CArrow [3; 8];                                   (* 9: at string *)
    NCon CArrow [0; 2]; NCon CArrow [0; 10];                                  (* 11: at a *)
    NCon CArrow [1; 2];                                                       (* 12: int -> bool *)
    NCon CArrow [2; 3];                                                       (* 13: bool -> string *)
    NCon CArrow [1; 3] ] [[]].                                                (* 14: int -> string *)

Definition ov_sigma : nat -> tree := expand 17 ov_g.
Lemma ov_g_store : store arity ov_g.
Proof. apply backwards_store. reflexivity. Qed.
Lemma ov_reads : reading ov_g ov_sigma.
Proof.
  intros p n N. unfold ov_sigma. do 17 (destruct p as [|p]; [cbn in N; injection N as <-; exact I || (vm_compute; reflexivity)|]).
  destruct p; discriminate.
Qed.
Lemma ov_vars p : nth_error ov_g p = Some NVar -> ov_sigma p = Nd (LVar p) [].
Proof.
  intros N. unfold ov_sigma. do 17 (destruct p as [|p]; [cbn in N; discriminate || (vm_compute; reflexivity)|]).
  destruct p; discriminate.
Qed.
Lemma ov_s_ok : okst arity ov_s.
Proof.
  destruct (backwards_store (t_heap ov_s) eq_refl) as (A & B & C).
  split; [exact A|]. split; [exact B|]. split; [exact C|]. discriminate.
Qed.
Lemma ov_table : good_table ov_fns ov_sigma ov_g.
Proof.
  split.
  - intros f F E. do 8 (destruct f as [|f]; [injection E as <-; cbn; lia|]). destruct f; discriminate.
  - intros f F g E I.
    assert (J : In g [1; 2; 3; 5; 7]).
    { do 8 (destruct f as [|f]; [injection E as <-; cbn in *; intuition|]). destruct f; discriminate. }
    clear f F E I. cbn in J. destruct J as [<-|[<-|[<-|[<-|[<-|[]]]]]].
    1: exists (mkFn 7 [] false []), 7, []. 2: exists (mkFn 9 [] false []), 9, [].
    3: exists (mkFn 13 [0] false []), 12, [ov_sigma 5]. 4: exists (mkFn 15 [] false []), 15, [].
    5: exists (mkFn 16 [6] false []), 4, [ov_sigma 11].
    all: split; [reflexivity|]; split; [reflexivity|]; split; [vm_compute; reflexivity|].
    1,2,4: constructor.
    + constructor; [|constructor]. exists (mkFn 5 [] true [1; 2; 3]), (fun v => Nd (LVar v) []).
      split; [reflexivity|vm_compute; reflexivity].
    + constructor; [|constructor]. exists (mkFn 4 [] true [7]), (fun v => tcon CList [Nd (LVar v) []]).
      split; [reflexivity|vm_compute; reflexivity].
Qed.

(* The answers. *)
Definition ov_run (depth : nat) (todo : list occ) : option answer :=
  match nbr_succ 60 ov_g ov_fns (fun _ _ _ => false) depth todo ov_s with
  | ROk a _ => Some a
  | _ => None
  end.
Definition ov_loops (depth : nat) (todo : list occ) : bool :=
  match nbr_succ 60 ov_g ov_fns (fun _ _ _ => false) depth todo ov_s with
  | RFail _ => true
  | _ => false
  end.

Lemma ov_run_ok depth todo a : ov_run depth todo = Some a ->
  exists s2, nbr_succ 60 ov_g ov_fns (fun _ _ _ => false) depth todo ov_s = ROk a s2.
Proof.
  unfold ov_run. destruct (nbr_succ 60 ov_g ov_fns (fun _ _ _ => false) depth todo ov_s); try discriminate.
  intros [= ->]. eauto.
Qed.
Lemma ov_blame : ov_run 9 [(0, 7); (4, 13)] = Some (ANone 0).
Proof. vm_compute. reflexivity. Qed.
Lemma ov_blame_one : ov_run 9 [(0, 7)] = Some (AOne [2; 2; 0]).
Proof. vm_compute. reflexivity. Qed.
Lemma ov_blame_none : ov_run 9 [(4, 13)] = Some (ANone 4).
Proof. vm_compute. reflexivity. Qed.
Lemma ov_s_nv : allnv ov_s.
Proof. repeat constructor. Qed.
Lemma ov_occs n todo : forallb (fun o => (snd o <? n) && (fst o <? 8)) todo = true -> occs_ok ov_fns n todo.
Proof.
  intros E o I. rewrite forallb_forall in E. specialize (E o I). apply andb_true_iff in E as [A B].
  apply Nat.ltb_lt in A, B. split; [assumption|]. intros X. apply nth_error_None in X. cbn in X. lia.
Qed.
