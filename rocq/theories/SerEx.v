(* Concrete graphs. *)
From Coq Require Import ZArith List Ascii Bool Lia String.
From Verif Require Import SerModel SerSpec.
Import ListNotations.
Open Scope list_scope.
Open Scope Z_scope.

Definition str (s : string) : chars := list_ascii_of_string s.
Definition heap_of (l : list (ptr * node)) (p : ptr) : option node :=
  option_map snd (find (fun x => Pos.eqb (fst x) p) l).
Definition no_refs (r : Z) : option ptr := None.
Definition empty_session : session := mk_s (fun p => if Pos.eqb p 1 then Some NNil else None) 2%positive no_refs 0 0.
Definition sig1 : chars := str "T=  A::T ".
Definition sig2 : chars := str "T=  A::T | B::T ".

(* A list with a shared string, a number, a vector and a reference variable that holds the list
   itself. *)
Definition g_heap : ptr -> option node := heap_of
  [(100, NCons 101 102); (101, NText KString (str "a b")); (102, NCons 101 103);
   (103, NCons 104 105); (104, NInt (-42)); (105, NCons 106 107); (106, NBv [7; 0; 7]%Z);
   (107, NCons 108 109); (108, NRef 3); (109, NNil)]%positive.
Definition g_refs (r : Z) : option ptr := if r =? 3 then Some 100%positive else None.
Definition g_dom : list ptr := [100; 101; 102; 103; 104; 105; 106; 107; 108; 109]%positive.

Lemma g_closed : closed g_heap g_refs g_dom.
Proof.
  intros p I. cbn in I. split.
  - repeat (destruct I as [<-|I]; [eexists; split; [reflexivity|]; intros r E; try discriminate; injection E as <-; eexists; reflexivity|]).
    destruct I.
  - intros q Ed. repeat (destruct I as [<-|I];
      [inversion Ed as [? a b X|? a b X|? a b X|? a b X|? r c X Y]; subst; cbn in X; try discriminate;
       injection X; intros; subst; cbn in *; try (injection Y; intros; subst); tauto|]). destruct I.
Qed.

Lemma g_reach : forall x, reach g_heap g_refs 100%positive x -> In x g_dom.
Proof.
  intros x R. induction R as [|a b R IH Ed]; [left; reflexivity|]. exact (proj2 (g_closed a IH) b Ed).
Qed.
Lemma g_faithful : forall x n, reach g_heap g_refs 100%positive x -> g_heap x = Some n -> faithful n.
Proof.
  intros x n R H. apply g_reach in R. cbn in R.
  repeat (destruct R as [<-|R]; [cbn in H; injection H as <-; cbn [faithful];
    first [exact I | vm_compute; discriminate | split; [discriminate|split; [cbn; intuition discriminate|vm_compute; discriminate]]]|]).
  destruct R.
Qed.
Lemma g_unique : forall x y r, reach g_heap g_refs 100%positive x -> reach g_heap g_refs 100%positive y ->
  g_heap x = Some (NRef r) -> g_heap y = Some (NRef r) -> x = y.
Proof.
  assert (G : forall x r, reach g_heap g_refs 100%positive x -> g_heap x = Some (NRef r) -> x = 108%positive).
  { intros x r R H. apply g_reach in R. cbn in R.
    repeat (destruct R as [<-|R]; [first [reflexivity|discriminate H]|]). destruct R. }
  intros x y r Rx Ry Hx Hy. rewrite (G x r Rx Hx), (G y r Ry Hy). reflexivity.
Qed.

(* Two nodes with the same reference variable. *)
Definition alias_heap : ptr -> option node := heap_of
  [(10, NCons 11 12); (11, NRef 0); (12, NCons 13 14); (13, NRef 0); (14, NNil)]%positive.
Definition alias_refs (r : Z) : option ptr := if r =? 0 then Some 14%positive else None.

(* A graph whose root is part of a cycle. *)
Definition loop_heap : ptr -> option node := heap_of [(10, NApp 11 10); (11, NPrim 5)]%positive.

(* A variable. *)
Definition var_heap : ptr -> option node := heap_of [(10, NText KVar (str "x"))]%positive.
Definition var_archive : archive := mk_a (str "1
T=  A::T 
") [] [] (str "1 x
") (str "0xa
V
0
").
Lemma var_load : forall fuel, load_graph fuel sig1 var_archive [] [] std_streams 1%positive empty_session = None.
Proof.
  intros fuel. unfold load_graph.
  assert (H1 : sig_ok sig1 (a_sig var_archive) = Some true) by (vm_compute; reflexivity).
  assert (H2 : read_entries (S (List.length (a_strs var_archive))) (a_strs var_archive) = Some [str "x"; []])
    by (vm_compute; reflexivity).
  rewrite H1, H2.
  assert (H3 : forall tb, read_ptr tb fuel (a_graph var_archive) (mk_r [] empty_session) = None).
  { intros tb. destruct fuel as [|f]; [reflexivity|]. cbn [read_ptr].
    assert (H4 : get_ptr (a_graph var_archive) = Some (Zpos 10, str "V
0
")) by (vm_compute; reflexivity).
    rewrite H4. reflexivity. }
  rewrite H3. reflexivity.
Qed.
