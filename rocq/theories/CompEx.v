(* Designs for the examples of Comp_Props.v. *)
From Coq Require Import String List Arith ZArith Bool Lia.
From Verif Require Import FsmOps FsmBool SteModel SteSim CompModel CompSpec CompGrow CompExpr CompRank CompLeaf.
Import ListNotations.
Local Open Scope string_scope.

Definition var2 (nm : string) : wexpr := WVar 2 nm.
Definition look1 (nm : string) : list nat :=
  if nm =? "a" then [4; 5] else if nm =? "b" then [6; 7] else if nm =? "sum" then [8; 9]
  else if nm =? "r" then [10; 11] else [].
(* sum = a > b ? a + b : {b[0], a[1]}; r' = sum - ~r *)
Definition leaf1 : list stmt :=
  [Stmt false (var2 "sum")
     (WNode KIte [WNode KGr [var2 "a"; var2 "b"]; WNode (KBin BAdd) [var2 "a"; var2 "b"];
                  WNode KCat [WNode (KSlice [0%Z]) [var2 "b"]; WNode (KSlice [1%Z]) [var2 "a"]]]);
   Stmt true (var2 "r") (WNode (KBin BSub) [var2 "sum"; WNode KNot [var2 "r"]])].

(* a memory read below an equation *)
Definition lookm (nm : string) : list nat :=
  if nm =? "a" then [4] else if nm =? "m" then [5; 6; 7; 8] else if nm =? "b" then [9; 10] else if nm =? "o" then [11] else [].
Definition leafm : list stmt :=
  [Stmt false (WVar 1 "o") (WNode KEq [WNode (KMemRead 1 2 2) [WVar 1 "a"; WVar 4 "m"]; WVar 2 "b"])].

(* a second instance, of which the nodes are declared after the temporaries of the first:
   {q[1], q[0]} <- q & s, s[0] = sum[1] == 1, s[1] = X *)
Definition look2 (nm : string) : list nat :=
  if nm =? "in" then [8; 9] else if nm =? "q" then [21; 22] else if nm =? "s" then [23; 24] else [].
Definition leaf2 : list stmt :=
  [Stmt true (WNode KCat [WNode (KSlice [1%Z]) [var2 "q"]; WNode (KSlice [0%Z]) [var2 "q"]])
     (WNode (KBin BAnd) [var2 "q"; var2 "s"]);
   Stmt false (WNode (KSlice [0%Z]) [var2 "s"])
     (WNode KEq [WNode (KSlice [1%Z]) [var2 "in"]; WNode (KConst 1 1) []]);
   Stmt false (WNode (KSlice [1%Z]) [var2 "s"]) (WNode (KX 1) [])].
Definition design : list item := [Declare 8; Leaf look1 leaf1; Declare 4; Leaf look2 leaf2].
Definition lev (n : nat) : nat := match n with 8 | 9 => 1 | 23 | 24 => 2 | _ => 0 end.

Lemma design_levelled : levelled lev (fns design).
Proof.
  intros look f H. cbn [fns design flat_map map app leaf1 leaf2 In] in H.
  repeat (destruct H as [H|H]; [injection H as <- <-; intros P; try discriminate P; intros v o Hv Ho;
    vm_compute in Hv, Ho; intuition (subst; cbn; lia)|]). easy.
Qed.
Lemma design_single : single_drivers (fns design).
Proof. unfold single_drivers. vm_compute. repeat constructor; cbn; intuition discriminate. Qed.

Ltac fnok := split; [vm_compute; tauto|]; split; [eexists; split; reflexivity|]; split; [vm_compute; intuition discriminate|];
  split; [intros; exact I|]; split; intros n Hn; vm_compute in Hn; split; intuition (subst; cbn; try lia; auto 30).
Lemma design_placed : placed true design const_nodes start.
Proof.
  cbn [design placed]. split.
  - intros f [<-|[<-|[]]]; fnok.
  - intros s' E. vm_compute in E. injection E as <-. cbn [s_nn]. split; [|easy].
    intros f [<-|[<-|[<-|[]]]]; fnok.
Qed.

(* W_PRED below a phase delay *)
Definition lookp (nm : string) : list nat := if nm =? "a" then [4] else if nm =? "r" then [5] else [].
Definition leafp : list stmt := [Stmt true (WVar 1 "r") (WNode KPred [WVar 1 "a"])].

(* a chain of inverters *)
Definition chain (n : nat) : cst :=
  CS (n + 5) (map (fun k => Comp ONot 1 [4 + k] [5 + k] false 0) (seq 0 n))
     (fun k => if (4 <? k)%nat then Some (k - 5) else None) (fun k => if (3 <? k)%nat && (k <? n + 4)%nat then [k - 4] else []).
Lemma chain_feeds n i : i < n -> forall j, In j (feeds (chain n) i) -> j = S i /\ j < n.
Proof.
  intros L j H. unfold feeds, chain in H. cbn [s_comps s_fan] in H.
  replace (nth i (map (fun k => Comp ONot 1 [4 + k] [5 + k] false 0) (seq 0 n)) dummy)
    with (Comp ONot 1 [4 + i] [5 + i] false 0) in H.
  - cbn [c_outs flat_map] in H. rewrite app_nil_r in H.
    destruct (Nat.ltb_spec 3 (5 + i)), (Nat.ltb_spec (5 + i) (n + 4)); cbn in H; intuition lia.
  - symmetry. set (g := fun k => Comp ONot 1 [4 + k] [5 + k] false 0).
    rewrite (nth_indep _ dummy (g 0)) by (now rewrite map_length, seq_length). now rewrite map_nth, seq_nth.
Qed.
Lemma chain_ranks : let s := chain (20 * 55) in
  (forall i, i < 20 * 55 -> forall j, In j (feeds s i) -> i < j) /\ In 1000 (feeds s 999) /\
  c_rank (cmp (to_net s) 999) < c_rank (cmp (to_net s) 1000).
Proof.
  split; [intros i L j H; destruct (chain_feeds _ i L j H); lia|]. split; [left; vm_compute; reflexivity|].
  apply Nat.ltb_lt. vm_compute. reflexivity.
Qed.

Definition f_mem : stmt := nth 0 leafm (Stmt false (WVar 0 "") (WVar 0 "")).
Definition x_mem (t : Z) (n : nat) : bool := match n with 1 | 10 | 11 => true | _ => false end.
Lemma memread_refuted : exists look f s dn x,
  is_lhs (st_lhs f) /\ width look (st_lhs f) = Some 1 /\ width look (st_rhs f) = Some 1 /\
  compile_items true [Declare 8; Leaf look [f]] const_nodes start = Ret (dn, s) /\
  execution (to_net s) x /\ ~ behaviour [(look, f)] x.
Proof.
  exists lookm, f_mem. eexists. eexists. exists x_mem. split; [exact I|]. split; [reflexivity|]. split; [reflexivity|].
  split; [vm_compute; reflexivity|]. split.
  - apply exec_holds. split; [intros t; split; reflexivity|].
    intros C [<-|[<-|[]]] t i L; (destruct i as [|i]; [|cbn in L; lia]); vm_compute; reflexivity.
  - intros [_ B]. destruct (B lookm f_mem (or_introl eq_refl) 0%Z) as [v [[vals [F K]] V]].
    destruct vals as [|v1 [|v2 [|]]]; try tauto. destruct F as [F1 [F2 _]]. cbn in F2. subst v2. cbn in V. subst v.
    destruct F1 as [vals [F1 F2]]. destruct vals as [|w1 [|w2 [|]]]; try tauto. destruct F1 as [G1 [G2 _]]. cbn in G1, G2. subst.
    cbn in F2. destruct K as [r [E K]]. vm_compute in E. injection E as <-. destruct K as [K _]. specialize (K eq_refl).
    vm_compute in K. subst v1. destruct F2 as [_ F2]. specialize (F2 ltac:(lia)). discriminate F2.
Qed.

Definition f_pred : stmt := nth 0 leafp (Stmt false (WVar 0 "") (WVar 0 "")).
Definition x_pred (t : Z) (n : nat) : bool := match n with 0 => false | 1 => true | _ => Z.even t end.
Lemma pred_refuted : exists look f s dn x,
  is_lhs (st_lhs f) /\ width look (st_lhs f) = Some 1 /\ width look (st_rhs f) = Some 1 /\ reads_ok (st_rhs f) /\
  compile_items true [Declare 2; Leaf look [f]] const_nodes start = Ret (dn, s) /\
  execution (to_net s) x /\ ~ behaviour [(look, f)] x.
Proof.
  exists lookp, f_pred. eexists. eexists. exists x_pred. split; [exact I|]. split; [reflexivity|]. split; [reflexivity|].
  split; [vm_compute; intuition discriminate|]. split; [vm_compute; reflexivity|]. split.
  - apply exec_holds. split; [intros t; split; reflexivity|].
    intros C [<-|[]] t i L. destruct i as [|i]; [|cbn in L; lia]. cbn. unfold x_pred. destruct (Z.even t); reflexivity.
  - intros [_ B]. destruct (B lookp f_pred (or_introl eq_refl) 0%Z) as [v [[vals [F K]] V]].
    destruct vals as [|v1 [|]]; try tauto. destruct F as [F _]. cbn in F, K, V. subst. discriminate.
Qed.

(* the circuit of C30_ex as a design: o = ~a, r' = o *)
Definition lookr (nm : string) : list nat :=
  if nm =? "a" then [4] else if nm =? "o" then [5] else if nm =? "r" then [6] else [].
Definition reg_design : list item :=
  [Declare 3; Leaf lookr [Stmt false (WVar 1 "o") (WNode KNot [WVar 1 "a"]); Stmt true (WVar 1 "r") (WVar 1 "o")]].
Definition reg_net : net := match compile_items true reg_design const_nodes start with Ret (_, s) => to_net s | _ => to_net start end.
Lemma reg_ok : placed true reg_design const_nodes start /\ single_drivers (fns reg_design) /\
  levelled (fun n => n) (fns reg_design).
Proof.
  split; [|split].
  - cbn [reg_design placed]. split; [|easy]. intros f [<-|[<-|[]]]; fnok.
  - unfold single_drivers. vm_compute. repeat constructor; cbn; intuition discriminate.
  - intros look f H. cbn [fns reg_design flat_map map app In] in H.
    repeat (destruct H as [H|H]; [injection H as <- <-; intros P; try discriminate P; intros v o Hv Ho;
      vm_compute in Hv, Ho; intuition (subst; cbn; lia)|]). easy.
Qed.
