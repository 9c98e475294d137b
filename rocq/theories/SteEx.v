(* Instances for the examples of Ste_Props.v: rails over one variable, an insertion
   sort in the place of qsort, and small circuits. *)
From Coq Require Import List Arith NArith ZArith Bool Lia Permutation Sorted.
From Verif Require Import FsmOps FsmBool SteModel SteEv SteForce SteForceThms SteSim SteRun.
Import ListNotations.

(* functions of one Boolean variable *)
Definition V2 := (bool * bool)%type.
Definition den2 (v : V2) (a : bool) : bool := if a then fst v else snd v.
Definition and2 (x y : V2) : V2 := (fst x && fst y, snd x && snd y).
Definition or2 (x y : V2) : V2 := (fst x || fst y, snd x || snd y).
Definition not2 (x : V2) : V2 := (negb (fst x), negb (snd x)).
Definition zero2 : V2 := (false, false).
Definition one2 : V2 := (true, true).
Definition var2 : V2 := (true, false).
Definition eq2 (x y : V2) : bool := Bool.eqb (fst x) (fst y) && Bool.eqb (snd x) (snd y).
Lemma D20 : forall a, den2 zero2 a = false. Proof. now intros []. Qed.
Lemma D21 : forall a, den2 one2 a = true. Proof. now intros []. Qed.
Lemma D2a : forall x y a, den2 (and2 x y) a = den2 x a && den2 y a. Proof. now intros x y []. Qed.
Lemma D2o : forall x y a, den2 (or2 x y) a = den2 x a || den2 y a. Proof. now intros x y []. Qed.
Lemma D2n : forall x a, den2 (not2 x) a = negb (den2 x a). Proof. now intros x []. Qed.
Lemma D2e : forall x y a, eq2 x y = true -> den2 x a = den2 y a.
Proof.
  intros x y a E. apply andb_true_iff in E as [E1 E2]. apply eqb_prop in E1, E2. destruct a; cbn; auto.
Qed.

(* a sort *)
Section Isort.
Variable V : Type.
Fixpoint insert (e : event V) (l : list (event V)) : list (event V) :=
  match l with
  | [] => [e]
  | x :: r => if (event_cmp V e x <=? 0)%Z then e :: l else x :: insert e r
  end.
Fixpoint isort (l : list (event V)) : list (event V) :=
  match l with [] => [] | x :: r => insert x (isort r) end.
Lemma insert_perm e l : Permutation (e :: l) (insert e l).
Proof.
  induction l as [|x l IH]; cbn; auto. destruct (_ <=? _)%Z; auto.
  eapply perm_trans; [apply perm_swap|]. now apply perm_skip.
Qed.
Lemma cmp_tr x y z : (event_cmp V x y <= 0 -> event_cmp V y z <= 0 -> event_cmp V x z <= 0)%Z.
Proof.
  unfold event_cmp.
  destruct (Z.eqb_spec (e_time V y) (e_time V x)), (Z.eqb_spec (e_time V z) (e_time V y)),
    (Z.eqb_spec (e_time V z) (e_time V x)), (Nat.eqb_spec (e_nd V x) (e_nd V y)),
    (Nat.eqb_spec (e_nd V y) (e_nd V z)), (Nat.eqb_spec (e_nd V x) (e_nd V z)); lia.
Qed.
Lemma cmp_tot x y : (event_cmp V x y <= 0 \/ event_cmp V y x <= 0)%Z.
Proof.
  unfold event_cmp.
  destruct (Z.eqb_spec (e_time V y) (e_time V x)), (Z.eqb_spec (e_time V x) (e_time V y)),
   (Nat.eqb_spec (e_nd V x) (e_nd V y)), (Nat.eqb_spec (e_nd V y) (e_nd V x)); lia.
Qed.
Lemma isort_sorts : sorts V isort.
Proof.
  intros l. induction l as [|x l [IH1 IH2]]; cbn; [split; constructor|]. split.
  - eapply perm_trans; [apply perm_skip, IH1|apply insert_perm].
  - clear IH1. induction IH2 as [|y m S1 IH F]; cbn; [repeat constructor|].
    destruct (Z.leb_spec (event_cmp V x y) 0).
    + constructor; [now constructor|]. constructor; [auto|]. rewrite Forall_forall in *. intros z Z.
      apply (cmp_tr x y z); auto.
    + constructor; auto. rewrite Forall_forall in *. intros z Z.
      apply (Permutation_in _ (Permutation_sym (insert_perm x m))) in Z. destruct Z as [<-|Z]; auto.
      destruct (cmp_tot x y); auto. lia.
Qed.
End Isort.

Definition ste N wl ant cons trl :=
  gSTE V2 and2 or2 not2 zero2 one2 eq2 false (fun _ => false) (fun _ => false) (isort V2) N 100 100 wl ant cons trl.
Definition force N t m wl ant cons trl :=
  run_events V2 and2 zero2 one2 eq2 N t m
    (rev (isort V2 (create_events V2 or2 not2 zero2 one2 wl ant cons trl)))
    (es0 V2 zero2 one2 (fun _ => false)).

(* node 4 is an input, 5 its negation, 6 the value of 5 one phase earlier *)
Definition inv_reg : net :=
  Net 7 [Comp ONot 1 [4] [5] false 1; Comp OVar 1 [5] [6] true 0]
    (fun n => match n with 5 => Some 0 | 6 => Some 1 | _ => None end)
    (fun n => match n with 4 => [0] | 5 => [1] | _ => [] end) 1.
(* node 5 is the conjunction of itself and the input 4 *)
Definition loop_and : net :=
  Net 6 [Comp OAnd 1 [5; 4] [5] false 0]
    (fun n => match n with 5 => Some 0 | _ => None end)
    (fun n => match n with 4 | 5 => [0] | _ => [] end) 0.
Ltac cases k := destruct k as [|[|k]]; cbn; [..|destruct k; cbn].
Lemma inv_reg_wf : wf inv_reg.
Proof.
  split.
  - intros n k. cbn. destruct n as [|[|[|[|[|[|[|n]]]]]]]; try discriminate; intros Q; injection Q as <-; cbn; auto.
  - intros n k. unfold cmp. cases k; try tauto; intros [<-|[]]; cbn; split; auto; lia.
  - intros k. unfold cmp. cases k; repeat constructor; auto.
  - intros n k. unfold cmp. cases k; try tauto; intros [<-|[]]; cbn; auto.
  - intros n k. unfold cmp. cases k; try tauto; intros [<-|[]]; cbn; lia.
  - intros k. unfold cmp. cases k; lia.
  - exists (fun n => n). intros k i o. unfold cmp. cases k; try tauto; try discriminate;
    intros _ [<-|[]] [<-|[]]; lia.
Qed.
(* the executions are determined by the input *)
Lemma inv_reg_exec y : (forall t, y t 0 = false /\ y t 1 = true) ->
  (forall t, y t 5 = negb (y t 4)) -> (forall t, y (t + 1)%Z 6 = y t 5) -> execution inv_reg y.
Proof.
  intros Y0 Y1 Y2. split; auto. intros k t i o. unfold cmp. cases k; destruct i as [|[|i]]; cbn; try discriminate;
  intros Q; injection Q as <-; [rewrite Y1|rewrite Y2]; cbn; [destruct (y t 4)|destruct (y t 5)]; reflexivity.
Qed.

(* A run that does not give up checks the consequents, but an execution that satisfies
   the antecedents does not satisfy them. *)
Definition unsound (N : net) (ant cons : list (cond_t V2)) : Prop :=
  proper V2 [] ant cons [] /\ exists r a y, ste N [] ant cons [] = Some r /\ r_gave_up V2 r = false /\
    r_check V2 r = one2 /\ execution N y /\ satisfies V2 bool den2 a ant y /\ ~ satisfies V2 bool den2 a cons y.
