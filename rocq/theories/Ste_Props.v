(* Property theorems: symbolic trajectory evaluation (C30, C31). *)
From Coq Require Import List Arith NArith ZArith Bool Lia.
From Verif Require Import FsmOps FsmBool SteModel SteEv SteForce SteForceThms SteSim SteRun SteEx.
Import ListNotations.
Local Open Scope Z_scope.

(* C31: after the events up to time u = t + m, the conditions that update_node and the
   check of consequents use.  asserts l n u a v says that every tuple of l on node n
   whose interval [from,to) contains u and whose guard is true at a asks for the value v.
   Intervals of tuples of the same sort on the same node must not overlap, and must not
   be empty; without the first C31_overlap_refuted, without the second
   C31_empty_refuted. *)
Theorem C31_exact_partial : forall (V A : Type) cand cor cnot (czero cone : V) ceq chg0 (den : V -> A -> bool)
    srt N wl ant cons trl t m,
  (forall a, den czero a = false) -> (forall a, den cone a = true) ->
  (forall x y a, den (cand x y) a = den x a && den y a) ->
  (forall x y a, den (cor x y) a = den x a || den y a) ->
  (forall x a, den (cnot x) a = negb (den x a)) ->
  sorts V srt -> proper V wl ant cons trl ->
  (forall n, disjoint (k_nd V) (k_from V) (k_to V) n ant) ->
  (forall n, disjoint (k_nd V) (k_from V) (k_to V) n cons) ->
  (forall n, disjoint (w_nd V) (w_from V) (w_to V) n wl) ->
  exists R s, run_events V cand czero cone ceq N t (S m)
      (rev (srt (create_events V cor cnot czero cone wl ant cons trl))) (es0 V czero cone chg0) = Some (R, s) /\
    let u := t + Z.of_nat m in
    forall n a,
      (den (fst (app_ant V cone s n)) a = true <-> asserts V A den ant n u a true) /\
      (den (snd (app_ant V cone s n)) a = true <-> asserts V A den ant n u a false) /\
      (den (fst (app_cons V cone s n)) a = true <-> asserts V A den cons n u a true) /\
      (den (snd (app_cons V cone s n)) a = true <-> asserts V A den cons n u a false) /\
      let weakened := exists w, In w wl /\ in_force (w_nd V) (w_from V) (w_to V) n u w /\ den (w_when V w) a = true in
      (den (fst (app_weak V czero s n)) a = true <-> weakened) /\ (den (snd (app_weak V czero s n)) a = true <-> weakened).
Proof.
  intros V A cand cor cnot czero cone ceq chg0 den srt N wl ant cons trl t m D0 D1 Da Do Dn SR PR DA DC DW.
  destruct (run_exact V A cand cor cnot czero cone ceq chg0 den srt N wl ant cons trl t m D0 D1 Da Do Dn SR PR)
    as [R [s [E [_ [XA [XC XW]]]]]].
  exists R, s. split; auto. intros u n a.
  destruct (XA n a (DA n)), (XC n a (DC n)), (XW n a (DW n)). auto 10.
Qed.
Print Assumptions C31_exact_partial.

(* The value buffers themselves are right for any overlap. *)
Theorem C31_buffers : forall (V A : Type) cand cor cnot (czero cone : V) ceq chg0 (den : V -> A -> bool)
    srt N wl ant cons trl t m,
  (forall a, den czero a = false) -> (forall a, den cone a = true) ->
  (forall x y a, den (cand x y) a = den x a && den y a) ->
  (forall x y a, den (cor x y) a = den x a || den y a) ->
  (forall x a, den (cnot x) a = negb (den x a)) ->
  sorts V srt -> proper V wl ant cons trl ->
  exists R s, run_events V cand czero cone ceq N t (S m)
      (rev (srt (create_events V cor cnot czero cone wl ant cons trl))) (es0 V czero cone chg0) = Some (R, s) /\
    let u := t + Z.of_nat m in
    forall n a,
      (den (fst (ab V s n)) a = true <-> asserts V A den ant n u a true) /\
      (den (snd (ab V s n)) a = true <-> asserts V A den ant n u a false) /\
      (den (fst (cb V s n)) a = true <-> asserts V A den cons n u a true) /\
      (den (snd (cb V s n)) a = true <-> asserts V A den cons n u a false).
Proof.
  intros V A cand cor cnot czero cone ceq chg0 den srt N wl ant cons trl t m D0 D1 Da Do Dn SR PR.
  destruct (run_exact V A cand cor cnot czero cone ceq chg0 den srt N wl ant cons trl t m D0 D1 Da Do Dn SR PR)
    as [R [s [E [X _]]]]. eauto.
Qed.
Print Assumptions C31_buffers.

(* The conditions during gSTE are those of run_events. *)
Theorem C31_loop : forall (V : Type) cand cor cnot (czero cone : V) ceq weakening big N gas limit m t R E s r R' E' s' r',
  times V cand cor cnot czero cone ceq weakening big N gas limit t m (R, E, s, r) = Some (R', E', s', r') ->
  run_events V cand czero cone ceq N t m R E = Some (R', E').
Proof. exact times_run. Qed.
Print Assumptions C31_loop.

(* Antecedents v on [0,2) and 1 on [2,3), a consequent and a weakening. *)
Example C31_ex :
  let ant := [Cond V2 one2 4 var2 0 2; Cond V2 one2 4 one2 2 3] in
  let cons := [Cond V2 one2 5 (not2 var2) 0 2] in
  let wl := [Weak V2 var2 5 1 2] in
  let at_ u := match force inv_reg 0 (S u) wl ant cons [] with
               | Some (_, s) => Some (app_ant V2 one2 s 4, app_cons V2 one2 s 5, app_weak V2 zero2 s 5)
               | None => None end in
  proper V2 wl ant cons [] /\ sorts V2 (isort V2) /\
  at_ 0%nat = Some ((var2, not2 var2), (not2 var2, var2), (zero2, zero2)) /\
  at_ 1%nat = Some ((var2, not2 var2), (not2 var2, var2), (var2, var2)) /\
  at_ 2%nat = Some ((one2, zero2), (one2, one2), (zero2, zero2)) /\
  at_ 3%nat = Some ((one2, one2), (one2, one2), (zero2, zero2)).
Proof.
  split; [|split; [apply isort_sorts|vm_compute; auto]].
  split; [|split; [|split]]; cbn; intros k; intuition (subst; cbn; lia).
Qed.

(* Overlapping intervals: the end of [0,2) switches off the antecedent on [1,4). *)
Theorem C31_overlap_refuted : exists ant n a R s,
  proper V2 [] ant [] [] /\
  force inv_reg 0 3 [] ant [] [] = Some (R, s) /\
  den2 (snd (app_ant V2 one2 s n)) a = true /\ ~ asserts V2 bool den2 ant n 2 a false.
Proof.
  exists [Cond V2 one2 4 one2 0 2; Cond V2 one2 4 one2 1 4], 4%nat, true. eexists _, _.
  split; [split; [|split; [|split]]; cbn; intros k; intuition (subst; cbn; lia)|].
  split; [vm_compute; reflexivity|]. split; [reflexivity|].
  intros Q. specialize (Q (Cond V2 one2 4 one2 1 4)). cbn in Q.
  assert (true = false); [|discriminate]. apply Q; auto. split; cbn; lia.
Qed.
Print Assumptions C31_overlap_refuted.
(* An empty interval: its end is taken first, and delete_active_event runs off the list. *)
Theorem C31_empty_refuted : exists ant,
  (forall k, In k ant -> k_from V2 k <= k_to V2 k) /\ force inv_reg 0 1 [] ant [] [] = None.
Proof.
  exists [Cond V2 one2 4 one2 0 0]. split; [|reflexivity]. cbn. intros k [<-|[]]. cbn. lia.
Qed.
Print Assumptions C31_empty_refuted.
(* Two weakenings, under v and under not v: together the node is weakened always, but
   the buffer has their conjunction. *)
Theorem C31_weak_refuted : exists wl n R s,
  proper V2 wl [] [] [] /\ force inv_reg 0 1 wl [] [] [] = Some (R, s) /\
  forall a, (exists w, In w wl /\ in_force (w_nd V2) (w_from V2) (w_to V2) n 0 w /\ den2 (w_when V2 w) a = true) /\
            den2 (fst (app_weak V2 zero2 s n)) a = false.
Proof.
  exists [Weak V2 var2 4 0 2; Weak V2 (not2 var2) 4 0 2], 4%nat. eexists _, _.
  split; [split; [|split; [|split]]; cbn; intros k; intuition (subst; cbn; lia)|].
  split; [vm_compute; reflexivity|]. intros [].
  - split; [|reflexivity]. eexists. split; [left; reflexivity|]. repeat split; cbn; lia.
  - split; [|reflexivity]. eexists. split; [right; left; reflexivity|]. repeat split; cbn; lia.
Qed.
Print Assumptions C31_weak_refuted.

(* C30: covers N a x f says that for each node n but the constant top, f n admits x n at a.
   Restrictions, each with a counterexample below: no zero-delay loops (in wf), tuples
   with from < to, antecedents not on outputs of phase delays, no consequent or trace
   that starts where an antecedent on the node ends, consequents on a node do not
   overlap.  Runs in which do_combinational gives up are excluded: gSTE ignores it. *)
Theorem C30_sound_partial : forall (V A : Type) cand cor cnot (czero cone : V) ceq weakening big chg0 (den : V -> A -> bool)
    srt N gas limit wl ant cons trl r,
  (forall a, den czero a = false) -> (forall a, den cone a = true) ->
  (forall x y a, den (cand x y) a = den x a && den y a) ->
  (forall x y a, den (cor x y) a = den x a || den y a) ->
  (forall x a, den (cnot x) a = negb (den x a)) ->
  (forall x y a, ceq x y = true -> den x a = den y a) ->
  wf N -> sorts V srt -> proper V wl ant cons trl ->
  (forall k, In k ant -> (3 < k_nd V k < nn N)%nat /\
     forall j, driver N (k_nd V k) = Some j -> c_phase (cmp N j) = false) ->
  (forall k, In k cons -> (k_nd V k < nn N)%nat /\ k_nd V k <> 3%nat) ->
  (forall k, In k ant ->
    (forall c, In c cons -> k_nd V c = k_nd V k -> k_from V c = k_to V k -> restarts V wl ant (k_nd V k) (k_to V k)) /\
    (forall r, In r trl -> t_nd r = k_nd V k -> t_from r = k_to V k -> restarts V wl ant (k_nd V k) (k_to V k))) ->
  (forall n, disjoint (k_nd V) (k_from V) (k_to V) n cons) ->
  gSTE V cand cor cnot czero cone ceq weakening big chg0 srt N gas limit wl ant cons trl = Some r ->
  r_gave_up V r = false ->
  forall a y, execution N y -> satisfies V A den a ant y ->
  (forall t f, In (t, f) (r_vals V r) -> covers V A den N a (y t) f) /\
  (forall k t, In k (ant ++ cons) -> k_from V k <= t < k_to V k -> exists f, In (t, f) (r_vals V r)) /\
  (den (r_check V r) a = true -> satisfies V A den a cons y).
Proof.
  intros V A cand cor cnot czero cone ceq weakening big chg0 den srt N gas limit wl ant cons trl r
    D0 D1 Da Do Dn De. now apply gSTE_ok.
Qed.
Print Assumptions C30_sound_partial.

(* The input is v at time 0: the inverter has not v then, the register at time 1. *)
Example C30_ex :
  let ant := [Cond V2 one2 4 var2 0 1] in
  let cons := [Cond V2 one2 5 (not2 var2) 0 1; Cond V2 one2 6 (not2 var2) 1 2] in
  wf inv_reg /\ (forall n, disjoint (k_nd V2) (k_from V2) (k_to V2) n cons) /\
  (exists r, ste inv_reg [] ant cons [] = Some r /\ r_check V2 r = one2 /\ r_gave_up V2 r = false) /\
  (exists r, ste inv_reg [] ant [Cond V2 one2 6 var2 1 2] [] = Some r /\ r_check V2 r = zero2) /\
  (exists y, execution inv_reg y /\ satisfies V2 bool den2 true ant y).
Proof.
  split; [apply inv_reg_wf|]. split.
  { intros n [|[|[|i]]] [|[|[|j]]] x y; cbn; try congruence; intros _ Q R <-;
    injection Q as <-; injection R as <-; discriminate. }
  split; [eexists; split; [vm_compute; reflexivity|split; reflexivity]|].
  split; [eexists; split; [vm_compute; reflexivity|reflexivity]|].
  exists (fun _ n => match n with 0 => false | 1 => true | 4 => true | _ => false end)%nat. split.
  - apply inv_reg_exec; auto.
  - intros k t [<-|[]] _ _. reflexivity.
Qed.

(* unsound N ant cons: a run checks T, and an execution satisfies ant but not cons.
   One restriction is dropped at a time. *)

(* An antecedent that ends where a consequent on the node starts: the start of the
   consequent cancels the re-evaluation, and the input keeps its value. *)
Theorem C30_cancel_refuted :
  unsound inv_reg [Cond V2 one2 4 one2 0 1] [Cond V2 one2 4 one2 1 2].
Proof.
  split; [split; [|split; [|split]]; cbn; intros k; intuition (subst; cbn; lia)|].
  eexists. exists true, (fun (t : Z) (n : nat) => match n with 0 => false | 1 => true | 4 => (t <=? 0)%Z | 5 => negb ((t <=? 0)%Z)
                          | 6 => negb ((t - 1 <=? 0)%Z) | _ => false end)%nat.
  split; [vm_compute; reflexivity|]. split; [reflexivity|]. split; [reflexivity|]. split; [|split].
  - apply inv_reg_exec; auto. intros t. now replace (t + 1 - 1) with t by lia.
  - intros k t [<-|[]] L _. cbn in *. symmetry. lia.
  - intros Q. specialize (Q (Cond V2 one2 4 one2 1 2) 1). cbn in Q.
    assert (true = false); [|discriminate]. apply Q; auto. lia.
Qed.
Print Assumptions C30_cancel_refuted.

(* An antecedent on the register: it takes effect one phase late. *)
Theorem C30_phase_refuted :
  unsound inv_reg [Cond V2 one2 6 one2 0 1] [Cond V2 one2 6 one2 1 2].
Proof.
  split; [split; [|split; [|split]]; cbn; intros k; intuition (subst; cbn; lia)|].
  eexists. exists true, (fun (t : Z) (n : nat) => match n with 0 => false | 1 => true | 4 => negb ((t <=? -1)%Z) | 5 => (t <=? -1)%Z
                          | 6 => (t - 1 <=? -1)%Z | _ => false end)%nat.
  split; [vm_compute; reflexivity|]. split; [reflexivity|]. split; [reflexivity|]. split; [|split].
  - apply inv_reg_exec; auto; intros t.
    + now rewrite negb_involutive.
    + now replace (t + 1 - 1) with t by lia.
  - intros k t [<-|[]] L _. cbn in *. symmetry. lia.
  - intros Q. specialize (Q (Cond V2 one2 6 one2 1 2) 1). cbn in Q.
    assert (true = false); [|discriminate]. apply Q; auto. lia.
Qed.
Print Assumptions C30_phase_refuted.

(* Overlapping consequents: after the end of the shorter one the other is not checked. *)
Theorem C30_overlap_refuted :
  unsound inv_reg [Cond V2 one2 4 one2 0 1] [Cond V2 one2 5 zero2 0 1; Cond V2 one2 5 zero2 0 3].
Proof.
  split; [split; [|split; [|split]]; cbn; intros k; intuition (subst; cbn; lia)|].
  eexists. exists true, (fun (t : Z) (n : nat) => match n with 0 => false | 1 => true | 4 => (t <=? 0)%Z | 5 => negb ((t <=? 0)%Z)
                          | 6 => negb ((t - 1 <=? 0)%Z) | _ => false end)%nat.
  split; [vm_compute; reflexivity|]. split; [reflexivity|]. split; [reflexivity|]. split; [|split].
  - apply inv_reg_exec; auto. intros t. now replace (t + 1 - 1) with t by lia.
  - intros k t [<-|[]] L _. cbn in *. symmetry. lia.
  - intros Q. specialize (Q (Cond V2 one2 5 zero2 0 3) 1). cbn in Q.
    assert (false = true); [|discriminate]. apply Q; auto. lia.
Qed.
Print Assumptions C30_overlap_refuted.

(* A zero-delay loop: n = n AND a keeps the 0 it had when a was 0, although the equation
   has the solution n = 1 when a is 1. *)
Theorem C30_feedback_refuted :
  unsound loop_and [Cond V2 one2 4 zero2 0 1] [Cond V2 one2 5 zero2 1 2].
Proof.
  split; [split; [|split; [|split]]; cbn; intros k; intuition (subst; cbn; lia)|].
  eexists. exists true, (fun (t : Z) (n : nat) => match n with 0 => false | 1 => true | 4 | 5 => negb ((t <=? 0)%Z) | _ => false end)%nat.
  split; [vm_compute; reflexivity|]. split; [reflexivity|]. split; [reflexivity|]. split; [|split].
  - split; auto. intros k t i o. unfold cmp. destruct k as [|k]; cbn; [|destruct k; cbn]; destruct i as [|[|i]]; cbn; try discriminate.
    intros Q; injection Q as <-. cbn. destruct ((t <=? 0)%Z); reflexivity.
  - intros k t [<-|[]] L _. cbn in *. symmetry. lia.
  - intros Q. specialize (Q (Cond V2 one2 5 zero2 1 2) 1). cbn in Q.
    assert (false = true); [|discriminate]. apply Q; auto. lia.
Qed.
Print Assumptions C30_feedback_refuted.
