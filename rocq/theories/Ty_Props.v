(* Property theorems: type unification (C25). *)
From Coq Require Import String List Bool Arith Lia.
From Verif Require Import TyModel TyThms.
Import ListNotations.

(* The number of arguments of each constructor. *)
Definition ar0 (c : con) : nat :=
  match c with
  | CArrow | CTuple => 2
  | CList | CRef => 1
  | _ => 0
  end.

(* a -> int list  and  (bool, a) -> b ; nodes 0 and 1 are the variables a, b *)
Definition ex_heap : heap :=
  [NVar; NVar; NCon CInt []; NCon CList [2]; NCon CBool []; NCon CTuple [4; 0];
   NVar; NCon CArrow [6; 3]; NCon CArrow [5; 1]; NCon CArrow [0; 3]].
Definition ex_s : tstate := mkT ex_heap [[]].

(* C25, success: in a well formed store (acyclic, arguments as many as the
   constructor has, some context open), if unify succeeds then the store is
   still well formed, reading off the two types gives the same tree, this
   reading solves the original store, and every other solution is an instance
   of it. *)
Theorem C25_success : forall ar s p q fuel s',
  in_range (t_heap s) -> acyclic (t_heap s) -> arities ar (t_heap s) -> t_ctx s <> [] ->
  p < length (t_heap s) -> q < length (t_heap s) ->
  unify fuel s p q = UOk s' ->
  in_range (t_heap s') /\ acyclic (t_heap s') /\ arities ar (t_heap s') /\
  t_ctx s' <> [] /\ length (t_heap s') = length (t_heap s) /\
  exists D, forall f, D <= f ->
    expand f (t_heap s') p = expand f (t_heap s') q /\
    reading (t_heap s) (expand f (t_heap s')) /\
    forall r, reading (t_heap s) r -> r p = r q ->
      forall x, r x = inst r (expand f (t_heap s') x).
Proof.
  intros ar s p q fuel s' IR AC AR C Lp Lq E.
  assert (O : okst ar s) by (split; [|split; [|split]]; assumption).
  pose proof (unify_spec ar fuel s p q O Lp Lq) as Sp. rewrite E in Sp.
  destruct Sp as ((IR' & AC' & AR' & C') & L & _ & R).
  do 5 (split; [assumption|]).
  destruct (expand_reading _ IR' AC') as (D & _ & HD). exists D.
  intros f Lf. destruct (HD f Lf) as [Rd _]. apply R in Rd as Rd'. destruct Rd' as [A B].
  split; [assumption|]. split; [assumption|]. intros r Rr Er x.
  apply reading_inst. now apply R.
Qed.
Print Assumptions C25_success.

(* C25, failure: if unify fails there is no assignment of finite types. *)
Theorem C25_failure : forall ar s p q fuel s',
  in_range (t_heap s) -> acyclic (t_heap s) -> arities ar (t_heap s) -> t_ctx s <> [] ->
  p < length (t_heap s) -> q < length (t_heap s) ->
  unify fuel s p q = UFail s' ->
  forall r, reading (t_heap s) r -> r p <> r q.
Proof.
  intros ar s p q fuel s' IR AC AR C Lp Lq E.
  assert (O : okst ar s) by (split; [|split; [|split]]; assumption).
  pose proof (unify_spec ar fuel s p q O Lp Lq) as Sp. rewrite E in Sp.
  apply Sp.
Qed.
Print Assumptions C25_failure.

(* C25, termination: unify answers, and does not crash. *)
Theorem C25_terminates : forall ar s p q,
  in_range (t_heap s) -> acyclic (t_heap s) -> arities ar (t_heap s) -> t_ctx s <> [] ->
  p < length (t_heap s) -> q < length (t_heap s) ->
  exists fuel0, (exists s', forall fuel, fuel0 <= fuel -> unify fuel s p q = UOk s') \/
                (exists s', forall fuel, fuel0 <= fuel -> unify fuel s p q = UFail s').
Proof.
  intros ar s p q IR AC AR C Lp Lq.
  assert (O : okst ar s) by (split; [|split; [|split]]; assumption).
  destruct (unify_stops_aux ar _ s p q O (le_n _) Lp Lq) as [f N].
  pose proof (unify_spec ar f s p q O Lp Lq) as Sp. exists f.
  destruct (unify f s p q) as [s'|s'| |] eqn:E; try tauto; [| |destruct Sp].
  - left. exists s'. intros g L. apply (unify_mono f); [assumption|assumption|discriminate].
  - right. exists s'. intros g L. apply (unify_mono f); [assumption|assumption|discriminate].
Qed.
Print Assumptions C25_terminates.

(* C25, rolling back: whatever is done between push_tc_context and
   pop_tc_context(TRUE) (successful and failing unifications, new types, inner
   contexts that are rolled back), every type that existed is as it was. *)
Theorem C25_rollback : forall l s s',
  balanced l -> trun (TPush :: l ++ [TPop true]) s = Some s' ->
  t_ctx s' = t_ctx s /\ length (t_heap s) <= length (t_heap s') /\
  forall p, p < length (t_heap s) -> nth_error (t_heap s') p = nth_error (t_heap s) p.
Proof. exact rollback_lemma. Qed.
Print Assumptions C25_rollback.

(* ... but an inner context that is closed with pop_tc_context(FALSE) loses its
   record, and then the outer context cannot be rolled back. *)
Theorem C25_rollback_refuted : exists f p q s s',
  trun [TPush; TPush; TUnify f p q; TPop false; TPop true] s = Some s' /\
  nth_error (t_heap s) p = Some NVar /\ nth_error (t_heap s') p = Some (NInd q).
Proof. exists 3, 0, 1, (mkT [NVar; NCon CInt []] []). eexists. repeat split. Qed.
Print Assumptions C25_rollback_refuted.

(* ... and a store in which the same constructor has different numbers of
   arguments makes unify follow a null pointer, or accept. *)
Theorem C25_arity_refuted : exists s p q r,
  in_range (t_heap s) /\ acyclic (t_heap s) /\ t_ctx s <> [] /\
  unify 5 s p q = UCrash /\ unify 5 s q p = UOk s /\
  reading (t_heap s) r /\ r p <> r q.
Proof.
  exists (mkT [NCon CInt []; NCon (CConcrete "t") [0]; NCon (CConcrete "t") []] [[]]), 1, 2.
  exists (fun p => match p with
                   | 0 => Nd (LCon CInt) []
                   | 1 => Nd (LCon (CConcrete "t")) [Nd (LCon CInt) []]
                   | _ => Nd (LCon (CConcrete "t")) [] end).
  split; [|split; [|split; [|split; [|split; [|split]]]]].
  - intros [|[|[|p]]] n x E I; cbn in *; [| | |destruct p; discriminate]; injection E as <-.
    + destruct I.
    + destruct I as [<-|[]]. lia.
    + destruct I.
  - intros p. constructor. intros x (n & E & I). constructor. intros y (m & F & J).
    destruct p as [|[|[|p]]]; cbn in E; [| | |destruct p; discriminate]; injection E as <-;
      cbn in I; [destruct I| |destruct I].
    destruct I as [<-|[]]; injection F as <-; destruct J.
  - discriminate.
  - reflexivity.
  - reflexivity.
  - intros [|[|[|p]]] n E; cbn in *; [| | |destruct p; discriminate]; injection E as <-; reflexivity.
  - discriminate.
Qed.
Print Assumptions C25_arity_refuted.

(* Non-vacuity: (a' -> int list) and ((bool, a) -> b) in a well formed store. *)
Example C25_ex_wf : in_range ex_heap /\ acyclic ex_heap /\ arities ar0 ex_heap.
Proof.
  split; [|split].
  - intros p n x E I. do 10 (destruct p as [|p]; [injection E as <-; cbn in I; cbn; intuition lia|]).
    destruct p; discriminate.
  - (* every node of depth at most d is accessible *)
    assert (P : forall p, p < 10 -> Acc (child ex_heap) p).
    { assert (A : forall p k, nth_error ex_heap p = Some k ->
        (forall x, In x (kids_of k) -> Acc (child ex_heap) x) -> Acc (child ex_heap) p).
      { intros p k E Ik. constructor. intros x (n & F & J). rewrite E in F. injection F as <-. auto. }
      assert (A0 : Acc (child ex_heap) 0) by (eapply A; [reflexivity|cbn; intuition]).
      assert (A1 : Acc (child ex_heap) 1) by (eapply A; [reflexivity|cbn; intuition]).
      assert (A2 : Acc (child ex_heap) 2) by (eapply A; [reflexivity|cbn; intuition]).
      assert (A4 : Acc (child ex_heap) 4) by (eapply A; [reflexivity|cbn; intuition]).
      assert (A6 : Acc (child ex_heap) 6) by (eapply A; [reflexivity|cbn; intuition]).
      assert (A3 : Acc (child ex_heap) 3) by (eapply A; [reflexivity|cbn; intuition congruence]).
      assert (A5 : Acc (child ex_heap) 5) by (eapply A; [reflexivity|cbn; intuition congruence]).
      assert (A7 : Acc (child ex_heap) 7) by (eapply A; [reflexivity|cbn; intuition congruence]).
      assert (A8 : Acc (child ex_heap) 8) by (eapply A; [reflexivity|cbn; intuition congruence]).
      assert (A9 : Acc (child ex_heap) 9) by (eapply A; [reflexivity|cbn; intuition congruence]).
      intros p L. do 10 (destruct p as [|p]; [assumption|]). lia. }
    intros p. destruct (Nat.lt_ge_cases p 10) as [L|L]; [auto|].
    constructor. intros x (n & E & _). apply nth_lt in E. cbn in E. lia.
  - intros p c k E. do 10 (destruct p as [|p]; [cbn in E; try discriminate; injection E as <- <-; reflexivity|]).
    destruct p; discriminate.
Qed.
Example C25_ex : exists s',
  unify 10 ex_s 7 8 = UOk s' /\
  expand 10 (t_heap s') 7 = expand 10 (t_heap s') 8 /\
  expand 10 (t_heap s') 8 =
    Nd (LCon CArrow) [Nd (LCon CTuple) [Nd (LCon CBool) []; Nd (LVar 0) []];
                      Nd (LCon CList) [Nd (LCon CInt) []]].
Proof. eexists. split; [reflexivity|]. split; reflexivity. Qed.
(* (a -> int list) and ((bool, a) -> b): the occurs check *)
Example C25_ex_fail : unify 10 ex_s 9 8 = UFail ex_s.
Proof. reflexivity. Qed.
Example C25_ex_rollback : exists s',
  trun (TPush :: [TUnify 10 7 8; TNew NVar; TPush; TUnify 10 9 8; TPop true] ++ [TPop true]) ex_s
    = Some s' /\ balanced [TUnify 10 7 8; TNew NVar; TPush; TUnify 10 9 8; TPop true] /\
  t_heap s' = ex_heap ++ [NVar].
Proof.
  eexists. split; [reflexivity|]. split; [|reflexivity].
  do 2 constructor. apply (bal_nest [TUnify 10 9 8] []); repeat constructor.
Qed.
