(* Combined results, the evaluator, and the counterexamples. *)
From Coq Require Import String List Bool Arith Lia.
From Verif Require Import CombModel LamSpec CombConf CombThms CombOpt.
Import ListNotations.
Local Open Scope list_scope.

Lemma compile_with_ok cut t :
  exists c, Compile_with cut t = Some c /\ nolam c = true /\
    (forall y, isfree y c = isfree y t) /\
    forall r, conv (mean r c) (mean r t).
Proof.
  unfold Compile_with. destruct (Nat.ltb (size t) cut).
  - destruct (small_ok t) as (c & E & N & F & C). unfold small in E.
    destruct (compile_rec (create_free_tbl t)); [|discriminate].
    injection E as <-. eauto.
  - exists (fst (compile t [])). split; [reflexivity|]. split; [apply res_nolam|].
    split; [|intros r; apply large_ok].
    intros y. change (isfree y (res t []) = isfree y t). rewrite (res_free y t []). cbn. apply andb_true_r.
Qed.

Lemma compile_program cut t :
  user t -> exists c, Compile cut t = Some c /\ forall r, conv (mean r c) (mean r t).
Proof.
  intros U. destruct (compile_with_ok cut (Optimise t)) as (c & E & _ & _ & C).
  exists c. split; [exact E|]. intros r.
  eapply cv_trans; [apply C|now apply Optimise_ok].
Qed.

Lemma apply_large cut x t n :
  Nat.ltb (size t) cut = false ->
  exists f c, Compile_with cut (Lam x t) = Some f /\ Compile_with cut t = Some c /\
    reds (App f n) (put x n c).
Proof.
  intros L. unfold Compile_with. rewrite L.
  assert (Nat.ltb (size (Lam x t)) cut = false) as ->.
  { apply Nat.ltb_ge in L. apply Nat.ltb_ge. cbn. lia. }
  eexists; eexists; split; [reflexivity|split; [reflexivity|]]. apply large_apply.
Qed.

Lemma apply_small cut x t n :
  Nat.ltb (size (Lam x t)) cut = true ->
  exists f c, Compile_with cut (Lam x t) = Some f /\ Compile_with cut t = Some c /\
    exists w, reds (App f n) w /\ reds (put x n c) w.
Proof.
  intros L. unfold Compile_with. rewrite L.
  assert (Nat.ltb (size t) cut = true) as ->.
  { apply Nat.ltb_lt in L. apply Nat.ltb_lt. cbn in L. lia. }
  destruct (small_ok t) as (c & E & _). destruct (small_apply x t c n E) as (f & F & J).
  unfold small in E, F.
  destruct (compile_rec (create_free_tbl t)); [|discriminate].
  destruct (compile_rec (create_free_tbl (Lam x t))); [|discriminate].
  injection E as <-. injection F as <-. eauto.
Qed.

(* No rule makes a B. *)
Fixpoint noB (t : tm) : bool :=
  match t with
  | Prm P_B => false
  | App a b => noB a && noB b
  | Lam _ a => noB a
  | _ => true
  end.
Lemma noB_apps f l : noB (apps f l) = noB f && forallb noB l.
Proof.
  revert f; induction l as [|a l IH]; intros f; cbn; [now rewrite andb_true_r|].
  rewrite IH. cbn. now rewrite andb_assoc.
Qed.
Fixpoint tnoB (t : tpl) : bool :=
  match t with TApp a b => tnoB a && tnoB b | TPrm P_B => false | _ => true end.
Lemma noB_inst l t : forallb noB l = true -> tnoB t = true -> noB (inst l t) = true.
Proof.
  intros L. induction t as [n|a IHa b IHb|p]; cbn.
  - intros _. revert n. induction l as [|a l IH]; intros [|n]; cbn in *; auto;
      apply andb_true_iff in L as [? ?]; auto.
  - rewrite andb_true_iff. intros [? ?]. apply andb_true_iff. auto.
  - now destruct p.
Qed.
Lemma noB_red t u : red t u -> noB t = true -> noB u = true.
Proof.
  induction 1; cbn.
  - rewrite noB_apps. rewrite andb_true_iff. intros [P L]. apply noB_inst; auto.
    now destruct p.
  - rewrite !andb_true_iff. intros [? ?]. auto.
  - rewrite !andb_true_iff. intros [? ?]. auto.
Qed.
Lemma noB_reds t u : reds t u -> noB t = true -> noB u = true.
Proof. induction 1; auto. eauto using noB_red. Qed.

Local Open Scope string_scope.
(* \x. (\y. p (q y)) x x, with constants p and q *)
Definition ex_body : tm :=
  App (App (Lam "y" (App (Cst 1) (App (Cst 2) (Var "y")))) (Var "x")) (Var "x").
Lemma apply_literal_refuted :
  exists f c, Compile_with 100 (Lam "x" ex_body) = Some f /\
    Compile_with 100 ex_body = Some c /\ ~ reds (App f (Cst 3)) (put "x" (Cst 3) c).
Proof.
  eexists; eexists; split; [vm_compute; reflexivity|].
  split; [vm_compute; reflexivity|].
  intros R. apply noB_reds in R; [vm_compute in R; discriminate|reflexivity].
Qed.

Definition ex_xy : tm :=
  Lam "x" (Lam "y" (App (App (Var "x") (App (Cst 1) (App (Var "x") (Var "y"))))
                        (App (Cst 2) (Var "y")))).

(* The reserved names. *)
Definition capture_ex : tm := Lam "_ZZ'1" (Lam "y" (Var "_ZZ'1")).

Definition at2 (o : option tm) (a b : tm) : outcome :=
  match o with None => Die | Some c => traverse_left 100 (App (App c a) b) [] end.

Lemma capture_refuted :
  meaning (Optimise capture_ex) <> meaning capture_ex /\
  at2 (Compile_with 100 capture_ex) (Cst 1) (Cst 2) = Val (Cst 1) /\
  at2 (Compile 100 capture_ex) (Cst 1) (Cst 2) = Val (Cst 2) /\
  at2 (Compile 0 capture_ex) (Cst 1) (Cst 2) = Val (Cst 2).
Proof. split; [vm_compute; discriminate|]. vm_compute. auto. Qed.

(* The evaluator *)
Definition whnf (t : tm) : Prop :=
  (exists n, t = Cst n) \/
  (exists p l, t = apps (Prm p) l /\ length l < fst (rule p)).

Lemma apps_apps f l1 l2 : apps f (l1 ++ l2) = apps (apps f l1) l2.
Proof. revert f; induction l1; intros f; cbn; auto. Qed.
Lemma reds_apps f g l : reds f g -> reds (apps f l) (apps g l).
Proof. revert f g; induction l; intros f g R; cbn; auto. apply IHl. now apply reds_l. Qed.

Lemma traverse_ok fuel : forall root args u,
  traverse_left fuel root args = Val u -> reds (apps root args) u /\ whnf u.
Proof.
  induction fuel as [|fuel IH]; intros root args u E; [discriminate|].
  destruct root as [x|p|c|a b|x a]; cbn [traverse_left] in E; try discriminate.
  - destruct (Nat.ltb (length args) (fst (rule p))) eqn:L.
    { injection E as <-. apply Nat.ltb_lt in L. split; [constructor|]. right; eauto. }
    apply Nat.ltb_ge in L.
    assert (Len : length (firstn (fst (rule p)) args) = fst (rule p))
      by (apply firstn_length_le; assumption).
    assert (R : red (apps (Prm p) (firstn (fst (rule p)) args))
                    (inst (firstn (fst (rule p)) args) (snd (rule p))))
      by now constructor.
    rewrite <- (firstn_skipn (fst (rule p)) args), apps_apps.
    destruct (is_projection p) eqn:Pr.
    + destruct (traverse_left fuel (nth 0 (firstn (fst (rule p)) args) (Cst 0)) [])
        as [v| |] eqn:E1; try discriminate.
      apply IH in E1 as [R1 _]. apply IH in E as [R2 W]. split; [|assumption].
      eapply reds_trans; [apply reds_apps, reds_one, R|].
      eapply reds_trans; [|exact R2]. apply reds_apps.
      destruct p; try discriminate Pr; exact R1.
    + apply IH in E as [R2 W]. split; [|assumption].
      eapply reds_trans; [apply reds_apps, reds_one, R|exact R2].
  - destruct args; [|discriminate]. injection E as <-. split; [constructor|].
    left; eauto.
  - apply IH in E. exact E.
Qed.
