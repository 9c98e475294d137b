(* Confluence of the machine's rewrite rules, by parallel reduction. *)
From Coq Require Import String List Bool Arith Lia.
From Verif Require Import CombModel.
Import ListNotations.
Local Open Scope list_scope.

Lemma apps_app f l a : apps f (l ++ [a]) = App (apps f l) a.
Proof. revert f; induction l; intros f; cbn; auto. Qed.

(* [sp p t l]: t is the primitive p applied to arguments that reduce in
   parallel to l. *)
Inductive par : tm -> tm -> Prop :=
| par_refl t : par t t
| par_app a a' b b' : par a a' -> par b b' -> par (App a b) (App a' b')
| par_rule p t l : sp p t l -> length l = fst (rule p) ->
    par t (inst l (snd (rule p)))
with sp : prim -> tm -> list tm -> Prop :=
| sp_nil p : sp p (Prm p) []
| sp_snoc p t l b b' : sp p t l -> par b b' -> sp p (App t b) (l ++ [b']).

Lemma sp_apps p l : sp p (apps (Prm p) l) l.
Proof.
  induction l as [|a l IH] using rev_ind; [constructor|].
  rewrite apps_app. constructor; [assumption|constructor].
Qed.

Fixpoint nargs (t : tm) : nat :=
  match t with App a _ => S (nargs a) | _ => 0 end.
Fixpoint hd_prim (t : tm) : option prim :=
  match t with App a _ => hd_prim a | Prm p => Some p | _ => None end.
Lemma sp_shape p t l : sp p t l -> nargs t = length l /\ hd_prim t = Some p.
Proof.
  induction 1; cbn; auto. destruct IHsp as [-> ->]. rewrite app_length. cbn.
  split; [lia|reflexivity].
Qed.

(* A partial application only reduces inside its arguments. *)
Lemma sp_par p t l u :
  sp p t l -> length l < fst (rule p) -> par t u ->
  exists l', sp p t l' /\ u = apps (Prm p) l'.
Proof.
  intros A. revert u. induction A as [p|p t l b b' A IH P]; intros u L Q.
  - inversion Q; subst.
    + exists []. split; [constructor|reflexivity].
    + inversion H; subst. cbn in *. lia.
  - rewrite app_length in L. cbn in L. inversion Q; subst.
    + destruct (IH t) as (l' & S' & E); [lia|constructor|].
      exists (l' ++ [b]). rewrite apps_app, <- E.
      split; [constructor; [assumption|constructor]|reflexivity].
    + destruct (IH a') as (l' & S' & E); [lia|assumption|].
      exists (l' ++ [b'0]). rewrite apps_app, <- E.
      split; [constructor; assumption|reflexivity].
    + exfalso. apply sp_shape in H as [N M]. apply sp_shape in A as [N' M'].
      cbn in N, M. rewrite M' in M. injection M as <-. lia.
Qed.

Lemma inst_par l l' t : Forall2 par l l' -> par (inst l t) (inst l' t).
Proof.
  intros F. induction t as [n|a IHa b IHb|p]; cbn.
  - revert n. induction F; intros [|n]; cbn; auto; constructor.
  - now constructor.
  - constructor.
Qed.

Lemma sp_of_apps p l l' :
  Forall2 par l l' -> sp p (apps (Prm p) l) l'.
Proof.
  revert l'. induction l as [|a l IH] using rev_ind; intros l' F.
  - inversion F; subst. constructor.
  - apply Forall2_app_inv_l in F as (l1 & l2 & F1 & F2 & ->).
    inversion F2; subst. inversion H3; subst. rewrite apps_app.
    constructor; auto.
Qed.

Lemma F2_length {A B} (R : A -> B -> Prop) l l' : Forall2 R l l' -> length l = length l'.
Proof. induction 1; cbn; auto. Qed.

Lemma par_diamond_size n t u v :
  size t <= n -> par t u -> par t v -> exists w, par u w /\ par v w.
Proof.
  revert t u v. induction n as [|n IH]; intros t u v Sz P Q.
  { destruct t; cbn in Sz; lia. }
  (* arguments of a spine can be brought together *)
  assert (SP : forall p t l1 l2, size t <= S n -> sp p t l1 -> sp p t l2 ->
    exists l3, Forall2 par l1 l3 /\ Forall2 par l2 l3).
  { intros p t0 l1 l2 S0 A. revert l2 S0.
    induction A as [p|p t0 l b b' A IHA Pb]; intros l2 S0 B; inversion B; subst.
    - exists []. split; constructor.
    - cbn in S0. destruct (IHA l0) as (l3 & F1 & F2); [lia|assumption|].
      destruct (IH b b' b'0) as (w & W1 & W2); [lia|assumption|assumption|].
      exists (l3 ++ [w]). split; apply Forall2_app; auto. }
  assert (RULE : forall p l v, size t <= S n -> sp p t l -> length l = fst (rule p) ->
    par t v -> exists w, par (inst l (snd (rule p))) w /\ par v w).
  { clear u v P Q. intros p l v S0 A L Q. inversion Q; subst.
    - destruct (SP p v l l S0 A A) as (l3 & F & _).
      exists (inst l (snd (rule p))). split; [constructor|].
      now constructor.
    - inversion A; subst. rewrite app_length in L. cbn in L.
      destruct (sp_par p a l0 a') as (l' & A' & ->); [assumption|lia|assumption|].
      destruct (SP p (App a b) (l0 ++ [b'0]) (l' ++ [b'])) as (l3 & F1 & F2);
        [assumption|assumption|constructor; assumption|].
      exists (inst l3 (snd (rule p))). split; [now apply inst_par|].
      rewrite <- apps_app. apply par_rule; [now apply sp_of_apps|].
      apply F2_length in F1. rewrite <- F1, app_length. cbn. lia.
    - assert (p0 = p) as ->.
      { apply sp_shape in A as [_ A]. apply sp_shape in H as [_ H]. congruence. }
      destruct (SP p t l l0) as (l3 & F1 & F2); auto.
      exists (inst l3 (snd (rule p))). split; now apply inst_par. }
  inversion P; subst.
  - exists v. split; [assumption|constructor].
  - inversion Q; subst.
    + exists (App a' b'). split; [constructor|assumption].
    + cbn in Sz. destruct (IH a a' a'0) as (wa & ? & ?); [lia|assumption|assumption|].
      destruct (IH b b' b'0) as (wb & ? & ?); [lia|assumption|assumption|].
      exists (App wa wb). split; constructor; assumption.
    + destruct (RULE p l _ Sz H1 H2 P) as (w & W1 & W2). exists w. auto.
  - destruct (RULE p l _ Sz H H0 Q) as (w & W1 & W2). exists w. auto.
Qed.

Lemma par_diamond t u v : par t u -> par t v -> exists w, par u w /\ par v w.
Proof. apply (par_diamond_size (size t)). lia. Qed.

Inductive pars : tm -> tm -> Prop :=
| pars_refl t : pars t t
| pars_step t u v : par t u -> pars u v -> pars t v.

Lemma pars_strip t u v : par t u -> pars t v -> exists w, pars u w /\ par v w.
Proof.
  intros P Q. revert u P. induction Q as [t|t t1 v P1 Q IH]; intros u P.
  - exists u. split; [constructor|assumption].
  - destruct (par_diamond t u t1 P P1) as (w & W1 & W2).
    destruct (IH w W2) as (z & Z1 & Z2). exists z. split; auto.
    econstructor; eauto.
Qed.
Lemma pars_conf t u v : pars t u -> pars t v -> exists w, pars u w /\ pars v w.
Proof.
  intros P. revert v. induction P as [t|t t1 u P1 P IH]; intros v Q.
  - exists v. split; [assumption|constructor].
  - destruct (pars_strip t t1 v P1 Q) as (w & W1 & W2).
    destruct (IH w W1) as (z & Z1 & Z2). exists z. split; auto.
    econstructor; eauto.
Qed.

Lemma reds_trans a b c : reds a b -> reds b c -> reds a c.
Proof. induction 1; auto. intros. eapply reds_step; eauto. Qed.
Lemma reds_one a b : red a b -> reds a b.
Proof. intros. eapply reds_step; [eauto|constructor]. Qed.
Lemma reds_l a a' b : reds a a' -> reds (App a b) (App a' b).
Proof. induction 1; [constructor|]. eapply reds_step; [apply red_l; eauto|auto]. Qed.
Lemma reds_r a b b' : reds b b' -> reds (App a b) (App a b').
Proof. induction 1; [constructor|]. eapply reds_step; [apply red_r; eauto|auto]. Qed.
Lemma reds_app a a' b b' : reds a a' -> reds b b' -> reds (App a b) (App a' b').
Proof. intros. eapply reds_trans; [apply reds_l|apply reds_r]; eauto. Qed.

Lemma red_par t u : red t u -> par t u.
Proof.
  induction 1.
  - apply par_rule; [apply sp_apps|assumption].
  - constructor; [assumption|constructor].
  - constructor; [constructor|assumption].
Qed.

Scheme par_mut := Minimality for par Sort Prop
  with sp_mut := Minimality for sp Sort Prop.
Lemma par_reds t u : par t u -> reds t u.
Proof.
  apply (par_mut reds (fun p t l => reds t (apps (Prm p) l))); intros.
  - constructor.
  - now apply reds_app.
  - eapply reds_trans; [eassumption|]. apply reds_one. now constructor.
  - constructor.
  - rewrite apps_app. now apply reds_app.
Qed.
Lemma pars_reds t u : pars t u -> reds t u.
Proof. induction 1; [constructor|]. eapply reds_trans; eauto using par_reds. Qed.
Lemma reds_pars t u : reds t u -> pars t u.
Proof. induction 1; [constructor|]. econstructor; eauto using red_par. Qed.

Lemma confluence t u v : reds t u -> reds t v -> exists w, reds u w /\ reds v w.
Proof.
  intros A B. destruct (pars_conf t u v) as (w & ? & ?); auto using reds_pars.
  exists w. auto using pars_reds.
Qed.

Definition normal (t : tm) : Prop := forall u, ~ red t u.
Lemma normal_unique t u v :
  reds t u -> reds t v -> normal u -> normal v -> u = v.
Proof.
  intros A B Nu Nv. destruct (confluence t u v A B) as (w & U & V).
  inversion U; subst; [|exfalso; eapply Nu; eauto].
  inversion V; subst; [auto|exfalso; eapply Nv; eauto].
Qed.

(* Having a common reduct; by confluence an equivalence. *)
Definition joins (a b : tm) : Prop := exists w, reds a w /\ reds b w.
Lemma joins_refl a : joins a a.
Proof. exists a. split; constructor. Qed.
Lemma joins_sym a b : joins a b -> joins b a.
Proof. intros (w & ? & ?). exists w. auto. Qed.
Lemma joins_trans a b c : joins a b -> joins b c -> joins a c.
Proof.
  intros (v & A & B) (w & C & D). destruct (confluence b v w B C) as (z & ? & ?).
  exists z. split; eapply reds_trans; eauto.
Qed.
Lemma joins_app a a' b b' : joins a a' -> joins b b' -> joins (App a b) (App a' b').
Proof.
  intros (v & ? & ?) (w & ? & ?). exists (App v w). split; now apply reds_app.
Qed.
Lemma joins_red a b : red a b -> joins a b.
Proof. intros. exists b. split; [now apply reds_one|constructor]. Qed.
Lemma joins_reds a b : reds a b -> joins a b.
Proof. intros. exists b. split; [assumption|constructor]. Qed.
