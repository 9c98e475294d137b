(** * Reduction with failures

    In the evaluator a computation may fail at any point, and a failure in one
    branch of a symbolic conditional makes the conditional fail at every
    assignment.  [wstep] is [step] with the extra possibility that an unfinished term, a
    pair or a list becomes a failure.  An answer without failures
    that is reached by [wstep] is reached by [step]. *)

From Coq Require Import String List Bool Arith ZArith Lia.
From Verif Require Import GredModel GredSpec GredConf.
Import ListNotations.
Open Scope list_scope.
Open Scope nat_scope.

(** Values other than pairs and lists do not fail. *)
Definition can_fail (t : tm) : bool :=
  match t with
  | TApp _ _ => negb (partial t)
  | TCons _ _ | TFail _ => true
  | _ => false
  end.

Inductive wstep : tm -> tm -> Prop :=
| ws_delta t u : contract t = Some u -> wstep t u
| ws_fail t s : can_fail t = true -> wstep t (TFail s)
| ws_fun t t' u : wstep t t' -> wstep (TApp t u) (TApp t' u)
| ws_arg t u u' : wstep u u' -> wstep (TApp t u) (TApp t u')
| ws_hd t t' u : wstep t t' -> wstep (TCons t u) (TCons t' u)
| ws_tl t u u' : wstep u u' -> wstep (TCons t u) (TCons t u').

Inductive wsteps : tm -> tm -> Prop :=
| wss_refl t : wsteps t t
| wss_step t u v : wstep t u -> wsteps u v -> wsteps t v.

Lemma wsteps_trans t u v : wsteps t u -> wsteps u v -> wsteps t v.
Proof. induction 1; [auto|]. intros. econstructor; eauto. Qed.

Lemma wsteps_one t u : wstep t u -> wsteps t u.
Proof. intros. econstructor; [eassumption|constructor]. Qed.

Lemma wsteps_app t t' u u' :
  wsteps t t' -> wsteps u u' -> wsteps (TApp t u) (TApp t' u').
Proof.
  intros A B. apply wsteps_trans with (TApp t' u).
  - clear B. induction A; [constructor|]. econstructor; [apply ws_fun; eassumption|assumption].
  - clear A. induction B; [constructor|]. econstructor; [apply ws_arg; eassumption|assumption].
Qed.

Lemma wsteps_cons t t' u u' :
  wsteps t t' -> wsteps u u' -> wsteps (TCons t u) (TCons t' u').
Proof.
  intros A B. apply wsteps_trans with (TCons t' u).
  - clear B. induction A; [constructor|]. econstructor; [apply ws_hd; eassumption|assumption].
  - clear A. induction B; [constructor|]. econstructor; [apply ws_tl; eassumption|assumption].
Qed.

(** ** Answers without failures *)

(** [apx t u]: [u] is [t] with some subterms replaced by failures.  (The
    arguments are in the order needed by [delta_stable].) *)
Inductive apx : tm -> tm -> Prop :=
| apx_refl t : apx t t
| apx_fail s u : apx (TFail s) u
| apx_app t t' u u' : apx t t' -> apx u u' -> apx (TApp t u) (TApp t' u')
| apx_cons t t' u u' : apx t t' -> apx u u' -> apx (TCons t u) (TCons t' u').

Lemma apx_spine t t' : apx t t' -> forall p l, spine t [] = Some (p, l) ->
  exists l', spine t' [] = Some (p, l') /\ Forall2 apx l l'.
Proof.
  induction 1; intros p l E.
  - exists l. split; [exact E|]. clear. induction l; constructor; [constructor|assumption].
  - discriminate E.
  - destruct (spine_snoc _ _ _ _ E) as (l1 & E1 & ->).
    destruct (IHapx1 _ _ E1) as (l2 & E2 & F).
    exists (l2 ++ [u']). split; [exact (spine_ext t' [] [u'] p l2 E2)|].
    apply Forall2_app; [exact F|]. constructor; [assumption|constructor].
  - discriminate E.
Qed.

Lemma apx_partial t t' : apx t t' -> partial t = true -> partial t' = true.
Proof.
  intros H P. unfold partial in *. destruct (spine t []) as [[p l]|] eqn:E; [|discriminate].
  destruct (apx_spine _ _ H _ _ E) as (l' & -> & F).
  now rewrite <- (Forall2_len _ _ _ F).
Qed.

Lemma apx_whnf t t' : apx t t' -> whnf t = true -> whnf t' = true.
Proof.
  intros H W. destruct t; cbn in W; try discriminate W.
  - apply partial_whnf. exact (apx_partial _ _ H W).
  - inversion H; subst; reflexivity.
  - inversion H; subst; reflexivity.
  - inversion H; subst; reflexivity.
  - inversion H; subst; reflexivity.
  - inversion H; subst; reflexivity.
  - inversion H; subst. exact W.
Qed.

Lemma apx_head t t' : apx t t' -> whnf t = true -> same_head t t'.
Proof.
  intros H W. destruct t; cbn in W; try discriminate W;
    inversion H; subst; cbn; auto.
Qed.

Lemma apx_conses x y u : apx (TCons x y) u ->
  exists x' y', u = TCons x' y' /\ apx x x' /\ apx y y'.
Proof. inversion 1; subst; eauto 6 using apx_refl. Qed.

Lemma contract_apx t t' r : apx t t' -> contract t = Some r ->
  exists r', contract t' = Some r' /\ apx r r'.
Proof.
  intros H C. unfold contract in *.
  destruct (spine t []) as [[p l]|] eqn:E; [|discriminate].
  destruct (apx_spine _ _ H _ _ E) as (l' & -> & F).
  refine (delta_stable apx apx_refl apx_app apx_cons apx_whnf apx_head _ _
            apx_conses p l l' r F C).
  - now inversion 1.
  - now inversion 1.
Qed.

Lemma apx_wstep t u : wstep t u -> forall t', apx t t' ->
  exists u', steps t' u' /\ apx u u'.
Proof.
  induction 1; intros v A.
  - destruct (contract_apx _ _ _ A H) as (r' & C & B).
    exists r'. split; [apply steps_one, contract_step; exact C|exact B].
  - exists v. split; [constructor|constructor].
  - inversion A; subst.
    + destruct (IHwstep t (apx_refl t)) as (w & S1 & B).
      exists (TApp w u). split; [apply steps_app; [exact S1|constructor]|].
      apply apx_app; [exact B|constructor].
    + destruct (IHwstep _ H2) as (w & S1 & B).
      exists (TApp w u'). split; [apply steps_app; [exact S1|constructor]|].
      apply apx_app; assumption.
  - inversion A; subst.
    + destruct (IHwstep u (apx_refl u)) as (w & S1 & B).
      exists (TApp t w). split; [apply steps_app; [constructor|exact S1]|].
      apply apx_app; [constructor|exact B].
    + destruct (IHwstep _ H4) as (w & S1 & B).
      exists (TApp t' w). split; [apply steps_app; [constructor|exact S1]|].
      apply apx_app; assumption.
  - inversion A; subst.
    + destruct (IHwstep t (apx_refl t)) as (w & S1 & B).
      exists (TCons w u). split; [apply steps_cons; [exact S1|constructor]|].
      apply apx_cons; [exact B|constructor].
    + destruct (IHwstep _ H2) as (w & S1 & B).
      exists (TCons w u'). split; [apply steps_cons; [exact S1|constructor]|].
      apply apx_cons; assumption.
  - inversion A; subst.
    + destruct (IHwstep u (apx_refl u)) as (w & S1 & B).
      exists (TCons t w). split; [apply steps_cons; [constructor|exact S1]|].
      apply apx_cons; [constructor|exact B].
    + destruct (IHwstep _ H4) as (w & S1 & B).
      exists (TCons t' w). split; [apply steps_cons; [constructor|exact S1]|].
      apply apx_cons; assumption.
Qed.

Lemma apx_wsteps t u : wsteps t u -> forall t', apx t t' ->
  exists u', steps t' u' /\ apx u u'.
Proof.
  induction 1; intros t' A.
  - exists t'. split; [constructor|exact A].
  - destruct (apx_wstep _ _ H _ A) as (w & S1 & B).
    destruct (IHwsteps _ B) as (x & S2 & C).
    exists x. split; [eapply steps_trans; eassumption|exact C].
Qed.

Lemma apx_failfree t u : apx t u -> failfree t = true -> u = t.
Proof.
  induction 1; cbn; intros F; try discriminate; try reflexivity.
  - apply andb_prop in F. destruct F. now rewrite IHapx1, IHapx2.
  - apply andb_prop in F. destruct F. now rewrite IHapx1, IHapx2.
Qed.

Lemma wsteps_failfree t u : wsteps t u -> failfree u = true -> steps t u.
Proof.
  intros W F. destruct (apx_wsteps _ _ W t (apx_refl t)) as (u' & S1 & A).
  now rewrite (apx_failfree _ _ A F) in S1.
Qed.

(** ** Weak head normal forms stay so *)

Definition wh (t : tm) : bool :=
  match t with TFail _ => true | _ => whnf t end.

Lemma wstep_spine t t' : wstep t t' -> forall p l, spine t [] = Some (p, l) ->
  length l < arity p ->
  exists l', spine t' [] = Some (p, l') /\ length l' = length l.
Proof.
  induction 1; intros p l E L.
  - unfold contract in H. rewrite E in H. apply delta_length in H. lia.
  - destruct t; cbn in H; try discriminate H; try discriminate E.
    unfold partial in H. rewrite E in H. apply Nat.ltb_lt in L. rewrite L in H. discriminate H.
  - destruct (spine_snoc _ _ _ _ E) as (l1 & E1 & ->).
    rewrite app_length in L. cbn in L.
    destruct (IHwstep _ _ E1) as (l2 & E2 & F); [lia|].
    exists (l2 ++ [u]). split; [exact (spine_ext t' [] [u] p l2 E2)|].
    rewrite !app_length. cbn. lia.
  - destruct (spine_snoc _ _ _ _ E) as (l1 & E1 & ->).
    exists (l1 ++ [u']). split; [exact (spine_ext t [] [u'] p l1 E1)|].
    rewrite !app_length. cbn. lia.
  - discriminate E.
  - discriminate E.
Qed.

Lemma wstep_partial t t' : wstep t t' -> partial t = true -> partial t' = true.
Proof.
  unfold partial. intros H P. destruct (spine t []) as [[p l]|] eqn:E; [|discriminate].
  apply Nat.ltb_lt in P. destruct (wstep_spine _ _ H _ _ E P) as (l' & -> & L).
  apply Nat.ltb_lt. lia.
Qed.

Lemma partial_wh t : partial t = true -> wh t = true.
Proof. destruct t; cbn; auto; discriminate. Qed.

Lemma leaf_wstep t u : wstep t u ->
  match t with
  | TApp _ _ => True
  | TCons _ _ => (exists x y, u = TCons x y) \/ (exists s, u = TFail s)
  | TFail _ => exists s, u = TFail s
  | _ => False
  end.
Proof.
  destruct 1; cbn; eauto 6.
  - destruct (contract_app _ _ H) as (a & b & ->). exact Logic.I.
  - destruct t; cbn in *; eauto; try discriminate H.
Qed.

Lemma wh_wstep t u : wstep t u -> wh t = true -> wh u = true.
Proof.
  intros H W. pose proof (leaf_wstep _ _ H) as L. destruct t; cbn in W;
    try contradiction.
  - apply partial_wh. exact (wstep_partial _ _ H W).
  - destruct L as [(x & y & ->)|(m & ->)]; reflexivity.
  - destruct L as (x & ->). reflexivity.
Qed.

Lemma wh_wsteps t u : wsteps t u -> wh t = true -> wh u = true.
Proof. induction 1; eauto using wh_wstep. Qed.

Definition atom (t : tm) : bool :=
  match t with
  | TNil | TInt _ | TStr _ | TBool _ | TPrm _ => true
  | _ => false
  end.

Lemma atom_wsteps t u : wsteps t u -> atom t = true -> u = t.
Proof.
  destruct 1; intros A; [reflexivity|].
  pose proof (leaf_wstep _ _ H) as L. destruct t; try discriminate A; contradiction.
Qed.

(** Pairs, lists and failures. *)
Definition conslike (t : tm) : bool :=
  match t with TCons _ _ | TFail _ => true | _ => false end.

Lemma conslike_wsteps t u : wsteps t u -> conslike t = true -> conslike u = true.
Proof.
  induction 1; intros A; [exact A|]. apply IHwsteps.
  pose proof (leaf_wstep _ _ H) as L. destruct t; try discriminate A.
  - destruct L as [(x & y & ->)|(m & ->)]; reflexivity.
  - destruct L as (x & ->). reflexivity.
Qed.

Lemma partial_wsteps t u : wsteps t u -> partial t = true -> partial u = true.
Proof. induction 1; eauto using wstep_partial. Qed.

Lemma whnf_str t x : wsteps t (TStr x) -> wh t = true -> t = TStr x.
Proof.
  intros H W. destruct t; cbn in W.
  - pose proof (partial_wsteps _ _ H W) as P. discriminate P.
  - pose proof (conslike_wsteps _ _ H eq_refl) as P. discriminate P.
  - symmetry. now apply atom_wsteps.
  - symmetry. now apply atom_wsteps.
  - symmetry. now apply atom_wsteps.
  - symmetry. now apply atom_wsteps.
  - symmetry. now apply atom_wsteps.
  - pose proof (conslike_wsteps _ _ H eq_refl) as P. discriminate P.
Qed.

(** ** [plain] is kept *)

Lemma plain_spine t : forall args p l, spine t args = Some (p, l) ->
  plain t = true -> forallb plain args = true ->
  plain (TPrm p) = true /\ forallb plain l = true.
Proof.
  induction t; intros args q l E P A; cbn in E; try discriminate E.
  - cbn in P. apply andb_prop in P. destruct P as [P1 P2].
    apply (IHt1 _ _ _ E P1). cbn. now rewrite P2.
  - inversion E; subst. now split.
Qed.

Lemma delta_plain p l u : delta p l = Some u -> forallb plain l = true ->
  plain u = true.
Proof.
  intros D P. pose proof (delta_length _ _ _ D) as L.
  destruct p; cbn in L;
    repeat match goal with
           | H : length ?l = 0 |- _ => destruct l; [clear H|discriminate H]
           | H : length ?l = S _ |- _ =>
             destruct l; [discriminate H|]; cbn in H; apply eq_add_S in H
           | H : 0 = 0 |- _ => clear H
           end;
    cbn in D, P; try discriminate D;
    repeat match goal with
           | H : context [whnf ?x] |- _ => destruct (whnf x); try discriminate H
           end;
    repeat match goal with
           | H : _ && _ = true |- _ => apply andb_prop in H; destruct H
           end;
    try (inversion D; subst; cbn;
         repeat match goal with H : plain _ = true |- _ => rewrite H end;
         reflexivity).
  all: match type of D with context [match ?t with TApp _ _ => _ | _ => _ end] =>
         destruct t; try discriminate D end.
  all: try (inversion D; subst; cbn;
         try match goal with |- context [if ?b then _ else _] => destruct b end;
         assumption || reflexivity).
  1: match type of D with context [match ?t with TApp _ _ => _ | _ => _ end] =>
         destruct t; try discriminate D end; inversion D; reflexivity.
  all: inversion D; subst; cbn in *;
    repeat match goal with
           | H : _ && _ = true |- _ => apply andb_prop in H; destruct H
           end; assumption.
Qed.

Lemma plain_wstep t u : wstep t u -> plain t = true -> plain u = true.
Proof.
  induction 1; cbn; intros P; try reflexivity;
    try (apply andb_prop in P; destruct P as [P1 P2]).
  - unfold contract in H. destruct (spine t []) as [[p l]|] eqn:E; [|discriminate].
    destruct (plain_spine _ _ _ _ E P eq_refl) as [_ A].
    exact (delta_plain _ _ _ H A).
  - now rewrite (IHwstep P1), P2.
  - now rewrite (IHwstep P2), P1.
  - now rewrite (IHwstep P1), P2.
  - now rewrite (IHwstep P2), P1.
Qed.

Lemma plain_wsteps t u : wsteps t u -> plain t = true -> plain u = true.
Proof. induction 1; eauto using plain_wstep. Qed.
