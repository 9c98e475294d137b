(** * The rewriting of [GredSpec] is confluent *)

From Coq Require Import String List Bool Arith ZArith Lia.
From Verif Require Import GredModel GredSpec.
Import ListNotations.
Open Scope list_scope.
Open Scope nat_scope.

Lemma spine_ext t args a p l :
  spine t args = Some (p, l) -> spine t (args ++ a) = Some (p, l ++ a).
Proof.
  revert args a p l. induction t; intros args a q l H; cbn in *; try discriminate.
  - apply (IHt1 (t2 :: args)). exact H.
  - now inversion H.
Qed.

Lemma spine_app t args p l :
  spine t args = Some (p, l) ->
  exists l', spine t [] = Some (p, l') /\ l = l' ++ args.
Proof.
  revert args p l. induction t; intros args q l H; cbn in *; try discriminate.
  - destruct (IHt1 _ _ _ H) as (l1 & E1 & ->).
    exists (l1 ++ [t2]). split.
    + exact (spine_ext t1 [] [t2] q l1 E1).
    + now rewrite <- app_assoc.
  - inversion H; subst. exists []. now split.
Qed.

Definition contract (t : tm) : option tm :=
  match spine t [] with
  | Some (p, args) => delta p args
  | None => None
  end.

Lemma delta_length p args r : delta p args = Some r -> length args = arity p.
Proof.
  destruct p; destruct args as [|a [|b [|c [|d [|e l]]]]]; cbn; intros H;
    try discriminate H; try reflexivity;
    destruct a; try discriminate H; try (destruct b; discriminate H).
Qed.

Lemma arity_pos p : 1 <= arity p.
Proof. destruct p; cbn; lia. Qed.

Lemma spine_snoc t u p l :
  spine (TApp t u) [] = Some (p, l) ->
  exists l', spine t [] = Some (p, l') /\ l = l' ++ [u].
Proof. cbn. intros H. exact (spine_app _ _ _ _ H). Qed.

Lemma partial_fun t u : partial (TApp t u) = true -> partial t = true.
Proof.
  unfold partial. destruct (spine (TApp t u) []) as [[p l]|] eqn:E; [|discriminate].
  destruct (spine_snoc _ _ _ _ E) as (l' & -> & ->).
  rewrite app_length. cbn. intros H. apply Nat.ltb_lt in H. apply Nat.ltb_lt. lia.
Qed.

Lemma contract_partial t u r :
  contract (TApp t u) = Some r -> partial t = true.
Proof.
  unfold contract, partial.
  destruct (spine (TApp t u) []) as [[p l]|] eqn:E; [|discriminate].
  intros H. apply delta_length in H.
  destruct (spine_snoc _ _ _ _ E) as (l' & -> & ->).
  rewrite app_length in H. cbn in H. apply Nat.ltb_lt. lia.
Qed.

Lemma contract_app t r : contract t = Some r -> exists u v, t = TApp u v.
Proof.
  unfold contract. destruct t; cbn; try discriminate; [eauto|].
  intros H. apply delta_length in H. pose proof (arity_pos p). cbn in H. lia.
Qed.

(** A relation that respects the shape of weak head normal forms is respected
    by [delta]. *)
Definition same_head (x x' : tm) : Prop :=
  match x, x' with
  | TCons _ _, TCons _ _ | TNil, TNil => True
  | TStr s, TStr s' => s = s'
  | (TApp _ _ | TPrm _ | TInt _ | TBool _ ), (TApp _ _ | TPrm _ | TInt _ | TBool _) => True
  | _, _ => False
  end.

Section DeltaStable.
Variable R : tm -> tm -> Prop.
Hypothesis R_refl : forall t, R t t.
Hypothesis R_app : forall t t' u u', R t t' -> R u u' -> R (TApp t u) (TApp t' u').
Hypothesis R_cons : forall t t' u u', R t t' -> R u u' -> R (TCons t u) (TCons t' u').
Hypothesis R_whnf : forall t t', R t t' -> whnf t = true -> whnf t' = true.
Hypothesis R_head : forall t t', R t t' -> whnf t = true -> same_head t t'.
Hypothesis R_bool : forall b u, R (TBool b) u -> u = TBool b.
Hypothesis R_int : forall b u, R (TInt b) u -> u = TInt b.
Hypothesis R_conses : forall x y u, R (TCons x y) u ->
  exists x' y', u = TCons x' y' /\ R x x' /\ R y y'.

Lemma delta_stable p l l' r :
  Forall2 R l l' -> delta p l = Some r ->
  exists r', delta p l' = Some r' /\ R r r'.
Proof.
  intros F D. pose proof (delta_length _ _ _ D) as L.
  destruct p; cbn in L;
    repeat match goal with
           | H : length ?l = 0 |- _ => destruct l; [clear H|discriminate H]
           | H : length ?l = S _ |- _ =>
             destruct l; [discriminate H|]; cbn in H; apply eq_add_S in H
           | H : 0 = 0 |- _ => clear H
           end;
    repeat match goal with
           | H : Forall2 _ [] _ |- _ => inversion H; subst; clear H
           | H : Forall2 _ (_ :: _) _ |- _ => inversion H; subst; clear H
           end.
  all: cbn in D |- *.
  all: try discriminate D.
  all: try (inversion D; subst; eexists; split; [reflexivity|];
            repeat (assumption || apply R_app || apply R_cons); fail).
  (* SEQ FSEQ THEN *)
  1-3: match type of D with context [whnf ?x] =>
         destruct (whnf x) eqn:W; [|discriminate D] end;
       inversion D; subst; eexists;
       match goal with H : R ?x _, W : whnf ?x = true |- _ =>
         rewrite (R_whnf _ _ H W) end;
       split; [reflexivity|];
       repeat (assumption || apply R_app).
  (* booleans first *)
  1-5: match type of D with context [match ?t with TApp _ _ => _ | _ => _ end] =>
         destruct t; try discriminate D end;
       match goal with H : R (TBool _) _ |- _ => apply R_bool in H; subst end.
  1-4: inversion D; subst; eexists; split; [reflexivity|];
       repeat match goal with |- context [if ?b then _ else _] => destruct b end;
       assumption || apply R_refl.
  1: match type of D with context [match ?t with TApp _ _ => _ | _ => _ end] =>
       destruct t; try discriminate D end;
     match goal with H : R (TBool _) _ |- _ => apply R_bool in H; subst end;
     inversion D; subst; eexists; split; [reflexivity|]; apply R_refl.
  (* HEAD TAIL *)
  1-2: match type of D with context [match ?t with TApp _ _ => _ | _ => _ end] =>
         destruct t; try discriminate D end;
       match goal with H : R (TCons _ _) _ |- _ =>
         destruct (R_conses _ _ _ H) as (? & ? & -> & ? & ?) end;
       inversion D; subst; eexists; split; [reflexivity|]; assumption.
  (* EMPTY IS_CONS *)
  1-2: match type of D with context [whnf ?x] =>
         destruct (whnf x) eqn:W; [|discriminate D] end;
       match goal with H : R ?x _, W : whnf ?x = true |- _ =>
         rewrite (R_whnf _ _ H W); pose proof (R_head _ _ H W) as Q; unfold same_head in Q end;
       inversion D; subst; eexists; split; [reflexivity|];
       match type of Q with match ?x with _ => _ end =>
         destruct x; match type of Q with match ?y with _ => _ end => destruct y | _ => idtac end end;
       try contradiction; try discriminate W; apply R_refl.
  (* SUC *)
  1: match type of D with context [match ?t with TApp _ _ => _ | _ => _ end] =>
       destruct t; try discriminate D end;
     match goal with H : R (TInt _) _ |- _ => apply R_int in H; subst end;
     inversion D; subst; eexists; split; [reflexivity|]; apply R_refl.
  (* CONSTR_EQ *)
  destruct (whnf t) eqn:W1; [|discriminate D].
  destruct (whnf t0) eqn:W2; [|discriminate D].
  rewrite (R_whnf _ _ H1 W1), (R_whnf _ _ H2 W2).
  pose proof (R_head _ _ H1 W1) as Q1.
  pose proof (R_head _ _ H2 W2) as Q2. unfold same_head in Q1, Q2.
  cbn in D |- *. inversion D; subst. eexists; split; [reflexivity|].
  match goal with |- R (TBool ?a) (TBool ?b) => assert (E : a = b) end.
  { destruct t; destruct y; try contradiction; try discriminate W1; try reflexivity.
    all: try (destruct t0; destruct y0; try contradiction; try discriminate W2; reflexivity).
    destruct t0; destruct y0; try contradiction; try discriminate W2; try reflexivity.
    congruence. }
  rewrite E. apply R_refl.
Qed.

End DeltaStable.

(** ** Parallel steps *)

Inductive par : tm -> tm -> Prop :=
| par_refl t : par t t
| par_app t t' u u' : par t t' -> par u u' -> par (TApp t u) (TApp t' u')
| par_cons t t' u u' : par t t' -> par u u' -> par (TCons t u) (TCons t' u')
| par_delta t t' u u' r :
    partial t = true -> par t t' -> par u u' ->
    contract (TApp t' u') = Some r -> par (TApp t u) r.

Lemma partial_contract t : partial t = true -> contract t = None.
Proof.
  unfold partial, contract. destruct (spine t []) as [[p l]|]; [|discriminate].
  intros H. apply Nat.ltb_lt in H.
  destruct (delta p l) eqn:E; [|reflexivity]. apply delta_length in E. lia.
Qed.

Lemma par_spine t t' : par t t' -> partial t = true ->
  exists p l l', spine t [] = Some (p, l) /\ spine t' [] = Some (p, l') /\
                 Forall2 par l l'.
Proof.
  induction 1; intros P.
  - unfold partial in P. destruct (spine t []) as [[p l]|]; [|discriminate].
    exists p, l, l. split; [reflexivity|]. split; [reflexivity|].
    clear. induction l; constructor; [constructor|assumption].
  - destruct (IHpar1 (partial_fun _ _ P)) as (p & l & l' & E & E' & F).
    exists p, (l ++ [u]), (l' ++ [u']). split; [|split].
    + exact (spine_ext t [] [u] p l E).
    + exact (spine_ext t' [] [u'] p l' E').
    + apply Forall2_app; [exact F|]. constructor; [assumption|constructor].
  - discriminate P.
  - exfalso. (* the left of a partial application has one argument less *)
    unfold partial in *. destruct (IHpar1 H) as (p & l & l' & E & E' & F).
    pose proof (spine_ext t [] [u] p l E) as E1. cbn in E1.
    cbn [spine] in P. rewrite E1 in P. apply Nat.ltb_lt in P.
    rewrite app_length in P. cbn in P.
    pose proof (spine_ext t' [] [u'] p l' E') as E2. cbn in E2.
    unfold contract in H2. cbn [spine] in H2. rewrite E2 in H2.
    apply delta_length in H2. rewrite app_length in H2. cbn in H2.
    assert (length l = length l') by (clear -F; induction F; cbn; congruence). lia.
Qed.

Lemma Forall2_len {A B} (R : A -> B -> Prop) l l' :
  Forall2 R l l' -> length l = length l'.
Proof. induction 1; cbn; congruence. Qed.

Lemma par_partial t t' : par t t' -> partial t = true -> partial t' = true.
Proof.
  intros H P. destruct (par_spine _ _ H P) as (p & l & l' & E & E' & F).
  unfold partial in *. rewrite E in P. rewrite E'.
  now rewrite <- (Forall2_len _ _ _ F).
Qed.

Lemma partial_whnf t : partial t = true -> whnf t = true.
Proof. destruct t; cbn; auto; discriminate. Qed.

Lemma par_whnf t t' : par t t' -> whnf t = true -> whnf t' = true.
Proof.
  intros H W. destruct t; cbn in W; try discriminate W.
  - apply partial_whnf. exact (par_partial _ _ H W).
  - inversion H; subst; reflexivity.
  - inversion H; subst; reflexivity.
  - inversion H; subst; reflexivity.
  - inversion H; subst; reflexivity.
  - inversion H; subst; reflexivity.
  - inversion H; subst. exact W.
Qed.

Lemma par_bool b u : par (TBool b) u -> u = TBool b.
Proof. inversion 1; reflexivity. Qed.
Lemma par_int b u : par (TInt b) u -> u = TInt b.
Proof. inversion 1; reflexivity. Qed.
Lemma par_str b u : par (TStr b) u -> u = TStr b.
Proof. inversion 1; reflexivity. Qed.
Lemma par_nil u : par TNil u -> u = TNil.
Proof. inversion 1; reflexivity. Qed.
Lemma par_conses x y u : par (TCons x y) u ->
  exists x' y', u = TCons x' y' /\ par x x' /\ par y y'.
Proof. inversion 1; subst; eauto 6 using par_refl. Qed.

Lemma whnf_head x x' : par x x' -> whnf x = true -> same_head x x'.
Proof.
  unfold same_head. intros H W. destruct x; cbn in W; try discriminate W.
  - assert (W' : partial (TApp x1 x2) = true) by exact W.
    destruct (par_spine _ _ H W') as (p & l & l' & E & E' & F).
    destruct x'; cbn in E'; try discriminate E'; exact Logic.I.
  - destruct (par_conses _ _ _ H) as (a & b & -> & _ & _). exact Logic.I.
  - rewrite (par_nil _ H). exact Logic.I.
  - rewrite (par_int _ _ H). exact Logic.I.
  - rewrite (par_str _ _ H). reflexivity.
  - rewrite (par_bool _ _ H). exact Logic.I.
  - inversion H; subst. exact Logic.I.
Qed.

Lemma delta_par p l l' r :
  Forall2 par l l' -> delta p l = Some r ->
  exists r', delta p l' = Some r' /\ par r r'.
Proof.
  apply (delta_stable par par_refl par_app par_cons par_whnf whnf_head par_bool
           par_int par_conses).
Qed.

Fixpoint dev (t : tm) : tm :=
  match t with
  | TApp t u =>
    if partial t then
      match contract (TApp (dev t) (dev u)) with
      | Some r => r
      | None => TApp (dev t) (dev u)
      end
    else TApp (dev t) (dev u)
  | TCons t u => TCons (dev t) (dev u)
  | t => t
  end.

Lemma par_dev_self t : par t (dev t).
Proof.
  induction t; cbn; try apply par_refl.
  - destruct (partial t1) eqn:P; [|now apply par_app].
    destruct (contract (TApp (dev t1) (dev t2))) eqn:C; [|now apply par_app].
    now apply par_delta with (dev t1) (dev t2).
  - now apply par_cons.
Qed.

Lemma contract_par t u t' u' r :
  partial t = true -> par t t' -> par u u' -> contract (TApp t u) = Some r ->
  exists r', contract (TApp t' u') = Some r' /\ par r r'.
Proof.
  intros P H1 H2 C. destruct (par_spine _ _ H1 P) as (p & l & l' & E & E' & F).
  unfold contract in *. cbn [spine] in *.
  pose proof (spine_ext t [] [u] p l E) as E1. cbn in E1. rewrite E1 in C.
  pose proof (spine_ext t' [] [u'] p l' E') as E2. cbn in E2. rewrite E2.
  apply delta_par with (2 := C). apply Forall2_app; [exact F|].
  constructor; [exact H2|constructor].
Qed.

Lemma triangle t v : par t v -> par v (dev t).
Proof.
  induction 1; cbn.
  - apply par_dev_self.
  - destruct (partial t) eqn:P; [|now apply par_app].
    destruct (contract (TApp (dev t) (dev u))) eqn:C; [|now apply par_app].
    apply par_delta with (dev t) (dev u); try assumption.
    now apply (par_partial t).
  - now apply par_cons.
  - rewrite H.
    destruct (contract_par _ _ _ _ _ (par_partial _ _ H0 H) IHpar1 IHpar2 H2)
      as (r' & -> & Q).
    exact Q.
Qed.

(** ** Confluence *)

Lemma steps_trans t u v : steps t u -> steps u v -> steps t v.
Proof. induction 1; [auto|]. intros. econstructor; eauto. Qed.

Lemma steps_one t u : step t u -> steps t u.
Proof. intros. econstructor; [eassumption|constructor]. Qed.

Lemma steps_app t t' u u' : steps t t' -> steps u u' -> steps (TApp t u) (TApp t' u').
Proof.
  intros A B. apply steps_trans with (TApp t' u).
  - clear B. induction A; [constructor|]. econstructor; [apply step_fun; eassumption|assumption].
  - clear A. induction B; [constructor|]. econstructor; [apply step_arg; eassumption|assumption].
Qed.

Lemma steps_cons t t' u u' : steps t t' -> steps u u' -> steps (TCons t u) (TCons t' u').
Proof.
  intros A B. apply steps_trans with (TCons t' u).
  - clear B. induction A; [constructor|]. econstructor; [apply step_hd; eassumption|assumption].
  - clear A. induction B; [constructor|]. econstructor; [apply step_tl; eassumption|assumption].
Qed.

Lemma contract_step t u : contract t = Some u -> step t u.
Proof.
  unfold contract. destruct (spine t []) as [[p l]|] eqn:E; [|discriminate].
  intros D. eapply step_delta; eassumption.
Qed.

Lemma par_steps t u : par t u -> steps t u.
Proof.
  induction 1.
  - constructor.
  - now apply steps_app.
  - now apply steps_cons.
  - eapply steps_trans; [apply steps_app; eassumption|].
    apply steps_one, contract_step. assumption.
Qed.

Lemma step_par t u : step t u -> par t u.
Proof.
  induction 1.
  - assert (C : contract t = Some u) by (unfold contract; now rewrite H).
    destruct (contract_app _ _ C) as (a & b & ->).
    eapply par_delta; [eapply contract_partial; eassumption|apply par_refl|apply par_refl|exact C].
  - apply par_app; [assumption|apply par_refl].
  - apply par_app; [apply par_refl|assumption].
  - apply par_cons; [assumption|apply par_refl].
  - apply par_cons; [apply par_refl|assumption].
Qed.

Inductive pars : tm -> tm -> Prop :=
| pars_refl t : pars t t
| pars_step t u v : par t u -> pars u v -> pars t v.

Lemma steps_pars t u : steps t u -> pars t u.
Proof. induction 1; econstructor; eauto using step_par. Qed.

Lemma pars_steps t u : pars t u -> steps t u.
Proof. induction 1; [constructor|]. eapply steps_trans; [apply par_steps|]; eassumption. Qed.

Lemma strip t u v : par t u -> pars t v -> exists w, pars u w /\ par v w.
Proof.
  intros P Q. revert u P. induction Q; intros w P.
  - exists w. split; [constructor|assumption].
  - destruct (IHQ (dev t)) as (x & A & B); [now apply triangle|].
    exists x. split; [|exact B].
    econstructor; [apply triangle; exact P|exact A].
Qed.

Lemma pars_conf t u v : pars t u -> pars t v -> exists w, pars u w /\ pars v w.
Proof.
  intros P. revert v. induction P; intros w Q.
  - exists w. split; [assumption|constructor].
  - destruct (strip _ _ _ H Q) as (x & A & B).
    destruct (IHP _ A) as (y & C & D).
    exists y. split; [exact C|]. econstructor; eassumption.
Qed.

Lemma confluent t u v : steps t u -> steps t v -> exists w, steps u w /\ steps v w.
Proof.
  intros A B.
  destruct (pars_conf _ _ _ (steps_pars _ _ A) (steps_pars _ _ B)) as (w & C & D).
  exists w. split; now apply pars_steps.
Qed.

Lemma data_normal t u : data t = true -> step t u -> False.
Proof.
  revert u. induction t; intros u D H; cbn in D; try discriminate D;
    inversion H; subst; cbn in *; try discriminate.
  - apply andb_prop in D. eapply IHt1; [apply D|eassumption].
  - apply andb_prop in D. eapply IHt2; [apply D|eassumption].
Qed.

Lemma data_steps t u : data t = true -> steps t u -> u = t.
Proof.
  intros D H. inversion H; subst; [reflexivity|]. exfalso. eapply data_normal; eassumption.
Qed.

Lemma data_unique t u v :
  steps t u -> steps t v -> data u = true -> data v = true -> u = v.
Proof.
  intros A B D E. destruct (confluent _ _ _ A B) as (w & C & F).
  rewrite (data_steps _ _ D C) in F || idtac.
  pose proof (data_steps _ _ D C). pose proof (data_steps _ _ E F). congruence.
Qed.
