(** Meaning of a formula in terms of variable names, and the triple used for
    operations that may declare variables. *)
From stdpp Require Import gmap strings list.
From Coq Require Import NArith Lia.
From Verif Require Import BddModel BddWf BddOps BddVar.
Open Scope N_scope.

(** Assignments by name; a Boolean function over named variables. *)
Notation nenv := (string -> bool).
Notation bfun := (nenv -> bool).

Definition env_of (s : bst) (E : nenv) : env := fun v =>
  match vnames s !! N.to_nat v with Some x => E x | None => false end.
Definition den (s : bst) (f : fml) : bfun := fun E => sem s (env_of s E) f.

Lemma env_of_ext s s' E v : WF s -> ext s s' -> v < nvars s -> env_of s' E v = env_of s E v.
Proof.
  intros W X Hv. unfold env_of. destruct X as (_&_&[k Hk]&_). rewrite Hk.
  rewrite lookup_app_l; [done|]. rewrite (wf_len _ W). unfold nvars in Hv. lia.
Qed.
Lemma den_ext s s' f E : WF s -> WF s' -> ext s s' -> live s f -> den s' f E = den s f E.
Proof.
  intros W W' X L. unfold den. rewrite (ext_sem s s') by done.
  apply sem_env_ext; [done| |done]. intros. by apply env_of_ext.
Qed.

(** Every assignment to the declared variables comes from one to names. *)
Lemma env_of_surj s e : WF s -> exists E, forall v, v < nvars s -> env_of s E v = e v.
Proof.
  intros W. exists (fun x => match list_find (fun y => y = x) (vnames s) with
                             | Some (i, _) => e (N.of_nat i) | None => false end).
  intros v Hv. unfold env_of.
  destruct (lookup_lt_is_Some_2 (vnames s) (N.to_nat v)) as [x Hx].
  { rewrite (wf_len _ W). unfold nvars in Hv. lia. }
  rewrite Hx. destruct (list_find (fun y => y = x) (vnames s)) as [[i y]|] eqn:E.
  - apply list_find_Some in E as (Hi&->&_).
    assert (i = N.to_nat v) as -> by (by eapply NoDup_lookup; [apply (wf_names _ W)|..]).
    by rewrite N2Nat.id.
  - apply list_find_None in E. rewrite Forall_forall in E.
    exfalso. eapply E; [|done]. by eapply elem_of_list_lookup_2.
Qed.
Lemma den_sem s f g : WF s -> live s f -> live s g ->
  (forall E, den s f E = den s g E) -> forall e, sem s e f = sem s e g.
Proof.
  intros W Lf Lg H e. destruct (env_of_surj s e W) as [E HE]. specialize (H E). unfold den in H.
  rewrite <- (sem_env_ext s (env_of s E) e) with (f := f) by done.
  rewrite <- (sem_env_ext s (env_of s E) e) with (f := g) by done. done.
Qed.
Lemma den_canonical s f g : WF s -> live s f -> live s g -> (forall E, den s f E = den s g E) -> f = g.
Proof. intros. apply (canonical s); try done. intros. by apply den_sem. Qed.

Definition espec {A} (m : M A) (s : bst) (Q : A -> bst -> Prop) : Prop :=
  exists a s', m s = Some (a, s') /\ WF s' /\ ext s s' /\ Q a s'.
Lemma espec_ret {A} (a : A) s (Q : A -> bst -> Prop) : WF s -> Q a s -> espec (ret a) s Q.
Proof. intros. exists a, s. split_and!; try done. Qed.
Lemma espec_bind {A B} (m : M A) (k : A -> M B) s (Q : B -> bst -> Prop) :
  espec m s (fun a s' => WF s' -> ext s s' -> espec (k a) s' Q) -> espec (bind m k) s Q.
Proof.
  intros (a&s'&E&W&P&H). specialize (H W P) as (b&s''&E'&W'&P'&H').
  exists b, s''. unfold bind. rewrite E. split_and!; try done. by eapply ext_trans.
Qed.
Lemma espec_weaken {A} (m : M A) s (Q Q' : A -> bst -> Prop) :
  espec m s Q -> (forall a s', WF s' -> ext s s' -> Q a s' -> Q' a s') -> espec m s Q'.
Proof. intros (a&s'&E&W&P&H) HQ. exists a, s'. split_and!; try done. by apply HQ. Qed.
Lemma spec_espec {A} (m : M A) s (Q : A -> bst -> Prop) : spec m s Q -> espec m s Q.
Proof. intros (a&s'&E&W&P&H). exists a, s'. split_and!; try done. by apply pext_ext. Qed.
Lemma vspec_espec m x s : vspec m x s -> espec m s (fun f s' => live s' f /\ exists v,
  v < nvars s' /\ vnames s' !! N.to_nat v = Some x /\ forall e, sem s' e f = e v).
Proof. intros (f&s'&v&E&W&X&L&Hv&Hn&Hs). exists f, s'. split_and!; try done. by exists v. Qed.
