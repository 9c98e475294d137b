(* The untyped lambda calculus with constants, in de Bruijn notation, with
   beta-eta convertibility; and the reading of fl terms in it.  This is the
   specification of what a term means; it shares nothing with the compiler. *)
From Coq Require Import String List Bool Arith Lia.
From Verif Require Import CombModel.
Import ListNotations.

Inductive lt :=
| LVar (n : nat)
| LFree (x : string)
| LCst (n : nat)
| LApp (a b : lt)
| LLam (a : lt).

Definition upr (r : nat -> nat) (n : nat) : nat :=
  match n with O => O | S n => S (r n) end.

Fixpoint ren (r : nat -> nat) (t : lt) : lt :=
  match t with
  | LVar n => LVar (r n)
  | LFree x => LFree x
  | LCst n => LCst n
  | LApp a b => LApp (ren r a) (ren r b)
  | LLam a => LLam (ren (upr r) a)
  end.

Definition up (s : nat -> lt) (n : nat) : lt :=
  match n with O => LVar 0 | S n => ren S (s n) end.

Fixpoint sub (s : nat -> lt) (t : lt) : lt :=
  match t with
  | LVar n => s n
  | LFree x => LFree x
  | LCst n => LCst n
  | LApp a b => LApp (sub s a) (sub s b)
  | LLam a => LLam (sub (up s) a)
  end.

Definition scons (b : lt) (n : nat) : lt :=
  match n with O => b | S n => LVar n end.

(* beta-eta convertibility: the least congruence containing both rules *)
Inductive conv : lt -> lt -> Prop :=
| cv_refl a : conv a a
| cv_sym a b : conv a b -> conv b a
| cv_trans a b c : conv a b -> conv b c -> conv a c
| cv_app a a' b b' : conv a a' -> conv b b' -> conv (LApp a b) (LApp a' b')
| cv_lam a a' : conv a a' -> conv (LLam a) (LLam a')
| cv_beta a b : conv (LApp (LLam a) b) (sub (scons b) a)
| cv_eta a : conv (LLam (LApp (ren S a) (LVar 0))) a.

(* The primitives as closed lambda terms. *)
Definition lprim (p : prim) : lt :=
  match p with
  | P_I => LLam (LVar 0)                                        (* \x. x *)
  | P_K => LLam (LLam (LVar 1))                                 (* \x y. x *)
  | P_S =>                                           (* \f g x. f x (g x) *)
      LLam (LLam (LLam (LApp (LApp (LVar 2) (LVar 0)) (LApp (LVar 1) (LVar 0)))))
  | P_B =>                                             (* \f g x. f (g x) *)
      LLam (LLam (LLam (LApp (LVar 2) (LApp (LVar 1) (LVar 0)))))
  | P_C =>                                               (* \f x y. f y x *)
      LLam (LLam (LLam (LApp (LApp (LVar 2) (LVar 0)) (LVar 1))))
  | P_SPRIME =>                                (* \c f g x. c (f x) (g x) *)
      LLam (LLam (LLam (LLam (LApp (LApp (LVar 3) (LApp (LVar 2) (LVar 0)))
                                   (LApp (LVar 1) (LVar 0))))))
  | P_BPRIME =>                                    (* \c f g x. c f (g x) *)
      LLam (LLam (LLam (LLam (LApp (LApp (LVar 3) (LVar 2))
                                   (LApp (LVar 1) (LVar 0))))))
  | P_CPRIME =>                                    (* \c f y x. c (f x) y *)
      LLam (LLam (LLam (LLam (LApp (LApp (LVar 3) (LApp (LVar 2) (LVar 0)))
                                   (LVar 1)))))
  | P_BSTAR =>                                   (* \c f g x. c (f (g x)) *)
      LLam (LLam (LLam (LLam (LApp (LVar 3) (LApp (LVar 2)
                                   (LApp (LVar 1) (LVar 0)))))))
  | P_Y =>                              (* \f. (\x. f (x x)) (\x. f (x x)) *)
      LLam (LApp (LLam (LApp (LVar 1) (LApp (LVar 0) (LVar 0))))
                 (LLam (LApp (LVar 1) (LApp (LVar 0) (LVar 0)))))
  | P_NAMED_ARG => LLam (LLam (LLam (LVar 2)))                (* \e v d. e *)
  end.

(* The reading of an fl term when its variables stand for the terms given by
   [r]; a lambda binds the innermost index. *)
Definition bind (r : string -> lt) (x : string) (y : string) : lt :=
  if String.eqb y x then LVar 0 else ren S (r y).
Fixpoint mean (r : string -> lt) (t : tm) : lt :=
  match t with
  | Var x => r x
  | Prm p => lprim p
  | Cst n => LCst n
  | App a b => LApp (mean r a) (mean r b)
  | Lam x a => LLam (mean (bind r x) a)
  end.

(* The reading of a whole program: free names are free. *)
Definition meaning (t : tm) : lt := mean LFree t.

(* ------------------------------------------------------------------ *)
(* Metatheory *)

Lemma ren_ext r r' t : (forall n, r n = r' n) -> ren r t = ren r' t.
Proof.
  revert r r'; induction t; intros r r' E; cbn; f_equal; auto.
  apply IHt. intros [|n]; cbn; auto.
Qed.
Lemma sub_ext s s' t : (forall n, s n = s' n) -> sub s t = sub s' t.
Proof.
  revert s s'; induction t; intros s s' E; cbn; f_equal; auto.
  apply IHt. intros [|n]; cbn; auto. now rewrite E.
Qed.
Lemma ren_ren r r' t : ren r' (ren r t) = ren (fun n => r' (r n)) t.
Proof.
  revert r r'; induction t; intros r r'; cbn; f_equal; auto.
  rewrite IHt. apply ren_ext. intros [|n]; reflexivity.
Qed.
Lemma ren_upr_S r t : ren (upr r) (ren S t) = ren S (ren r t).
Proof. rewrite !ren_ren. apply ren_ext. reflexivity. Qed.
Lemma ren_sub r s t : ren r (sub s t) = sub (fun n => ren r (s n)) t.
Proof.
  revert r s; induction t; intros r s; cbn; f_equal; auto.
  rewrite IHt. apply sub_ext. intros [|n]; cbn; auto using ren_upr_S.
Qed.
Lemma sub_ren r s t : sub s (ren r t) = sub (fun n => s (r n)) t.
Proof.
  revert r s; induction t; intros r s; cbn; f_equal; auto.
  rewrite IHt. apply sub_ext. intros [|n]; reflexivity.
Qed.
Lemma sub_id s t : (forall n, s n = LVar n) -> sub s t = t.
Proof.
  revert s; induction t; intros s E; cbn; f_equal; auto.
  apply IHt. intros [|n]; cbn; auto. now rewrite E.
Qed.
Lemma ren_as_sub r t : ren r t = sub (fun n => LVar (r n)) t.
Proof. rewrite <- (sub_id LVar t) at 1 by reflexivity. apply ren_sub. Qed.
Lemma sub_up_S s t : sub (up s) (ren S t) = ren S (sub s t).
Proof. rewrite sub_ren, ren_sub. apply sub_ext. reflexivity. Qed.
Lemma sub_scons_S b t : sub (scons b) (ren S t) = t.
Proof. rewrite sub_ren. apply sub_id. reflexivity. Qed.
Lemma sub_scons_0 t : sub (scons (LVar 0)) (ren (upr S) t) = t.
Proof. rewrite sub_ren. apply sub_id. now intros [|n]. Qed.

Lemma conv_ren r a b : conv a b -> conv (ren r a) (ren r b).
Proof.
  intros C; revert r; induction C; intros r; cbn.
  - apply cv_refl.
  - apply cv_sym; auto.
  - eapply cv_trans; eauto.
  - apply cv_app; auto.
  - apply cv_lam; auto.
  - rewrite ren_sub.
    assert (E : sub (fun n => ren r (scons b n)) a
              = sub (scons (ren r b)) (ren (upr r) a)).
    { rewrite sub_ren. apply sub_ext. now intros [|n]. }
    rewrite E. apply cv_beta.
  - rewrite ren_upr_S. apply cv_eta.
Qed.

Lemma conv_beta_var a : conv (LApp (ren S (LLam a)) (LVar 0)) a.
Proof.
  cbn. eapply cv_trans; [apply cv_beta|]. rewrite sub_scons_0. apply cv_refl.
Qed.

(* A term is the abstraction of what it yields on a new variable. *)
Lemma conv_abs a m : conv (LApp (ren S a) (LVar 0)) m -> conv a (LLam m).
Proof.
  intros C. eapply cv_trans; [apply cv_sym, cv_eta|]. now apply cv_lam.
Qed.

Lemma lprim_sub s p : sub s (lprim p) = lprim p.
Proof. destruct p; reflexivity. Qed.
Lemma lprim_ren r p : ren r (lprim p) = lprim p.
Proof. destruct p; reflexivity. Qed.

Fixpoint isfree (x : string) (t : tm) : bool :=
  match t with
  | Var y => String.eqb x y
  | App a b => isfree x a || isfree x b
  | Lam y a => negb (String.eqb x y) && isfree x a
  | _ => false
  end.

Lemma mean_ext r r' t :
  (forall x, isfree x t = true -> r x = r' x) -> mean r t = mean r' t.
Proof.
  revert r r'; induction t; intros r r' E; cbn; auto.
  - apply E. cbn. apply String.eqb_refl.
  - f_equal; [apply IHt1|apply IHt2]; intros x Hx; apply E; cbn; rewrite Hx;
      auto using orb_true_r.
  - f_equal. apply IHt. intros y Hy. unfold bind.
    destruct (String.eqb y x) eqn:Q; auto. f_equal. apply E. cbn.
    rewrite Q, Hy. reflexivity.
Qed.

Lemma mean_ren f r t : ren f (mean r t) = mean (fun x => ren f (r x)) t.
Proof.
  revert f r; induction t; intros f r; cbn; f_equal; auto using lprim_ren.
  rewrite IHt. apply mean_ext. intros y _. unfold bind.
  destruct (String.eqb y x); cbn; auto using ren_upr_S.
Qed.
Lemma mean_sub s r t : sub s (mean r t) = mean (fun x => sub s (r x)) t.
Proof.
  revert s r; induction t; intros s r; cbn; f_equal; auto using lprim_sub.
  rewrite IHt. apply mean_ext. intros y _. unfold bind.
  destruct (String.eqb y x); cbn; auto using sub_up_S.
Qed.

(* A variable that does not occur is invisible. *)
Lemma mean_bind_notfree r x t :
  isfree x t = false -> mean (bind r x) t = ren S (mean r t).
Proof.
  intros N. rewrite mean_ren. apply mean_ext. intros y Hy. unfold bind.
  destruct (String.eqb y x) eqn:Q; auto.
  apply String.eqb_eq in Q. subst. congruence.
Qed.

Definition upd (r : string -> lt) (x : string) (b : lt) (y : string) : lt :=
  if String.eqb y x then b else r y.

Lemma mean_beta r x t b :
  sub (scons b) (mean (bind r x) t) = mean (upd r x b) t.
Proof.
  rewrite mean_sub. apply mean_ext. intros y _. unfold bind, upd.
  destruct (String.eqb y x); cbn; auto using sub_scons_S.
Qed.

(* The abstraction criterion on fl terms: a term not containing x, which
   applied to x means the same as t, means \x. t. *)
Lemma mean_abs r x f t :
  isfree x f = false ->
  conv (mean (bind r x) (App f (Var x))) (mean (bind r x) t) ->
  conv (mean r f) (mean r (Lam x t)).
Proof.
  intros N C. cbn in *. apply conv_abs.
  rewrite mean_bind_notfree in C by assumption.
  unfold bind at 1 in C. now rewrite String.eqb_refl in C.
Qed.
