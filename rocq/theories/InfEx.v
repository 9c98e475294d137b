(* Stores and expressions for the examples of C51. *)
From Coq Require Import String List Bool Arith Lia.
From Verif Require Import TyModel TyThms InfModel InfSpec.
Import ListNotations.
Open Scope list_scope.

Definition arity (c : con) : nat :=
  match c with CArrow | CTuple => 2 | CList | CRef => 1 | _ => 0 end.
Lemma arity_base : base_arities arity.
Proof. repeat split. Qed.

(* Stores whose nodes point backwards. *)
Fixpoint backwards (h : heap) (n : nat) : bool :=
  match h with
  | [] => true
  | x :: h => forallb (fun q => q <? n) (kids_of x)
              && match x with NCon c k => Nat.eqb (length k) (arity c) | _ => true end
              && backwards h (S n)
  end.
Lemma backwards_store h : backwards h 0 = true -> store arity h.
Proof.
  intros E.
  assert (P : forall h n p x, backwards h n = true -> nth_error h p = Some x ->
    (forall q, In q (kids_of x) -> q < n + p) /\ (forall c k, x = NCon c k -> length k = arity c)).
  { clear. induction h as [|y h IH]; intros n p x B N; [destruct p; discriminate|].
    cbn in B. apply andb_true_iff in B as [B B2]. apply andb_true_iff in B as [B0 B1].
    destruct p as [|p]; cbn in N.
    - injection N as <-. split.
      + intros q I. rewrite forallb_forall in B0. apply B0, Nat.ltb_lt in I. lia.
      + intros c k ->. now apply Nat.eqb_eq.
    - destruct (IH (S n) p x B2 N) as [A C]. split; [|assumption]. intros q I. specialize (A q I). lia. }
  split; [|split].
  - intros p n q N I. destruct (P h 0 p n E N) as [A _]. specialize (A q I). apply nth_lt in N. lia.
  - intros p. induction p as [p IH] using lt_wf_ind. constructor. intros q (n & N & I).
    destruct (P h 0 p n E N) as [A _]. apply IH. specialize (A q I). lia.
  - intros p c k N. destruct (P h 0 p _ E N) as [_ A]. now apply A.
Qed.

(* The persistent store: node 6 is the type (a -> b) -> a list -> b list of map. *)
Definition g_ex : heap :=
  [NVar; NVar; NCon CArrow [0; 1]; NCon CList [0]; NCon CList [1]; NCon CArrow [3; 4]; NCon CArrow [2; 5]].
(* The other store: node 0 is the type int of a hint. *)
Definition s_ex : tstate := mkT [NCon CInt []] [].
(* \f. \x. map f [x], the same with the hint x::int, and \x. x x *)
Definition e_ex (h : hint) : expr :=
  XLam None "f" (XLam None "x"
    (XApp None (XApp None (XGlob None 6) (XVar None "f")) (XCons None (XVar h "x") (XNil None)))).
Definition e_self : expr := XLam None "x" (XApp None (XVar None "x") (XVar None "x")).
Definition e_printf : expr := XPrim None (P_PRINTF "%d of %-3s").

Definition sigma_ex : nat -> tree := expand 7 g_ex.
Lemma g_ex_store : store arity g_ex.
Proof. apply backwards_store. reflexivity. Qed.
Lemma s_ex_store : store arity (t_heap s_ex).
Proof. apply backwards_store. reflexivity. Qed.
Lemma sigma_reads : reading g_ex sigma_ex.
Proof.
  intros p n N. unfold sigma_ex. do 7 (destruct p as [|p]; [cbn in N; injection N as <-; reflexivity || exact I|]).
  destruct p; discriminate.
Qed.
Lemma sigma_vars p : nth_error g_ex p = Some NVar -> sigma_ex p = Nd (LVar p) [].
Proof. intros N. unfold sigma_ex. cbn [expand]. now rewrite N. Qed.
Lemma e_ex_wf h : hint_in 1 h -> wf_expr (length (t_heap s_ex)) (length g_ex) [] (e_ex h).
Proof. intros H. cbn. intuition lia. Qed.
Lemma e_self_wf : wf_expr (length (t_heap s_ex)) (length g_ex) [] e_self.
Proof. cbn. intuition. Qed.
