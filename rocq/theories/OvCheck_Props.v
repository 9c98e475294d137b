(* Property theorems: type checking of expressions with overloaded functions (C56). *)
From Coq Require Import String List Bool Arith Lia.
From Verif Require Import TyModel TyThms InfModel InfSpec InfThms InfEx
  OvModel OvSpec OvStore OvThms OvEx OvCheck OvUse OvTop OvStop OvTopEx.
Import ListNotations.
Open Scope list_scope.

(* C56: TypeCheck ends, after some number of rounds of resolution, and with a verdict. *)
Theorem C56_answers : forall ar gheap sigma fns veq depth s e, base_arities ar ->
  store ar gheap -> reading gheap sigma ->
  (forall p, nth_error gheap p = Some NVar -> sigma p = Nd (LVar p) []) ->
  good_table fns sigma gheap -> general fns sigma ->
  store ar (t_heap s) -> allnv s -> wf_o fns (length (t_heap s)) [] e ->
  exists fuel0 a, forall fuel n, fuel0 <= fuel -> fuel0 <= n ->
    type_check_o fuel gheap fns veq depth n e s = Some a.
Proof.
  intros ar gheap sigma fns veq depth s e BA GS GR GV GT GEN S0 N0 Wf.
  exact (o_answers ar BA gheap sigma GS GR GV fns GT GEN veq depth s S0 N0 e Wf).
Qed.
Print Assumptions C56_answers.

(* C56: if it answers without implicit arguments, there is one way only to resolve the overloaded
   functions, the new expression has the calls that it says, and the instances of the type are
   exactly the types of the expression so resolved and of the new expression. *)
Theorem C56_principal : forall ar gheap sigma fns veq depth s e fuel n e' q g s2, base_arities ar ->
  store ar gheap -> reading gheap sigma ->
  (forall p, nth_error gheap p = Some NVar -> sigma p = Nd (LVar p) []) ->
  good_table fns sigma gheap -> general fns sigma ->
  store ar (t_heap s) -> allnv s -> wf_o fns (length (t_heap s)) [] e ->
  type_check_o fuel gheap fns veq depth n e s = Some (Typed e' [] q, g, s2) ->
  store ar g /\ (exists t, g = gheap ++ t) /\ q < length g
  /\ exists cs, fulls fns e cs e'
     /\ (forall rho t cs', reading (t_heap s) rho -> typed fns sigma rho (fun _ => None) e t cs' -> cs' = cs)
     /\ forall S, reading g S -> (forall p, nth_error g p = Some NVar -> S p = Nd (LVar p) []) ->
        forall t, ((exists f, t = inst f (S q))
            <-> (exists rho, reading (t_heap s) rho /\ typed fns sigma rho (fun _ => None) e t cs))
          /\ ((exists f, t = inst f (S q))
            <-> (exists rho, reading (t_heap s) rho /\ has_uses fns sigma rho (fun _ => None) e' t [])).
Proof.
  intros ar gheap sigma fns veq depth s e fuel n e' q g s2 BA GS GR GV GT GEN S0 N0 Wf.
  exact (o_principal ar BA gheap sigma GS GR GV fns GT GEN veq depth s S0 N0 e Wf fuel n e' q g s2).
Qed.
Print Assumptions C56_principal.

(* C56: if it answers with implicit arguments, there is more than one way; the arguments are the
   overloaded functions of the expression from left to right, the new expression takes them, and
   the instances of the type are exactly the types of the expression behind those of the arguments. *)
Theorem C56_implicit : forall ar gheap sigma fns veq depth s e fuel n e' a args q g s2, base_arities ar ->
  store ar gheap -> reading gheap sigma ->
  (forall p, nth_error gheap p = Some NVar -> sigma p = Nd (LVar p) []) ->
  good_table fns sigma gheap -> general fns sigma ->
  store ar (t_heap s) -> allnv s -> wf_o fns (length (t_heap s)) [] e ->
  type_check_o fuel gheap fns veq depth n e s = Some (Typed e' (a :: args) q, g, s2) ->
  store ar g /\ (exists t, g = gheap ++ t) /\ q < length g
  /\ (exists rho t cs rho' t' cs', reading (t_heap s) rho /\ reading (t_heap s) rho'
        /\ typed fns sigma rho (fun _ => None) e t cs /\ typed fns sigma rho' (fun _ => None) e t' cs' /\ cs <> cs')
  /\ (forall rho t us, reading (t_heap s) rho -> has_uses fns sigma rho (fun _ => None) e t us ->
        map fst us = a :: args)
  /\ (forall rho t us, (forall k, ~ binds (vname k) e) -> has_uses fns sigma rho (fun _ => None) e t us ->
        map fst us = a :: args -> has_uses fns sigma rho (fun _ => None) e' (arrows (map snd us) t) [])
  /\ forall S, reading g S -> (forall p, nth_error g p = Some NVar -> S p = Nd (LVar p) []) ->
     forall t, (exists f, t = inst f (S q))
       <-> (exists rho b us, reading (t_heap s) rho /\ has_uses fns sigma rho (fun _ => None) e b us
              /\ t = arrows (map snd us) b).
Proof.
  intros ar gheap sigma fns veq depth s e fuel n e' a args q g s2 BA GS GR GV GT GEN S0 N0 Wf.
  exact (o_implicit ar BA gheap sigma GS GR GV fns GT GEN veq depth s S0 N0 e Wf fuel n e' a args q g s2).
Qed.
Print Assumptions C56_implicit.

(* C56: a type error is reported only if the expression has no type, whatever the overloaded
   functions stand for, ... *)
Theorem C56_type_error : forall ar gheap sigma fns veq depth s e fuel n g s2, base_arities ar ->
  store ar gheap -> reading gheap sigma ->
  (forall p, nth_error gheap p = Some NVar -> sigma p = Nd (LVar p) []) ->
  good_table fns sigma gheap -> general fns sigma ->
  store ar (t_heap s) -> allnv s -> wf_o fns (length (t_heap s)) [] e ->
  type_check_o fuel gheap fns veq depth n e s = Some (TypeError, g, s2) ->
  forall rho t us, reading (t_heap s) rho -> ~ has_uses fns sigma rho (fun _ => None) e t us.
Proof.
  intros ar gheap sigma fns veq depth s e fuel n g s2 BA GS GR GV GT GEN S0 N0 Wf.
  exact (o_rejects ar BA gheap sigma GS GR GV fns GT GEN veq depth s S0 N0 e Wf fuel n g s2).
Qed.
Print Assumptions C56_type_error.

(* C56: ... that no alternative matches, only if no way to resolve them gives it a type, ... *)
Theorem C56_no_match : forall ar gheap sigma fns veq depth s e fuel n f g s2, base_arities ar ->
  store ar gheap -> reading gheap sigma ->
  (forall p, nth_error gheap p = Some NVar -> sigma p = Nd (LVar p) []) ->
  good_table fns sigma gheap -> general fns sigma ->
  store ar (t_heap s) -> allnv s -> wf_o fns (length (t_heap s)) [] e ->
  type_check_o fuel gheap fns veq depth n e s = Some (NoMatch f, g, s2) ->
  forall rho t cs, reading (t_heap s) rho -> ~ typed fns sigma rho (fun _ => None) e t cs.
Proof.
  intros ar gheap sigma fns veq depth s e fuel n f g s2 BA GS GR GV GT GEN S0 N0 Wf.
  exact (o_no_match ar BA gheap sigma GS GR GV fns GT GEN veq depth s S0 N0 e Wf fuel n f g s2).
Qed.
Print Assumptions C56_no_match.

(* C56: ... and an infinite loop, only if the first search makes as many choices as are allowed, or
   there is exactly one way. *)
Theorem C56_deep : forall ar gheap sigma fns veq depth s e fuel n g s2, base_arities ar ->
  store ar gheap -> reading gheap sigma ->
  (forall p, nth_error gheap p = Some NVar -> sigma p = Nd (LVar p) []) ->
  good_table fns sigma gheap -> general fns sigma ->
  store ar (t_heap s) -> allnv s -> wf_o fns (length (t_heap s)) [] e ->
  type_check_o fuel gheap fns veq depth n e s = Some (TooDeep, g, s2) ->
  (exists rho t us, reading (t_heap s) rho /\ has_uses fns sigma rho (fun _ => None) e t us
     /\ unfinished fns sigma (rev us) depth)
  \/ (exists cs, (exists rho t, reading (t_heap s) rho /\ typed fns sigma rho (fun _ => None) e t cs)
        /\ forall rho t cs', reading (t_heap s) rho -> typed fns sigma rho (fun _ => None) e t cs' -> cs' = cs).
Proof.
  intros ar gheap sigma fns veq depth s e fuel n g s2 BA GS GR GV GT GEN S0 N0 Wf.
  exact (o_deep ar BA gheap sigma GS GR GV fns GT GEN veq depth s S0 N0 e Wf fuel n g s2).
Qed.
Print Assumptions C56_deep.

(* C56: unless it is an infinite loop, every type that existed before is as it was. *)
Theorem C56_restores : forall ar gheap sigma fns veq depth s e fuel n r g s2, base_arities ar ->
  store ar gheap -> reading gheap sigma ->
  (forall p, nth_error gheap p = Some NVar -> sigma p = Nd (LVar p) []) ->
  good_table fns sigma gheap -> general fns sigma ->
  store ar (t_heap s) -> allnv s -> wf_o fns (length (t_heap s)) [] e ->
  type_check_o fuel gheap fns veq depth n e s = Some (r, g, s2) -> r <> TooDeep ->
  t_ctx s2 = t_ctx s /\ length (t_heap s) <= length (t_heap s2)
  /\ forall p, p < length (t_heap s) -> nth_error (t_heap s2) p = nth_error (t_heap s) p.
Proof.
  intros ar gheap sigma fns veq depth s e fuel n r g s2 BA GS GR GV GT GEN S0 N0 Wf.
  exact (o_restores ar BA gheap sigma GS GR GV fns GT GEN veq depth s S0 N0 e Wf fuel n r g s2).
Qed.
Print Assumptions C56_restores.

(* C56: after an infinite loop the contexts of the search are still there. *)
Theorem C56_restores_refuted : exists e g s2, wf_o ov_fns (length (t_heap ov_s)) [] e
  /\ type_check_o 60 ov_g ov_fns (fun _ _ _ => false) 9 9 e ov_s = Some (TooDeep, g, s2)
  /\ length (t_ctx ov_s) < length (t_ctx s2).
Proof. exact ov_leaves. Qed.
Print Assumptions C56_restores_refuted.

(* The hypotheses hold of the functions of OvEx.v. *)
Example C56_ex_hyps : base_arities arity /\ store arity ov_g /\ reading ov_g ov_sigma
  /\ (forall p, nth_error ov_g p = Some NVar -> ov_sigma p = Nd (LVar p) [])
  /\ good_table ov_fns ov_sigma ov_g /\ general ov_fns ov_sigma
  /\ store arity (t_heap ov_s) /\ allnv ov_s
  /\ wf_o ov_fns (length (t_heap ov_s)) [] (eq_ (one_ (one_ int_)) (XNil None)).
Proof.
  split; [exact arity_base|]. split; [exact ov_g_store|]. split; [exact ov_reads|].
  split; [exact ov_vars|]. split; [exact ov_table|]. split; [exact ov_general|].
  split; [apply backwards_store; reflexivity|]. split; [exact ov_s_nv|]. cbn. intuition discriminate.
Qed.
(* [[int]] = []: equality of lists, of lists, of integers. *)
Example C56_ex_one : ov_check (eq_ (one_ (one_ int_)) (XNil None))
  = Some (Typed (XApp None (XApp None
      (XApp None (XGlob None 3) (XApp None (XGlob None 3) (XGlob None 1)))
      (one_ (one_ int_))) (XNil None)) [] 0, tcon CBool [], 1).
Proof. vm_compute. reflexivity. Qed.
(* \x. x = x has the implicit argument = and the type (a -> a -> bool) -> a -> bool. *)
Example C56_ex_implicit : ov_check (XLam None "x" (eq_ (XVar None "x") (XVar None "x")))
  = Some (Typed (XLam None ".impl_arg.1" (XLam None "x" (XApp None (XApp None
      (XVar None ".impl_arg.1") (XVar None "x")) (XVar None "x")))) [0] 0,
      arrow (arrow (Nd (LVar 17) []) (arrow (Nd (LVar 17) []) (tcon CBool [])))
            (arrow (Nd (LVar 17) []) (tcon CBool [])), 1).
Proof. vm_compute. reflexivity. Qed.
Example C56_ex_names : forall k, ~ binds (vname k) (XLam None "x" (eq_ (XVar None "x") (XVar None "x"))).
Proof. intros k. cbn. intuition discriminate. Qed.
Example C56_ex_no_match : ov_check (eq_ (XLit None LString) (XLit None LString)) = Some (NoMatch 0, Nd (LVar 0) [], 1).
Proof. vm_compute. reflexivity. Qed.
Example C56_ex_type_error : ov_check (eq_ int_ (XLit None LString)) = Some (TypeError, Nd (LVar 0) [], 1).
Proof. vm_compute. reflexivity. Qed.
Example C56_ex_deep : ov_check (XApp None (XGlob None 6) int_) = Some (TooDeep, Nd (LVar 0) [], 10).
Proof. vm_compute. reflexivity. Qed.
