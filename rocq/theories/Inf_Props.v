(* Property theorems: type inference (C51). *)
From Coq Require Import String List Bool Arith Lia.
From Verif Require Import TyModel TyThms InfModel InfSpec InfEnd InfEx.
Import ListNotations.
Open Scope list_scope.

(* C51: TypeCheck answers on every expression whose variables are bound and whose primitives are
   known: it ends, and it does not crash. *)
Theorem C51_answers : forall ar gheap sigma e s, base_arities ar ->
  store ar gheap -> reading gheap sigma ->
  (forall p, nth_error gheap p = Some NVar -> sigma p = Nd (LVar p) []) ->
  store ar (t_heap s) -> wf_expr (length (t_heap s)) (length gheap) [] e ->
  exists fuel0 a, forall fuel, fuel0 <= fuel -> type_check fuel gheap e s = Some a.
Proof. intros ar gheap sigma e s BA GS GR GV. exact (check_answers ar BA gheap sigma GS GR GV e s). Qed.
Print Assumptions C51_answers.

(* C51: if it answers with a type, the instances of that type are exactly the types that the
   typing rules give to the expression (for some choice of the variables in the hints). *)
Theorem C51_principal : forall ar gheap sigma e s fuel q g s2, base_arities ar ->
  store ar gheap -> reading gheap sigma ->
  (forall p, nth_error gheap p = Some NVar -> sigma p = Nd (LVar p) []) ->
  store ar (t_heap s) -> wf_expr (length (t_heap s)) (length gheap) [] e ->
  type_check fuel gheap e s = Some (Some q, g, s2) ->
  store ar g /\ (exists t, g = gheap ++ t) /\ q < length g
  /\ forall S, reading g S -> (forall p, nth_error g p = Some NVar -> S p = Nd (LVar p) []) ->
     forall t, (exists f, t = inst f (S q))
       <-> (exists rho, reading (t_heap s) rho /\ has_type sigma rho (fun _ => None) e t).
Proof.
  intros ar gheap sigma e s fuel q g s2 BA GS GR GV.
  exact (check_principal ar BA gheap sigma GS GR GV e s fuel q g s2).
Qed.
Print Assumptions C51_principal.

(* C51: if it rejects the expression, the rules give it no type. *)
Theorem C51_rejects : forall ar gheap sigma e s fuel g s2, base_arities ar ->
  store ar gheap -> reading gheap sigma ->
  (forall p, nth_error gheap p = Some NVar -> sigma p = Nd (LVar p) []) ->
  store ar (t_heap s) -> wf_expr (length (t_heap s)) (length gheap) [] e ->
  type_check fuel gheap e s = Some (None, g, s2) ->
  g = gheap /\ forall rho t, reading (t_heap s) rho -> ~ has_type sigma rho (fun _ => None) e t.
Proof.
  intros ar gheap sigma e s fuel g s2 BA GS GR GV.
  exact (check_rejects ar BA gheap sigma GS GR GV e s fuel g s2).
Qed.
Print Assumptions C51_rejects.

(* C51: in both cases every type that existed before, those of the hints included, is as it was. *)
Theorem C51_restores : forall ar gheap sigma e s fuel o g s2, base_arities ar ->
  store ar gheap -> reading gheap sigma ->
  (forall p, nth_error gheap p = Some NVar -> sigma p = Nd (LVar p) []) ->
  store ar (t_heap s) -> wf_expr (length (t_heap s)) (length gheap) [] e ->
  type_check fuel gheap e s = Some (o, g, s2) ->
  t_ctx s2 = t_ctx s /\ length (t_heap s) <= length (t_heap s2)
  /\ forall p, p < length (t_heap s) -> nth_error (t_heap s2) p = nth_error (t_heap s) p.
Proof.
  intros ar gheap sigma e s fuel o g s2 BA GS GR GV.
  exact (check_restores ar BA gheap sigma GS GR GV e s fuel o g s2).
Qed.
Print Assumptions C51_restores.

(* C51: a pattern that ends with a percent sign is read past its end. *)
Theorem C51_printf_refuted : exists pat, forall fuel gheap s,
  type_check fuel gheap (XPrim None (P_PRINTF pat)) s = None.
Proof. exists "50%"%string. reflexivity. Qed.
Print Assumptions C51_printf_refuted.

(* The hypotheses hold of the store with the type of map. *)
Example C51_ex_hyps : base_arities arity /\ store arity g_ex /\ reading g_ex sigma_ex
  /\ (forall p, nth_error g_ex p = Some NVar -> sigma_ex p = Nd (LVar p) [])
  /\ store arity (t_heap s_ex)
  /\ wf_expr (length (t_heap s_ex)) (length g_ex) [] (e_ex (Some 0))
  /\ wf_expr (length (t_heap s_ex)) (length g_ex) [] e_self.
Proof.
  split; [exact arity_base|]. split; [exact g_ex_store|]. split; [exact sigma_reads|].
  split; [exact sigma_vars|]. split; [exact s_ex_store|]. split; [|exact e_self_wf].
  apply e_ex_wf. apply le_n.
Qed.
(* The type that TypeCheck answers. *)
Definition answer (e : expr) : option (option tree) :=
  match type_check 12 g_ex e s_ex with
  | Some (Some q, g, _) => Some (Some (expand 12 g q))
  | Some (None, _, _) => Some None
  | None => None
  end.
(* \f. \x. map f [x] has the type (a -> b) -> a -> b list ... *)
Example C51_ex : answer (e_ex None) =
  Some (Some (arrow (arrow (Nd (LVar 7) []) (Nd (LVar 8) []))
                (arrow (Nd (LVar 7) []) (tcon CList [Nd (LVar 8) []])))).
Proof. vm_compute. reflexivity. Qed.
(* ... with the hint x::int it is (int -> b) -> int -> b list. *)
Example C51_ex_hint : answer (e_ex (Some 0)) =
  Some (Some (arrow (arrow (tcon CInt []) (Nd (LVar 8) []))
                (arrow (tcon CInt []) (tcon CList [Nd (LVar 8) []])))).
Proof. vm_compute. reflexivity. Qed.
Example C51_ex_self : answer e_self = Some None.
Proof. vm_compute. reflexivity. Qed.
Example C51_ex_printf : answer e_printf =
  Some (Some (arrow (tcon CInt []) (arrow (tcon CString []) (tcon CVoid [])))).
Proof. vm_compute. reflexivity. Qed.
