(* Expressions for the examples of C56. *)
From Coq Require Import String List Bool Arith Lia.
From Verif Require Import TyModel TyThms InfModel InfSpec InfThms InfEx InfRun InfTop InfEnd
  OvModel OvSpec OvPath OvStore OvThms OvEnd OvEx OvCheck OvUse OvPlug OvTop.
Import ListNotations.
Open Scope list_scope.
Open Scope string_scope.

Lemma general_by fns sigma gheap : good_table fns sigma gheap ->
  (forall f F g G c, nth_error fns f = Some F -> In g (fn_alts F) -> nth_error fns g = Some G ->
     find_core_type gheap (length (fn_impl G)) (fn_type G) = Some c ->
     exists w, sigma c = inst w (sigma (fn_type F))) ->
  general fns sigma.
Proof.
  intros GT H f F g t uses EF IA (G & l & EG & (G' & v & EG' & Ev) & F2 & _).
  rewrite EG in EG'. injection EG' as <-.
  destruct (proj2 GT _ _ _ EF IA) as (G' & c & lg & EG' & EC & SG & FG). rewrite EG in EG'. injection EG' as <-.
  destruct (H _ _ _ _ _ EF IA EG EC) as (w & Ew).
  rewrite SG, inst_arrows in Ev. apply arrows_inj in Ev as [_ ->].
  2: { rewrite map_length, (Forall2_len _ _ _ F2), (Forall2_len _ _ _ FG). reflexivity. }
  exists F, (fun a => inst v (w a)). split; [assumption|]. rewrite Ew, inst_inst. reflexivity.
Qed.
Lemma ov_general : general ov_fns ov_sigma.
Proof.
  apply general_by with ov_g; [exact ov_table|]. intros f F g G c EF IA EG EC.
  set (a := Nd (LVar 0) []).
  destruct f as [|[|[|[|[|[|[|[|[|f]]]]]]]]]; try discriminate; injection EF as <-; cbn in IA; try tauto.
  - destruct IA as [<-|[<-|[<-|[]]]]; injection EG as <-; injection EC as <-.
    + exists (fun _ => tcon CInt []). vm_compute. reflexivity.
    + exists (fun _ => tcon CBool []). vm_compute. reflexivity.
    + exists (fun _ => tcon CList [a]). vm_compute. reflexivity.
  - destruct IA as [<-|[]]; injection EG as <-; injection EC as <-. exists (fun _ => tcon CInt []). vm_compute. reflexivity.
  - destruct IA as [<-|[]]; injection EG as <-; injection EC as <-. exists (fun _ => a). vm_compute. reflexivity.
Qed.

Definition ov_check (e : expr) : option (result * tree * nat) :=
  match type_check_o 60 ov_g ov_fns (fun _ _ _ => false) 9 9 e ov_s with
  | Some (Typed e' args q, g, s2) => Some (Typed e' args 0, expand 9 g q, length (t_ctx s2))
  | Some (r, g, s2) => Some (r, Nd (LVar 0) [], length (t_ctx s2))
  | None => None
  end.
Definition eq_ (a b : expr) : expr := XApp None (XApp None (XGlob None 0) a) b.
Definition int_ : expr := XLit None LInt.
Definition one_ (a : expr) : expr := XCons None a (XNil None).

Lemma ov_loops_e : ov_check (XApp None (XGlob None 6) int_) = Some (TooDeep, Nd (LVar 0) [], 10).
Proof. vm_compute. reflexivity. Qed.
Lemma ov_leaves : exists e g s2, wf_o ov_fns (length (t_heap ov_s)) [] e
  /\ type_check_o 60 ov_g ov_fns (fun _ _ _ => false) 9 9 e ov_s = Some (TooDeep, g, s2)
  /\ length (t_ctx ov_s) < length (t_ctx s2).
Proof.
  exists (XApp None (XGlob None 6) int_). pose proof ov_loops_e as X. unfold ov_check in X.
  remember (type_check_o 60 ov_g ov_fns (fun _ _ _ => false) 9 9 (XApp None (XGlob None 6) int_) ov_s) as o eqn:E.
  clear E. destruct o as [[[r g] s2]|]; [|discriminate]. destruct r; try discriminate. injection X as X.
  exists g, s2. split; [cbn; intuition discriminate|]. split; [reflexivity|]. rewrite X. cbn. lia.
Qed.
