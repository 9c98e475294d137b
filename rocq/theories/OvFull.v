(* More on the replacement of overloaded functions. *)
From Coq Require Import String List Bool Arith Lia.
From Verif Require Import TyModel InfModel InfSpec OvModel OvSpec OvPath OvCheck OvUse OvPlug.
Import ListNotations.
Open Scope list_scope.

Section Full.
Variable fns : list fn.
Variable sigma : nat -> tree.
Notation typed := (typed fns sigma).
Notation typed_all := (typed_all fns sigma).
Notation plugs := (plugs fns).
Notation plugs_all := (plugs_all fns).
Notation plugs_e := (plugs_e fns).
Notation full := (full fns).
Notation full_all := (full_all fns).
Notation fulls := (fulls fns).
Notation nover := (nover fns).

(* ---- other choices for what is left ---- *)
Lemma plugs_lift : (forall h f c e cs, plugs h f c e cs -> forall rho G t cs', typed rho G e t cs' ->
    exists c', plugs h f c' e cs') /\
  (forall ds kids es cs, plugs_all ds kids es cs -> forall rho G ts cs', typed_all rho G es ts cs' ->
    exists kids', plugs_all ds kids' es cs').
Proof.
  apply plugs_both.
  - intros h f F i g Gf kids e cs EF EA EG EI P _ rho G t cs' T. apply typed_glob in T as (_ & _ & R).
    exists (Pick i cs'). destruct (overloaded fns g) eqn:N.
    + inversion R as [|? ? ? c ? R1 R2]; subst. inversion R2; subst.
      destruct (proj1 (resolves_plugs fns sigma) _ _ _ R1 None) as (e1 & c1 & P1).
      eapply (PL_leaf fns h f F i g Gf [c] e1 (c1 ++ [])); eauto. apply PA_over; [assumption|assumption|constructor].
    + inversion R; subst. eapply (PL_leaf fns h f F i g Gf [] (XGlob None g) []); eauto. apply PA_fun; [assumption|constructor].
  - intros h f F i g Gf kids e a es cs EF EA EG _ IH rho G t cs' T.
    apply typed_hint in T as [T _]. apply typed_apps' in T as (ts & T). destruct (IH _ _ _ _ T) as (kids' & P).
    exists (Pick i kids'). eapply PL_app; eauto.
  - intros rho G ts cs' T. destruct ts; [|destruct T]. cbn in T. subst. exists []. constructor.
  - intros d ds kids es cs N _ IH rho G ts cs' T. destruct ts as [|t ts]; [destruct T|].
    destruct T as (c1 & c2 & -> & T1 & T2). apply typed_glob in T1 as (_ & _ & R). rewrite N in R. inversion R; subst.
    destruct (IH _ _ _ _ T2) as (kids' & P). exists kids'. now apply PA_fun.
  - intros d ds k kids e es c cs N _ IK _ IH rho G ts cs' T. destruct ts as [|t ts]; [destruct T|].
    destruct T as (c1 & c2 & -> & T1 & T2). destruct (IK _ _ _ _ T1) as (k' & P1). destruct (IH _ _ _ _ T2) as (kids' & P2).
    exists (k' :: kids'). now apply PA_over.
Qed.
Lemma plugs_e_lift e cs e1 cs1 : plugs_e e cs e1 cs1 -> forall rho G t cs', typed rho G e1 t cs' ->
  exists cs2, plugs_e e cs2 e1 cs'.
Proof.
  induction 1; intros rho G t cs2 T.
  - destruct T as (us & U & R). inversion U; subst. inversion R; subst. repeat econstructor.
  - destruct T as (us & U & R). inversion U; subst. inversion R; subst. repeat econstructor.
  - destruct T as (us & U & R). inversion U; subst. inversion R; subst. repeat econstructor.
  - apply typed_glob in T as (_ & _ & R). rewrite H in R. inversion R; subst. exists []. now apply PE_glob.
  - destruct (proj1 plugs_lift _ _ _ _ _ H0 _ _ _ _ T) as (c' & P). exists [c']. now apply PE_over.
  - destruct T as (us & U & R). inversion U; subst. inversion R; subst. repeat econstructor.
  - apply typed_cons in T as (a & c1 & c2 & -> & -> & T1 & T2 & _).
    destruct (IHplugs_e1 _ _ _ _ T1) as (d1 & P1). destruct (IHplugs_e2 _ _ _ _ T2) as (d2 & P2).
    exists (d1 ++ d2). now constructor.
  - apply typed_app in T as (a & c1 & c2 & -> & T1 & T2 & _).
    destruct (IHplugs_e1 _ _ _ _ T1) as (d1 & P1). destruct (IHplugs_e2 _ _ _ _ T2) as (d2 & P2).
    exists (d1 ++ d2). now constructor.
  - apply typed_lam in T as (a & b & -> & T & _). destruct (IHplugs_e _ _ _ _ T) as (d & P).
    exists d. now constructor.
Qed.

(* ---- the choices that are left are determined ---- *)
Lemma plugs_det : (forall h f c e cs, plugs h f c e cs -> forall e' cs', plugs h f c e' cs' -> e' = e /\ cs' = cs) /\
  (forall ds kids es cs, plugs_all ds kids es cs -> forall es' cs', plugs_all ds kids es' cs' -> es' = es /\ cs' = cs).
Proof.
  apply plugs_both.
  - intros h f F i g G kids e cs EF EA EG EI _ IH e' cs' P.
    inversion P as [? ? F' ? g' G' ? ? ? E1 E2 E3 E4 P1|? ? F' ? g' G' ? ? ? ? ? E1 E2 E3 P1]; subst.
    + assert (g' = g) by congruence. now subst.
    + assert (g' = g) by congruence. subst. assert (G' = G) by congruence. subst. rewrite EI in P1.
      apply (proj2 (plugs_len fns)) in P1 as (_ & _ & L). discriminate.
  - intros h f F i g G kids e a es cs EF EA EG P0 IH e' cs' P.
    inversion P as [? ? F' ? g' G' ? ? ? E1 E2 E3 E4 P1|? ? F' ? g' G' ? ? ? ? ? E1 E2 E3 P1]; subst.
    + assert (g' = g) by congruence. subst. assert (G' = G) by congruence. subst. rewrite E4 in P0.
      apply (proj2 (plugs_len fns)) in P0 as (_ & _ & L). discriminate.
    + assert (g' = g) by congruence. subst. assert (G' = G) by congruence. subst.
      destruct (IH _ _ P1) as [E ->]. injection E as -> -> ->. auto.
  - intros es' cs' P. inversion P; auto.
  - intros d ds kids es cs N _ IH es' cs' P. inversion P as [|? ? ? es0 ? N' P0|]; subst; [|congruence].
    destruct (IH _ _ P0) as [-> ->]. auto.
  - intros d ds k kids e es c cs N _ IK _ IH es' cs' P. inversion P as [| |? ? ? ? e0 es0 c0 cs0 N' P0 P1]; subst; [congruence|].
    destruct (IH _ _ P1) as [-> ->]. destruct (IK _ _ P0) as [-> ->]. auto.
Qed.
Lemma plugs_e_len0 e cs e1 cs1 : plugs_e e cs e1 cs1 -> length cs = nover e.
Proof. induction 1; cbn; auto; try (rewrite app_length; lia); now rewrite H. Qed.
Lemma plugs_e_det e cs e1 cs1 : plugs_e e cs e1 cs1 -> forall e2 cs2, plugs_e e cs e2 cs2 -> e2 = e1 /\ cs2 = cs1.
Proof.
  induction 1; intros e2 cs2 P; inversion P; subst; auto; try congruence.
  - eapply plugs_det; eauto.
  - match goal with E : _ ++ _ = _ ++ _ |- _ => apply app_len_inj in E as [-> ->] end.
    + repeat match goal with X : plugs_e _ _ ?e ?c |- _ =>
        first [destruct (IHplugs_e1 _ _ X) as [-> ->] | destruct (IHplugs_e2 _ _ X) as [-> ->]]; clear X end. auto.
    + etransitivity; [eapply plugs_e_len0; eauto|]. symmetry. eapply plugs_e_len0; eauto.
  - match goal with E : _ ++ _ = _ ++ _ |- _ => apply app_len_inj in E as [-> ->] end.
    + repeat match goal with X : plugs_e _ _ ?e ?c |- _ =>
        first [destruct (IHplugs_e1 _ _ X) as [-> ->] | destruct (IHplugs_e2 _ _ X) as [-> ->]]; clear X end. auto.
    + etransitivity; [eapply plugs_e_len0; eauto|]. symmetry. eapply plugs_e_len0; eauto.
  - match goal with X : plugs_e _ _ _ _, Y : plugs_e _ _ _ _ |- _ => destruct (IHplugs_e _ _ X) as [-> ->] end. auto.
Qed.

(* ---- all rounds together ---- *)
Lemma set_hint_twice h h' e : set_hint h (set_hint h' e) = set_hint h e.
Proof. now destruct e. Qed.
Fixpoint fulls_all (es : list expr) (cs : list choice) (es' : list expr) : Prop :=
  match es, es' with
  | [], [] => cs = []
  | e :: es, e' :: es' => exists c1 c2, cs = c1 ++ c2 /\ fulls e c1 e' /\ fulls_all es c2 es'
  | _, _ => False
  end.
Lemma fulls_len e cs e' : fulls e cs e' -> length cs = nover e.
Proof. induction 1; cbn; auto; try (rewrite app_length; lia); now rewrite H. Qed.
Lemma fulls_apps es : forall e cs e', fulls (apps e es) cs e' ->
  exists x es', e' = apps x es' /\ fulls_all (e :: es) cs (x :: es') .
Proof.
  induction es as [|a es IH]; intros e cs e' F; cbn [apps] in F.
  - exists e', []. split; [reflexivity|]. exists cs, []. rewrite app_nil_r. cbn. auto.
  - destruct (IH _ _ _ F) as (x & es' & -> & c1 & c2 & -> & F1 & F2).
    inversion F1 as [| | | | | | |? ? ? d1 d2 x' y' G1 G2|]; subst.
    exists x', (y' :: es'). split; [reflexivity|]. exists d1, (d2 ++ c2). rewrite app_assoc. split; [reflexivity|].
    split; [assumption|]. exists d2, c2. auto.
Qed.
Lemma fulls_hint h e a es cs e' : fulls (set_hint h (apps e (a :: es))) cs e' ->
  exists x, fulls (apps e (a :: es)) cs x /\ e' = set_hint h x.
Proof.
  destruct (apps_app es e a) as (x & y & ->). cbn. intros F.
  inversion F as [| | | | | | |? ? ? d1 d2 x' y' G1 G2|]; subst. exists (XApp None x' y'). split; [now constructor|reflexivity].
Qed.
Lemma full_rehint h f c e : full h f c e -> exists x, full None f c x /\ e = set_hint h x.
Proof.
  intros F. inversion F as [? ? F0 i g G kids x es E1 E2 E3 FA]; subst.
  exists (set_hint None (apps x es)). split; [econstructor; eauto|]. now rewrite set_hint_twice.
Qed.
Lemma plugs_full : (forall h f c e cs, plugs h f c e cs -> forall e', fulls e cs e' -> full h f c e') /\
  (forall ds kids es cs, plugs_all ds kids es cs -> forall es', fulls_all es cs es' -> full_all ds kids es').
Proof.
  apply plugs_both.
  - intros h f F i g G kids e cs EF EA EG EI P _ e' FE. inversion FE; subst.
    + change (XGlob h g) with (set_hint h (apps (XGlob None g) [])).
      eapply F_pick; eauto. rewrite EI. apply F_fun; [assumption|constructor].
    + match goal with X : full h g _ _ |- _ => destruct (full_rehint _ _ _ _ X) as (x & FX & ->) end.
      change (set_hint h x) with (set_hint h (apps x [])). eapply F_pick; eauto. rewrite EI.
      apply F_over; [assumption|assumption|constructor].
  - intros h f F i g G kids e a es cs EF EA EG _ IH e' FE.
    apply fulls_hint in FE as (x & FE & ->). apply fulls_apps in FE as (y & es' & -> & FA).
    eapply F_pick; eauto.
  - intros es' H. destruct es'; [constructor|destruct H].
  - intros d ds kids es cs N _ IH es' H. destruct es' as [|e' es']; [destruct H|].
    destruct H as (c1 & c2 & -> & F1 & F2). inversion F1; subst; [|congruence]. apply F_fun; auto.
  - intros d ds k kids e es c cs N P IK _ IH es' H. destruct es' as [|e' es']; [destruct H|].
    destruct H as (c1 & c2 & E & F1 & F2). apply app_len_inj in E as [<- <-].
    2: { rewrite (proj1 (plugs_len fns) _ _ _ _ _ P). symmetry. eapply fulls_len; eauto. }
    apply F_over; auto.
Qed.
Theorem plugs_e_full e cs e1 cs1 : plugs_e e cs e1 cs1 -> forall e', fulls e1 cs1 e' -> fulls e cs e'.
Proof.
  induction 1; intros e' F; auto.
  - apply FE_over; [assumption|]. eapply plugs_full; eauto.
  - inversion F; subst. match goal with E : _ ++ _ = _ ++ _ |- _ => apply app_len_inj in E as [-> ->] end.
    + constructor; auto.
    + etransitivity; [eapply fulls_len; eauto|]. symmetry. eapply plugs_e_len; eauto.
  - inversion F; subst. match goal with E : _ ++ _ = _ ++ _ |- _ => apply app_len_inj in E as [-> ->] end.
    + constructor; auto.
    + etransitivity; [eapply fulls_len; eauto|]. symmetry. eapply plugs_e_len; eauto.
  - inversion F; subst. constructor; auto.
Qed.
Lemma fulls_none e : nover e = 0 -> fulls e [] e.
Proof.
  induction e; cbn; intros N; try constructor; auto.
  - now destruct (overloaded fns f).
  - change (@nil choice) with (@nil choice ++ []). constructor; [apply IHe1|apply IHe2]; lia.
  - change (@nil choice) with (@nil choice ++ []). constructor; [apply IHe1|apply IHe2]; lia.
Qed.

(* ---- the new expression is as good as the old one ---- *)
Variable gheap : heap.
Hypothesis GT : good_table fns sigma gheap.
Lemma alt_args f F g G : nth_error fns f = Some F -> In g (fn_alts F) -> nth_error fns g = Some G ->
  forall d, In d (g :: fn_impl G) -> nth_error fns d <> None.
Proof.
  intros EF IA EG d [<-|I]; [congruence|]. destruct (proj2 GT _ _ _ EF IA) as (G' & c & l & EG' & _ & _ & FA).
  rewrite EG in EG'. injection EG' as <-. clear - FA I. induction FA as [|a b ds l Ha F IH]; [destruct I|].
  destruct I as [<-|I]; [|auto]. destruct Ha as (F0 & v & E & _). congruence.
Qed.
Lemma wf_apps n vars es : forall e, wf_o fns n vars e -> Forall (wf_o fns n vars) es -> wf_o fns n vars (apps e es).
Proof.
  induction es as [|a es IH]; intros e W F; cbn; [assumption|]. inversion_clear F. apply IH; [|assumption].
  cbn. auto.
Qed.
Lemma wf_hint n vars h e : hint_in n h -> wf_o fns n vars e -> wf_o fns n vars (set_hint h e).
Proof. intros H W. destruct e; cbn in *; tauto. Qed.
Lemma plugs_wf n : (forall h f c e cs, plugs h f c e cs -> forall vars, hint_in n h -> wf_o fns n vars e) /\
  (forall ds kids es cs, plugs_all ds kids es cs -> forall vars, (forall d, In d ds -> nth_error fns d <> None) ->
    Forall (wf_o fns n vars) es).
Proof.
  apply plugs_both.
  - intros h f F i g G kids e cs EF EA EG EI _ _ vars Hh. cbn. split; [assumption|congruence].
  - intros h f F i g G kids e a es cs EF EA EG _ IH vars Hh.
    assert (W : Forall (wf_o fns n vars) (e :: a :: es)) by (apply IH; eapply alt_args; [exact EF|eapply nth_error_In; eassumption|exact EG]).
    inversion_clear W. apply wf_hint; [assumption|]. apply wf_apps; assumption.
  - constructor.
  - intros d ds kids es cs N _ IH vars D. constructor; [|apply IH; intros; apply D; now right].
    cbn. split; [exact I|]. apply D. now left.
  - intros d ds k kids e es c cs N _ IK _ IH vars D. constructor; [apply IK; exact I|].
    apply IH. intros; apply D; now right.
Qed.
Lemma plugs_e_wf n e cs e1 cs1 : plugs_e e cs e1 cs1 -> forall vars, wf_o fns n vars e -> wf_o fns n vars e1.
Proof.
  induction 1; intros vars W; cbn in *; auto.
  - eapply plugs_wf; eauto. apply W.
  - destruct W as (A & B & C). auto.
  - destruct W as (A & B & C). auto.
  - destruct W as (A & B). auto.
Qed.
End Full.
