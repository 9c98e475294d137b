(* What the replacement of overloaded functions does to an expression. *)
From Coq Require Import String List Bool Arith Lia.
From Verif Require Import TyModel InfModel InfSpec OvModel OvSpec OvPath OvCheck OvUse.
Import ListNotations.
Open Scope list_scope.

Scheme resolves_mut := Minimality for resolves Sort Prop
  with resolves_all_mut := Minimality for resolves_all Sort Prop.
Combined Scheme resolves_both from resolves_mut, resolves_all_mut.

Section Plug.
Variable fns : list fn.
Variable sigma : nat -> tree.
Notation fun_type := (fun_type fns sigma).
Notation call := (call fns sigma).
Notation resolves := (resolves fns sigma).
Notation resolves_all := (resolves_all fns sigma).
Notation has_uses := (has_uses fns sigma).
Notation typed := (typed fns sigma).
Notation over := (fun u : nat * tree => overloaded fns (fst u)).

(* One round of replacements: the contents, and the choices that are left. *)
Inductive plugs : hint -> nat -> choice -> expr -> list choice -> Prop :=
| PL_leaf h f F i g G kids e cs : nth_error fns f = Some F -> nth_error (fn_alts F) i = Some g ->
    nth_error fns g = Some G -> fn_impl G = [] -> plugs_all [g] kids [e] cs ->
    plugs h f (Pick i kids) (XGlob h g) kids
| PL_app h f F i g G kids e a es cs : nth_error fns f = Some F -> nth_error (fn_alts F) i = Some g ->
    nth_error fns g = Some G -> plugs_all (g :: fn_impl G) kids (e :: a :: es) cs ->
    plugs h f (Pick i kids) (set_hint h (apps e (a :: es))) cs
with plugs_all : list nat -> list choice -> list expr -> list choice -> Prop :=
| PA_nil : plugs_all [] [] [] []
| PA_fun d ds kids es cs : overloaded fns d = false -> plugs_all ds kids es cs ->
    plugs_all (d :: ds) kids (XGlob None d :: es) cs
| PA_over d ds k kids e es c cs : overloaded fns d = true -> plugs None d k e c -> plugs_all ds kids es cs ->
    plugs_all (d :: ds) (k :: kids) (e :: es) (c ++ cs).
Scheme plugs_mut := Minimality for plugs Sort Prop
  with plugs_all_mut := Minimality for plugs_all Sort Prop.
Combined Scheme plugs_both from plugs_mut, plugs_all_mut.

Inductive plugs_e : expr -> list choice -> expr -> list choice -> Prop :=
| PE_lit h l : plugs_e (XLit h l) [] (XLit h l) []
| PE_prim h p : plugs_e (XPrim h p) [] (XPrim h p) []
| PE_var h x : plugs_e (XVar h x) [] (XVar h x) []
| PE_glob h f : overloaded fns f = false -> plugs_e (XGlob h f) [] (XGlob h f) []
| PE_over h f c e cs : overloaded fns f = true -> plugs h f c e cs -> plugs_e (XGlob h f) [c] e cs
| PE_nil h : plugs_e (XNil h) [] (XNil h) []
| PE_cons h x y cs ds x' y' cs' ds' : plugs_e x cs x' cs' -> plugs_e y ds y' ds' ->
    plugs_e (XCons h x y) (cs ++ ds) (XCons h x' y') (cs' ++ ds')
| PE_app h x y cs ds x' y' cs' ds' : plugs_e x cs x' cs' -> plugs_e y ds y' ds' ->
    plugs_e (XApp h x y) (cs ++ ds) (XApp h x' y') (cs' ++ ds')
| PE_lam h x y cs y' cs' : plugs_e y cs y' cs' -> plugs_e (XLam h x y) cs (XLam h x y') cs'.

(* ---- lists of uses ---- *)
Lemma resolves_len us cs : resolves_all us cs -> length us = length cs.
Proof. induction 1; cbn; congruence. Qed.
Lemma resolves_app us vs cs ds : resolves_all us cs -> resolves_all vs ds -> resolves_all (us ++ vs) (cs ++ ds).
Proof. induction 1; cbn; [auto|]. intros H2. constructor; auto. Qed.
Lemma resolves_split us vs cs : resolves_all (us ++ vs) cs ->
  exists c1 c2, cs = c1 ++ c2 /\ resolves_all us c1 /\ resolves_all vs c2.
Proof.
  revert cs. induction us as [|u us IH]; cbn; intros cs H.
  - exists [], cs. repeat split; [constructor|assumption].
  - inversion H as [|f t us' c cs' R1 R2]; subst. destruct (IH _ R2) as (c1 & c2 & -> & A & B).
    exists (c :: c1), c2. repeat split; [constructor|]; assumption.
Qed.

Fixpoint nover (e : expr) : nat :=
  match e with
  | XGlob _ f => if overloaded fns f then 1 else 0
  | XCons _ a b | XApp _ a b => nover a + nover b
  | XLam _ _ b => nover b
  | _ => 0
  end.
Lemma uses_len rho G e t us : has_uses rho G e t us -> length us = nover e.
Proof.
  induction 1; cbn; try reflexivity; try (rewrite app_length; congruence); [|congruence].
  now destruct (overloaded fns f).
Qed.
Lemma typed_len rho G e t cs : typed rho G e t cs -> length cs = nover e.
Proof. intros (us & U & R). rewrite <- (uses_len _ _ _ _ _ U). symmetry. now apply resolves_len. Qed.

(* ---- typed, by cases ---- *)
Lemma typed_glob rho G h f t cs : typed rho G (XGlob h f) t cs <->
  fun_type f t /\ hinted rho h t /\ resolves_all (if overloaded fns f then [(f, t)] else []) cs.
Proof.
  split.
  - intros (us & U & R). inversion U; subst. auto.
  - intros (F & H & R). eexists. split; [constructor|]; eassumption.
Qed.
Lemma typed_app rho G h x y t cs : typed rho G (XApp h x y) t cs <->
  exists a c1 c2, cs = c1 ++ c2 /\ typed rho G x (arrow a t) c1 /\ typed rho G y a c2 /\ hinted rho h t.
Proof.
  split.
  - intros (us & U & R). inversion U; subst. apply resolves_split in R as (c1 & c2 & -> & A & B).
    exists a, c1, c2. repeat split; [| |assumption]; eexists; eauto.
  - intros (a & c1 & c2 & -> & (us & U & R) & (vs & V & S) & H). exists (us ++ vs).
    split; [econstructor; eauto|now apply resolves_app].
Qed.
Lemma typed_cons rho G h x y t cs : typed rho G (XCons h x y) t cs <->
  exists a c1 c2, t = tcon CList [a] /\ cs = c1 ++ c2 /\ typed rho G x a c1 /\ typed rho G y t c2 /\ hinted rho h t.
Proof.
  split.
  - intros (us & U & R). inversion U; subst. apply resolves_split in R as (c1 & c2 & -> & A & B).
    exists a, c1, c2. repeat split; [| |assumption]; eexists; eauto.
  - intros (a & c1 & c2 & -> & -> & (us & U & R) & (vs & V & S) & H). exists (us ++ vs).
    split; [econstructor; eauto|now apply resolves_app].
Qed.
Lemma typed_lam rho G h x y t cs : typed rho G (XLam h x y) t cs <->
  exists a b, t = arrow a b /\ typed rho (bound x a G) y b cs /\ hinted rho h t.
Proof.
  split.
  - intros (us & U & R). inversion U; subst. exists a, b. repeat split; [|assumption]. eexists; eauto.
  - intros (a & b & -> & (us & U & R) & H). exists us. split; [now constructor|assumption].
Qed.

Fixpoint typed_all (rho : nat -> tree) (G : ctx) (es : list expr) (ts : list tree) (cs : list choice) : Prop :=
  match es, ts with
  | [], [] => cs = []
  | e :: es, t :: ts => exists c1 c2, cs = c1 ++ c2 /\ typed rho G e t c1 /\ typed_all rho G es ts c2
  | _, _ => False
  end.
Lemma typed_apps rho G es : forall e t cs, typed rho G (apps e es) t cs <->
  exists ts c1 c2, cs = c1 ++ c2 /\ typed rho G e (arrows ts t) c1 /\ typed_all rho G es ts c2.
Proof.
  induction es as [|a es IH]; intros e t cs; cbn.
  - split.
    + intros T. exists [], cs, []. cbn. rewrite app_nil_r. auto.
    + intros ([|x ts] & c1 & c2 & -> & T & H); [|destruct H]. subst. now rewrite app_nil_r.
  - rewrite IH. split.
    + intros (ts & c1 & c2 & -> & T & A). apply typed_app in T as (b & d1 & d2 & -> & T1 & T2 & _).
      exists (b :: ts), d1, (d2 ++ c2). split; [now rewrite app_assoc|]. split; [assumption|]. exists d2, c2. auto.
    + intros ([|b ts] & c1 & c2 & -> & T & H); [destruct H|]. destruct H as (d1 & d2 & -> & T1 & T2).
      exists ts, (c1 ++ d1), d2. split; [now rewrite app_assoc|]. split; [|assumption].
      apply typed_app. exists b, c1, d1. cbn. auto.
Qed.
Lemma apps_app es : forall e a, exists x y, apps e (a :: es) = XApp None x y.
Proof. induction es as [|b es IH]; intros e a; [cbn; eauto|]. cbn in *. apply IH. Qed.
Lemma typed_hint rho G h e a es t cs : typed rho G (set_hint h (apps e (a :: es))) t cs <->
  typed rho G (apps e (a :: es)) t cs /\ hinted rho h t.
Proof.
  destruct (apps_app es e a) as (x & y & ->). cbn. rewrite !typed_app. split.
  - intros (b & c1 & c2 & -> & T1 & T2 & H). split; [|assumption]. exists b, c1, c2. cbn. auto.
  - intros ((b & c1 & c2 & -> & T1 & T2 & _) & H). exists b, c1, c2. auto.
Qed.
Lemma typed_apps' rho G e es t cs : typed rho G (apps e es) t cs <->
  exists ts, typed_all rho G (e :: es) (arrows ts t :: ts) cs.
Proof.
  rewrite typed_apps. split.
  - intros (ts & c1 & c2 & -> & T & A). exists ts, c1, c2. auto.
  - intros (ts & c1 & c2 & -> & T & A). exists ts, c1, c2. auto.
Qed.

Hypothesis GEN : general fns sigma.
Lemma resolves_fun f t c : resolves f t c -> fun_type f t.
Proof. intros R. inversion R; subst. eapply GEN; eauto. eapply nth_error_In; eauto. Qed.

(* ---- the lengths ---- *)
Lemma nover_hint h e : nover (set_hint h e) = nover e.
Proof. now destruct e. Qed.
Lemma nover_apps es : forall e, nover (apps e es) = nover e + list_sum (map nover es).
Proof. unfold list_sum. induction es as [|a es IH]; intros e; cbn; [lia|]. rewrite IH. cbn. lia. Qed.
Lemma plugs_len : (forall h f c e cs, plugs h f c e cs -> length cs = nover e) /\
  (forall ds kids es cs, plugs_all ds kids es cs -> length cs = list_sum (map nover es)
     /\ length kids = length (filter (overloaded fns) ds) /\ length es = length ds).
Proof.
  apply plugs_both.
  - intros h f F i g G kids e cs EF EA EG EI _ (_ & L & _). cbn in *.
    destruct (overloaded fns g); exact L.
  - intros h f F i g G kids e a es cs EF EA EG _ (L & _). rewrite nover_hint, nover_apps. exact L.
  - auto.
  - intros d ds kids es cs N _ (L & K & M). cbn. rewrite N. auto.
  - intros d ds k kids e es c cs N _ IH _ (L & K & M). unfold list_sum in *. cbn. rewrite N, app_length. cbn. repeat split; lia.
Qed.
Lemma plugs_e_len e cs e1 cs1 : plugs_e e cs e1 cs1 -> length cs1 = nover e1.
Proof.
  induction 1; cbn; auto; try (rewrite app_length; lia).
  - now rewrite H.
  - eapply plugs_len; eauto.
Qed.
Lemma app_len_inj {A} (a b c d : list A) : length a = length c -> a ++ b = c ++ d -> a = c /\ b = d.
Proof.
  revert c. induction a as [|x a IH]; intros [|y c] L E; try discriminate; [auto|].
  cbn in *. injection E as -> E. destruct (IH c) as [-> ->]; auto.
Qed.

(* ---- types before and after ---- *)
Lemma plugs_typed : (forall h f c e cs, plugs h f c e cs -> forall rho G t,
    typed rho G e t cs <-> resolves f t c /\ hinted rho h t) /\
  (forall ds kids es cs, plugs_all ds kids es cs -> forall rho G ts,
    typed_all rho G es ts cs <-> Forall2 fun_type ds ts /\ resolves_all (filter over (combine ds ts)) kids).
Proof.
  apply plugs_both.
  - intros h f F i g Gf kids e cs EF EA EG EI _ _ rho G t. rewrite typed_glob. split.
    + intros (FT & H & R). split; [|assumption]. econstructor; eauto. exists Gf, [].
      rewrite EI. split; [assumption|]. split; [assumption|]. split; [constructor|].
      cbn. destruct (overloaded fns g); reflexivity.
    + intros (R & H). inversion R as [? ? ? g' uses ? F' E1 E2 (G' & l & E3 & FT & FA & EU) RA]; subst.
      rewrite EF in E1. injection E1 as <-. rewrite EA in E2. injection E2 as <-. rewrite EG in E3. injection E3 as <-.
      rewrite EI in *. inversion FA; subst. cbn in *. destruct (overloaded fns g); auto.
  - intros h f F i g Gf kids e a es cs EF EA EG _ IH rho G t.
    rewrite typed_hint, typed_apps'. split.
    + intros ((ts & T) & H). split; [|assumption]. apply IH in T as [FA R]. econstructor; eauto.
      inversion FA; subst. exists Gf, ts. auto.
    + intros (R & H). split; [|assumption].
      inversion R as [? ? ? g' uses ? F' E1 E2 (G' & l & E3 & FT & FA & EU) RA]; subst.
      rewrite EF in E1. injection E1 as <-. rewrite EA in E2. injection E2 as <-. rewrite EG in E3. injection E3 as <-.
      exists l. apply IH. split; [now constructor|assumption].
  - intros rho G ts. destruct ts; cbn; split; try tauto.
    + intros _. split; constructor.
    + intros (F & _). inversion F.
  - intros d ds kids es cs N _ IH rho G ts. destruct ts as [|t ts]; cbn [typed_all].
    { split; [tauto|]. intros (F & _). inversion F. }
    cbn [combine filter fst]. rewrite N. split.
    + intros (c1 & c2 & -> & T & A). apply typed_glob in T as (FT & _ & R). rewrite N in R. inversion R; subst.
      apply IH in A as [FA RA]. auto.
    + intros (F & R). inversion F; subst. exists [], cs. split; [reflexivity|]. split; [|now apply IH].
      apply typed_glob. rewrite N. repeat split; [assumption|constructor].
  - intros d ds k kids e es c cs N PK IK _ IH rho G ts. destruct ts as [|t ts]; cbn [typed_all].
    { split; [tauto|]. intros (F & _). inversion F. }
    cbn [combine filter fst]. rewrite N. split.
    + intros (c1 & c2 & E & T & A). apply app_len_inj in E as [<- <-].
      2: { rewrite (proj1 plugs_len _ _ _ _ _ PK). symmetry. eapply typed_len; eauto. }
      apply IK in T as [R _]. apply IH in A as [FA RA]. split; [constructor; [|assumption]|constructor; assumption].
      eapply resolves_fun; eauto.
    + intros (F & R). inversion F; subst. inversion R; subst. exists c, cs. split; [reflexivity|].
      split; [apply IK; split; [assumption|exact I]|now apply IH].
Qed.
Theorem plugs_e_typed e cs e1 cs1 : plugs_e e cs e1 cs1 -> forall rho G t,
  typed rho G e1 t cs1 <-> typed rho G e t cs.
Proof.
  induction 1; intros rho G t; try tauto.
  - rewrite (proj1 plugs_typed _ _ _ _ _ H0), typed_glob, H. split.
    + intros (R & Hh). split; [eapply resolves_fun; eauto|]. split; [assumption|]. repeat constructor. assumption.
    + intros (FT & Hh & R). inversion R; subst. auto.
  - rewrite !typed_cons. split.
    + intros (a & c1 & c2 & -> & E & T1 & T2 & Hh). apply app_len_inj in E as [<- <-].
      2: { rewrite (plugs_e_len _ _ _ _ H). symmetry. eapply typed_len; eauto. }
      exists a, cs, ds. rewrite <- IHplugs_e1, <- IHplugs_e2. auto.
    + intros (a & c1 & c2 & -> & E & T1 & T2 & Hh). apply app_len_inj in E as [<- <-].
      2: { rewrite (typed_len _ _ _ _ _ T1). clear - H. induction H; cbn; auto; try (rewrite app_length; lia).
           - now rewrite H. - now rewrite H. }
      exists a, cs', ds'. rewrite IHplugs_e1, IHplugs_e2. auto.
  - rewrite !typed_app. split.
    + intros (a & c1 & c2 & E & T1 & T2 & Hh). apply app_len_inj in E as [<- <-].
      2: { rewrite (plugs_e_len _ _ _ _ H). symmetry. eapply typed_len; eauto. }
      exists a, cs, ds. rewrite <- IHplugs_e1, <- IHplugs_e2. auto.
    + intros (a & c1 & c2 & E & T1 & T2 & Hh). apply app_len_inj in E as [<- <-].
      2: { rewrite (typed_len _ _ _ _ _ T1). clear - H. induction H; cbn; auto; try (rewrite app_length; lia).
           - now rewrite H. - now rewrite H. }
      exists a, cs', ds'. rewrite IHplugs_e1, IHplugs_e2. auto.
  - rewrite !typed_lam. split; intros (a & b & -> & T & Hh); exists a, b; (split; [reflexivity|]); split; auto; now apply IHplugs_e.
Qed.

(* ---- resolved expressions can be replaced ---- *)
Lemma resolves_plugs : (forall f t c, resolves f t c -> forall h, exists e cs, plugs h f c e cs) /\
  (forall us kids, resolves_all us kids -> forall ds (ts : list tree), length ds = length ts ->
     us = filter over (combine ds ts) -> exists es cs, plugs_all ds kids es cs).
Proof.
  apply resolves_both.
  - intros f t i g uses kids F EF EA (G & l & EG & FT & FA & EU) _ IH h.
    destruct (IH (g :: fn_impl G) (arrows l t :: l)) as (es & cs & P).
    { cbn. f_equal. symmetry. now apply (Forall2_len _ _ _ FA). } { exact EU. }
    assert (L : length es = S (length (fn_impl G))) by now apply (proj2 plugs_len) in P.
    destruct es as [|e [|a es]]; [discriminate| |].
    + assert (EI : fn_impl G = []) by (destruct (fn_impl G); [reflexivity|discriminate]). rewrite EI in P.
      eexists _, _. eapply PL_leaf; eauto.
    + eexists _, _. eapply PL_app; eauto.
  - intros ds. induction ds as [|d ds IH]; intros [|t ts] L E; try discriminate; [exists [], []; constructor|].
    cbn in E. destruct (overloaded fns d) eqn:N; [discriminate|].
    destruct (IH ts) as (es & cs & P); [now injection L|assumption|]. eexists _, _. now apply PA_fun; eauto.
  - intros f t us c cs _ IHf _ IHa. intros ds. induction ds as [|d ds IH]; intros [|t' ts] L E; try discriminate.
    cbn in E. destruct (overloaded fns d) eqn:N.
    + injection E as <- <- E. destruct (IHf None) as (e & c1 & P1).
      destruct (IHa ds ts) as (es & c2 & P2); [now injection L|assumption|].
      eexists _, _. eapply PA_over; eauto.
    + destruct (IH ts) as (es & c2 & P); [now injection L|assumption|]. eexists _, _. now apply PA_fun; eauto.
Qed.
Theorem typed_plugs e : forall rho G t cs, typed rho G e t cs -> exists e1 cs1, plugs_e e cs e1 cs1.
Proof.
  induction e as [h l|h p|h v|h f|h|h e1 IH1 e2 IH2|h e1 IH1 e2 IH2|h v e IH]; intros rho G t cs T.
  - destruct T as (us & U & R). inversion U; subst. inversion R; subst. repeat econstructor.
  - destruct T as (us & U & R). inversion U; subst. inversion R; subst. repeat econstructor.
  - destruct T as (us & U & R). inversion U; subst. inversion R; subst. repeat econstructor.
  - apply typed_glob in T as (_ & _ & R). destruct (overloaded fns f) eqn:N.
    + inversion R as [|? ? ? c ? R1 R2]; subst. inversion R2; subst.
      destruct (proj1 resolves_plugs _ _ _ R1 h) as (e & cs & P). eexists _, _. econstructor; eauto.
    + inversion R; subst. eexists _, _. now apply PE_glob.
  - destruct T as (us & U & R). inversion U; subst. inversion R; subst. repeat econstructor.
  - apply typed_cons in T as (a & c1 & c2 & -> & -> & T1 & T2 & _).
    destruct (IH1 _ _ _ _ T1) as (x & cx & P1). destruct (IH2 _ _ _ _ T2) as (y & cy & P2).
    eexists _, _. constructor; eauto.
  - apply typed_app in T as (a & c1 & c2 & -> & T1 & T2 & _).
    destruct (IH1 _ _ _ _ T1) as (x & cx & P1). destruct (IH2 _ _ _ _ T2) as (y & cy & P2).
    eexists _, _. constructor; eauto.
  - apply typed_lam in T as (a & b & -> & T & _). destruct (IH _ _ _ _ T) as (y & cy & P).
    eexists _, _. constructor; eauto.
Qed.

(* ---- the model does it ---- *)
Lemma plugs_plug : (forall h f c e cs, plugs h f c e cs -> forall n l, length (flat c) <= n ->
    plug_fun fns n h f (flat c ++ l) = Some (e, l)) /\
  (forall ds kids es cs, plugs_all ds kids es cs -> forall n l, list_sum (map (fun k => length (flat k)) kids) <= n ->
    plug_args (fun d l => if overloaded fns d then plug_fun fns n None d l else Some (XGlob None d, l)) ds
      (concat (rev (map flat kids)) ++ l) = Some (es, l)).
Proof.
  assert (LS : forall kids, length (concat (rev (map flat kids))) = list_sum (map (fun k => length (flat k)) kids)).
  { unfold list_sum. induction kids as [|k kids IH]; [reflexivity|]. cbn. rewrite concat_app, app_length, IH. cbn. rewrite app_nil_r. lia. }
  apply plugs_both.
  - intros h f F i g G kids e cs EF EA EG EI _ IH n l L. cbn [flat length app] in *. rewrite LS in L.
    destruct n as [|n]; [lia|]. cbn [plug_fun]. rewrite EF, EA, EG, EI.
    now rewrite IH by lia.
  - intros h f F i g G kids e a es cs EF EA EG _ IH n l L. cbn [flat length app] in *. rewrite LS in L.
    destruct n as [|n]; [lia|]. cbn [plug_fun]. rewrite EF, EA, EG.
    now rewrite IH by lia.
  - intros n l _. reflexivity.
  - intros d ds kids es cs N _ IH n l L. cbn [plug_args]. rewrite IH by assumption. now rewrite N.
  - intros d ds k kids e es c cs N _ IK _ IH n l L. cbn [map rev plug_args].
    change (length (flat k) + list_sum (map (fun k => length (flat k)) kids) <= n) in L.
    rewrite concat_app, <- app_assoc. rewrite IH by lia. cbn. rewrite N, app_nil_r. now rewrite IK by lia.
Qed.
Lemma flats_app cs ds : flats (cs ++ ds) = flats cs ++ flats ds.
Proof. unfold flats. now rewrite map_app, concat_app. Qed.
Theorem plugs_e_plug e cs e1 cs1 : plugs_e e cs e1 cs1 -> forall n l0, length (flats (rev cs)) <= n ->
  plug fns n e (flats (rev cs) ++ l0) = Some (e1, l0).
Proof.
  induction 1; intros n l0 L; try reflexivity.
  - cbn. now rewrite H.
  - cbn [plug]. rewrite H. unfold flats in *. cbn in *. rewrite app_nil_r in *.
    now apply (proj1 plugs_plug _ _ _ _ _ H0).
  - cbn [plug]. rewrite rev_app_distr, flats_app, <- app_assoc in *. rewrite app_length in L.
    rewrite IHplugs_e2 by lia. now rewrite IHplugs_e1 by lia.
  - cbn [plug]. rewrite rev_app_distr, flats_app, <- app_assoc in *. rewrite app_length in L.
    rewrite IHplugs_e2 by lia. now rewrite IHplugs_e1 by lia.
  - cbn [plug]. now rewrite IHplugs_e.
Qed.

(* ---- the replacements get fewer ---- *)
Lemma plugs_less : (forall h f c e cs, plugs h f c e cs -> length (flats cs) < length (flat c)) /\
  (forall ds kids es cs, plugs_all ds kids es cs -> length (flats cs) <= length (flats kids)).
Proof.
  assert (LS : forall kids, length (concat (rev (map flat kids))) = length (flats kids)).
  { unfold flats. induction kids as [|k kids IH]; [reflexivity|]. cbn. rewrite concat_app, !app_length, IH. cbn. rewrite app_nil_r. lia. }
  apply plugs_both.
  - intros. cbn [flat length]. rewrite LS. lia.
  - intros. cbn [flat length]. rewrite LS. lia.
  - auto.
  - auto.
  - intros. rewrite flats_app, app_length. change (flats (k :: kids)) with (flat k ++ flats kids).
    rewrite app_length. lia.
Qed.
Lemma plugs_e_le e cs e1 cs1 : plugs_e e cs e1 cs1 ->
  length (flats cs1) <= length (flats cs) /\ (cs <> [] -> length (flats cs1) < length (flats cs)).
Proof.
  induction 1; try (split; [auto|congruence]).
  - assert (L := proj1 plugs_less _ _ _ _ _ H0). unfold flats at 2 4. cbn. rewrite app_nil_r. lia.
  - rewrite !flats_app, !app_length. split; [lia|]. intros N. destruct cs as [|c cs]; [|assert (c :: cs <> []) by discriminate; intuition lia].
    destruct ds as [|d ds]; [now destruct N|]. assert (d :: ds <> []) by discriminate. intuition lia.
  - rewrite !flats_app, !app_length. split; [lia|]. intros N. destruct cs as [|c cs]; [|assert (c :: cs <> []) by discriminate; intuition lia].
    destruct ds as [|d ds]; [now destruct N|]. assert (d :: ds <> []) by discriminate. intuition lia.
  - assumption.
Qed.
End Plug.
