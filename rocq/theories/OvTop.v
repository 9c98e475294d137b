(* TypeCheck on expressions with overloaded functions. *)
From Coq Require Import Decimal DecimalFacts DecimalString DecimalNat.
From Coq Require Import String List Bool Arith Lia.
From Verif Require Import TyModel TyThms InfModel InfSpec InfThms InfRun InfTop InfEnd
  OvModel OvSpec OvPath OvStore OvThms OvEnd OvCheck OvUse OvInf OvPlug OvFull OvRound.
Import ListNotations.
Open Scope list_scope.

(* ---- the names of implicit arguments ---- *)
Lemma vname_inj j k : vname j = vname k -> j = k.
Proof.
  unfold vname. cbn. intros [= E]. apply DecimalNat.Unsigned.to_uint_inj.
  assert (NN : forall i, Nat.to_uint i <> Nil).
  { intros i. unfold Nat.to_uint. intros H. apply (f_equal Decimal.rev) in H. 
    assert (X : forall d, Decimal.rev (Decimal.rev d) = d) by apply DecimalFacts.rev_rev.
    rewrite X in H. cbn in H. destruct i; cbn in H; [discriminate|].
    clear - H. change (Nat.to_little_uint i (Little.succ (D0 Nil)) = Nil) in H.
    assert (Y : forall i d, d <> Nil -> Nat.to_little_uint i d <> Nil).
    { clear. induction i as [|i IH]; intros d N; cbn; [assumption|]. apply IH. destruct d; cbn; congruence. }
    apply (Y i) in H; [assumption|]. discriminate. }
  pose proof (NilZero.usu _ (NN j)) as Ej. pose proof (NilZero.usu _ (NN k)) as Ek.
  rewrite E in Ej. congruence.
Qed.

(* Some function in e binds x. *)
Fixpoint binds (x : string) (e : expr) : Prop :=
  match e with
  | XCons _ a b | XApp _ a b => binds x a \/ binds x b
  | XLam _ y b => x = y \/ binds x b
  | _ => False
  end.

Section Unplug.
Variable fns : list fn.
Variable sigma : nat -> tree.
Notation has_uses := (has_uses fns sigma).

Lemma unplug_cnt e : forall c, snd (unplug fns e c) = c + nover fns e.
Proof.
  induction e; intros c; cbn; try lia.
  - destruct (overloaded fns f); cbn; lia.
  - specialize (IHe2 c). destruct (unplug fns e2 c) as [b c2]. specialize (IHe1 c2).
    destruct (unplug fns e1 c2) as [a c1]. cbn in *. lia.
  - specialize (IHe2 c). destruct (unplug fns e2 c) as [b c2]. specialize (IHe1 c2).
    destruct (unplug fns e1 c2) as [a c1]. cbn in *. lia.
  - specialize (IHe c). destruct (unplug fns e c) as [b c2]. cbn in *. lia.
Qed.

Lemma unplug_typed rho e : forall c G G' t us,
  (forall k, ~ binds (vname k) e) -> (forall k, G (vname k) = None) ->
  (forall x, (forall k, x <> vname k) -> G' x = G x) ->
  (forall k f u, nth_error (rev us) k = Some (f, u) -> G' (vname (c + k)) = Some u) ->
  has_uses rho G e t us -> has_uses rho G' (fst (unplug fns e c)) t [].
Proof.
  induction e as [h l|h p|h v|h f|h|h e1 IH1 e2 IH2|h e1 IH1 e2 IH2|h v e IH];
    intros c G G' t us NB NG GE GU U; inversion U; subst; cbn [unplug fst].
  - now constructor.
  - now econstructor.
  - constructor; [|assumption]. rewrite GE; [assumption|]. intros k ->. congruence.
  - destruct (overloaded fns f) eqn:Of; cbn [fst].
    + constructor; [|assumption]. specialize (GU 0 f t eq_refl). now rewrite Nat.add_0_r in GU.
    + assert (X := V_glob fns sigma rho G' h f t H2 H5). rewrite Of in X. exact X.
  - now constructor.
  - pose proof (unplug_cnt e2 c) as C2. destruct (unplug fns e2 c) as [b0 c2] eqn:E2. cbn in C2.
    destruct (unplug fns e1 c2) as [a0 c1] eqn:E1. cbn [fst].
    change (@nil (nat * tree)) with (@nil (nat * tree) ++ []). econstructor; [| |eassumption].
    + replace a0 with (fst (unplug fns e1 c2)) by now rewrite E1. eapply IH1; [| | | |eassumption]; [intros k B; apply (NB k); cbn; auto|exact NG|exact GE|].
      intros k f u N. replace (c2 + k) with (c + (length (rev vs) + k)).
      2: { rewrite rev_length, (uses_len fns sigma _ _ _ _ _ H6). lia. }
      apply GU with f. rewrite rev_app_distr, nth_error_app2 by lia. now replace (length (rev vs) + k - length (rev vs)) with k by lia.
    + replace b0 with (fst (unplug fns e2 c)) by now rewrite E2. eapply IH2; [| | | |eassumption]; [intros k B; apply (NB k); cbn; auto|exact NG|exact GE|].
      intros k f u N. apply GU with f. rewrite rev_app_distr, nth_error_app1; [assumption|]. apply nth_error_Some. congruence.
  - pose proof (unplug_cnt e2 c) as C2. destruct (unplug fns e2 c) as [b0 c2] eqn:E2. cbn in C2.
    destruct (unplug fns e1 c2) as [a0 c1] eqn:E1. cbn [fst].
    change (@nil (nat * tree)) with (@nil (nat * tree) ++ []). econstructor; [| |eassumption].
    + replace a0 with (fst (unplug fns e1 c2)) by now rewrite E1. eapply IH1; [| | | |eassumption]; [intros k B; apply (NB k); cbn; auto|exact NG|exact GE|].
      intros k f u N. replace (c2 + k) with (c + (length (rev vs) + k)).
      2: { rewrite rev_length, (uses_len fns sigma _ _ _ _ _ H6). lia. }
      apply GU with f. rewrite rev_app_distr, nth_error_app2 by lia. now replace (length (rev vs) + k - length (rev vs)) with k by lia.
    + replace b0 with (fst (unplug fns e2 c)) by now rewrite E2. eapply IH2; [| | | |eassumption]; [intros k B; apply (NB k); cbn; auto|exact NG|exact GE|].
      intros k f u N. apply GU with f. rewrite rev_app_distr, nth_error_app1; [assumption|]. apply nth_error_Some. congruence.
  - destruct (unplug fns e c) as [b0 c2] eqn:E2. cbn [fst]. constructor; [|assumption].
    replace b0 with (fst (unplug fns e c)) by now rewrite E2.
    eapply (IH c (bound v a G)); eauto.
    + intros k B. apply (NB k). cbn. auto.
    + intros k. unfold bound. destruct (String.eqb_spec v (vname k)) as [->|]; [|apply NG].
      destruct (NB k). cbn. auto.
    + intros x Nx. unfold bound. destruct (String.eqb v x); [reflexivity|]. now apply GE.
    + intros k f u N. unfold bound. destruct (String.eqb_spec v (vname (c + k))) as [->|]; [|eauto].
      destruct (NB (c + k)). cbn. auto.
Qed.

(* The functions of the implicit arguments around the expression. *)
Fixpoint lams (c : nat) (m : nat) (nd : expr) : expr :=
  match m with O => nd | S m => lams (S c) m (XLam None (vname c) nd) end.
Lemma lams_typed rho ts : forall c nd G t,
  (forall G', (forall k u, nth_error ts k = Some u -> G' (vname (c + k)) = Some u) ->
     (forall x, (forall k, x <> vname k) -> G' x = G x) -> has_uses rho G' nd t []) ->
  has_uses rho G (lams c (length ts) nd) (arrows (rev ts) t) [].
Proof.
  induction ts as [|u ts IH]; intros c nd G t H; cbn [length lams rev].
  - cbn. apply H; [intros [|k]; discriminate|reflexivity].
  - replace (arrows (rev ts ++ [u]) t) with (arrows (rev ts) (arrow u t)).
    2: { generalize (rev ts). induction l; cbn; congruence. }
    apply IH. intros G' GU GE. constructor; [|exact I]. apply H.
    + intros [|k] v N; cbn in N.
      * injection N as ->. unfold bound. now rewrite Nat.add_0_r, String.eqb_refl.
      * unfold bound. destruct (String.eqb_spec (vname c) (vname (c + S k))) as [E|].
        { apply vname_inj in E. lia. }
        replace (c + S k) with (S c + k) by lia. now apply GU.
    + intros x Nx. unfold bound. destruct (String.eqb_spec (vname c) x) as [<-|]; [now destruct (Nx c)|]. now apply GE.
Qed.
Lemma implicit_typed rho e t us : (forall k, ~ binds (vname k) e) -> has_uses rho none e t us ->
  has_uses rho none (lams 1 (length us) (fst (unplug fns e 1))) (arrows (map snd us) t) [].
Proof.
  intros NB U. assert (E : map snd us = rev (rev (map snd us))) by now rewrite rev_involutive.
  rewrite E. replace (length us) with (length (rev (map snd us))) by now rewrite rev_length, map_length.
  apply lams_typed. intros G' GU GE. apply (unplug_typed rho e 1 none G' t us); [exact NB|reflexivity|exact GE| |exact U].
  intros k f u N. apply GU. rewrite <- map_rev, nth_error_map, N. reflexivity.
Qed.
End Unplug.

Lemma implicit_spec ar (BA : base_arities ar) fuel todo : forall s r cnt res nd args, pre ar s r -> res < length (t_heap s) ->
  (forall o, In o todo -> snd o < length (t_heap s)) ->
  wp ar s (implicit fuel todo cnt res nd args s) r (fun a s1 r1 => fst (fst a) < length (t_heap s1)
    /\ (forall x, reading (t_heap s1) x -> x (fst (fst a)) = arrows (map (fun o => x (snd o)) (rev todo)) (x res))
    /\ snd (fst a) = lams cnt (length todo) nd /\ snd a = rev (map fst todo) ++ args).
Proof.
  induction todo as [|[f p] todo IH]; intros s r cnt res nd args P Lr Lo; cbn [implicit].
  - apply wp_ret; [assumption|]. cbn. auto.
  - eapply wp_bind; [apply (wp_make_arrow ar BA fuel s r p res P); [exact (Lo (f, p) (or_introl eq_refl))|assumption]|].
    intros q s1 r1 S1 (Lq & V). assert (P1 := step_pre _ _ _ _ _ S1). assert (L1 := step_len _ _ _ _ _ S1).
    eapply wp_conseq; [apply (IH s1 r1 (S cnt) q (XLam None (vname cnt) nd) (f :: args) P1 Lq)|].
    { intros o I. specialize (Lo o (or_intror I)). lia. }
    intros a s2 r2 S2 (La & Va & En & Ea) _. split; [assumption|]. split; [|split; [exact En|]].
    + intros x R. rewrite (Va x R), (V x (step_back _ _ _ _ _ _ S2 R)). cbn. rewrite map_app. cbn.
      generalize (map (fun o => x (snd o)) (rev todo)). induction l; cbn; congruence.
    + rewrite Ea. cbn. now rewrite <- app_assoc.
Qed.

Section Top.
Variable ar : con -> nat.
Hypothesis BA : base_arities ar.
Variable gheap : heap.
Variable sigma : rd.
Hypothesis GS : store ar gheap.
Hypothesis GR : reading gheap sigma.
Hypothesis GV : forall p, nth_error gheap p = Some NVar -> sigma p = Nd (LVar p) [].
Variable fns : list fn.
Hypothesis GT : good_table fns sigma gheap.
Hypothesis GEN : general fns sigma.
Variable veq : tstate -> nat -> nat -> bool.
Variable depth : nat.
Variable s : tstate.
Hypothesis S0 : store ar (t_heap s).
Hypothesis N0 : allnv s.
Variable e : expr.
Hypothesis Wf : wf_o fns (length (t_heap s)) [] e.
Notation has_uses := (has_uses fns sigma).
Notation typed := (typed fns sigma).
Notation inv := (inv ar sigma fns s).
Notation only := (only sigma fns s).

Lemma push_nv : allnv (push_ctx s).
Proof. constructor; [constructor|exact N0]. Qed.

Lemma first_ok fuel : match infer_o fuel gheap fns e [] [] (push_ctx s) with
  | ROk (p, _, todo) s1 => exists l, todo = rev l /\ inv e p l s1
      /\ (forall y t us, reading (t_heap s) y -> has_uses y none e t us ->
            exists z, reading (t_heap s1) z /\ z p = t /\ map (at_ z) l = us)
  | RFail s1 => ext (push_ctx s) s1 /\ forall y t us, reading (t_heap s) y -> ~ has_uses y none e t us
  | RCrash => False
  | RStuck => True
  end.
Proof.
  pose proof (infer_at ar BA gheap sigma GS GR GV fns GT fuel e (push_ctx s) (length (t_heap s))
    (store_push ar s S0) (le_n _) Wf) as IA.
  destruct (infer_o fuel gheap fns e [] [] (push_ctx s)) as [[[p tb] todo] s1|s1| |]; auto.
  destruct IA as (l & -> & O & X & NV & Lp & L & Oc & B & F). exists l. split; [reflexivity|]. split.
  - constructor; auto.
    + apply NV, push_nv.
    + intros rho t cs R (us & U & Rs). destruct (F rho t us R U) as (z & Rz & A & Ez & El).
      exists z. split; [assumption|]. split; [exact A|]. split; [assumption|]. now rewrite El.
  - intros y t us R U. destruct (F y t us R U) as (z & Rz & _ & Ez & El). eauto.
Qed.

(* The end of the rounds. *)
Definition many (r : result) (s' : tstate) : Prop :=
  exists args p', r = Typed (lams 1 (length args) (fst (unplug fns e 1))) args p'
    /\ okst ar s' /\ ext (push_ctx s) s' /\ p' < length (t_heap s') /\ args <> []
    /\ (exists rho t cs rho' t' cs', reading (t_heap s) rho /\ reading (t_heap s) rho'
          /\ typed rho none e t cs /\ typed rho' none e t' cs' /\ cs <> cs')
    /\ (forall x, reading (t_heap s') x -> exists t us, reading (t_heap s) x /\ has_uses x none e t us
          /\ map fst us = args /\ x p' = arrows (map snd us) t)
    /\ (forall rho t us, reading (t_heap s) rho -> has_uses rho none e t us ->
          map fst us = args /\ exists x, reading (t_heap s') x /\ x p' = arrows (map snd us) t).
Lemma rounds_ok fuel k p l s1 r s' : inv e p l s1 ->
  (forall y t us, reading (t_heap s) y -> has_uses y none e t us ->
            exists z, reading (t_heap s1) z /\ z p = t /\ map (at_ z) l = us) ->
  rounds fuel gheap fns veq depth k e p (rev l) s1 = Some (r, s') ->
  match r with
  | TypeError => False
  | TooDeep => (deep fns sigma (t_heap s1) (rev l) depth \/ exists cs, only e cs) /\ t_ctx s' <> []
  | NoMatch f => ext (push_ctx s) s' /\ forall rho t cs, reading (t_heap s) rho -> ~ typed rho none e t cs
  | Typed _ [] _ => exists cs, only e cs /\ done ar sigma fns s e cs r s'
  | Typed _ _ _ => many r s'
  end.
Proof.
  intros I F E. destruct k as [|k]; [discriminate|]. assert (E0 := E). cbn [rounds] in E.
  assert (OR : occs_ok fns (length (t_heap s1)) (rev l)) by (intros o Io; apply (i_occs _ _ _ _ _ _ _ _ I), in_rev, Io).
  pose proof (nbr_solutions ar BA gheap sigma GS GR GV fns GT fuel veq depth (rev l) s1 (i_ok _ _ _ _ _ _ _ _ I) (i_nv _ _ _ _ _ _ _ _ I) OR) as NB.
  destruct (nbr_succ fuel gheap fns veq depth (rev l) s1) as [a s2|s2| |] eqn:EN; try discriminate.
  2: { injection E as <- <-. split; [left|]; apply NB. }
  destruct NB as [Sm C]. destruct a as [f|ls|m].
  - injection E as <- <-. split; [eapply ext_trans; [apply I|apply (same_ext ar); exact Sm]|].
    intros rho t cs R T. apply (C (rev cs)). apply (sol_typed ar sigma fns s _ _ _ _ _ I). eauto.
  - destruct (only_of ar sigma fns s _ _ _ _ _ I C) as (cs & U & _).
    destruct (rounds_only ar BA gheap sigma GS GR GV fns GT veq depth GEN s fuel _ _ _ _ _ _ _ _ I U E0) as [[-> CX]|D]; eauto.
    assert (D0 := D). destruct D as (e' & p' & -> & _). eauto.
  - assert (OK2 : okst ar s2) by apply Sm.
    assert (L2 := same_len ar _ _ Sm).
    assert (Lp2 : p < length (t_heap s2)) by (assert (X := i_p _ _ _ _ _ _ _ _ I); lia).
    assert (Lo2 : forall o, In o (rev l) -> snd o < length (t_heap s2)).
    { intros o Io. destruct (OR o Io) as [X _]. lia. }
    pose proof (fun r P => implicit_spec ar BA fuel (rev l) s2 r 1 p (fst (unplug fns e 1)) [] P Lp2 Lo2) as W.
    destruct (implicit fuel (rev l) 1 p (fst (unplug fns e 1)) [] s2) as [[[p' e'] args] s3|s3| |]; try discriminate.
    injection E as <- <-.
    destruct (W None (okst_pre ar _ OK2)) as (r1 & St & Lp' & V & En & Ea). cbn in Lp', V, En, Ea.
    rewrite app_nil_r, <- map_rev, rev_involutive in Ea. rewrite rev_length in En. subst e' args.
    destruct C as (_ & c & c' & Sc & Sc' & Nc).
    assert (NE : map fst l <> []).
    { intros H. apply map_eq_nil in H. subst l. destruct Sc as (x & _ & Rx), Sc' as (x' & _ & Rx').
      cbn in Rx, Rx'. inversion Rx; inversion Rx'; congruence. }
    assert (MM : many (Typed (lams 1 (length l) (fst (unplug fns e 1))) (map fst l) p') s3).
    { exists (map fst l), p'. rewrite map_length. split; [reflexivity|]. split; [apply St|].
      split; [eapply ext_trans; [apply I|]; eapply ext_trans; [apply (same_ext ar); exact Sm|apply St]|].
      split; [assumption|]. split; [assumption|]. split.
      - rewrite <- (rev_involutive c) in Sc. rewrite <- (rev_involutive c') in Sc'.
        apply (sol_typed ar sigma fns s _ _ _ _ _ I) in Sc as (rho & t & R & T).
        apply (sol_typed ar sigma fns s _ _ _ _ _ I) in Sc' as (rho' & t' & R' & T').
        exists rho, t, (rev c), rho', t', (rev c'). split; [assumption|]. split; [assumption|].
        split; [assumption|]. split; [assumption|]. intros H. apply Nc.
        rewrite <- (rev_involutive c), <- (rev_involutive c'). now f_equal.
      - assert (MF : forall x : rd, map fst (map (at_ x) l) = map fst l) by (intros x; rewrite map_map; reflexivity).
        assert (MS : forall x : rd, map snd (map (at_ x) l) = map (fun o => x (snd o)) l) by (intros x; rewrite map_map; reflexivity).
        split.
        + intros x R. assert (R1 : reading (t_heap s1) x) by (eapply same_back; [exact Sm|]; exact (step_back _ _ _ _ _ _ St R)).
          destruct (i_back _ _ _ _ _ _ _ _ I x R1) as [Rx U].
          exists (x p), (map (at_ x) l). split; [assumption|]. split; [assumption|]. split; [apply MF|].
          rewrite (V x R), MS, rev_involutive. reflexivity.
        + intros rho t us R U. destruct (F rho t us R U) as (z & Rz & Ez & El). split; [rewrite <- El; apply MF|].
          destruct (same_reading ar _ _ _ (i_ok _ _ _ _ _ _ _ _ I) Sm Rz) as (z2 & Rz2 & A2).
          destruct (W (Some z2)) as (r2 & St2 & _ & V2 & _); [split; [assumption|]; now intros x [= <-]|].
          destruct St2 as (_ & _ & _ & _ & T2). cbn in T2. destruct T2 as (z3 & -> & Rz3 & A3).
          exists z3. split; [assumption|]. cbn in V2. rewrite (V2 z3 Rz3), rev_involutive, <- El, MS.
          assert (Ap : z3 p = t) by (rewrite A3 by lia; rewrite A2 by apply I; assumption).
          rewrite Ap. f_equal. apply map_ext_in. intros o Io. assert (X := proj1 (i_occs _ _ _ _ _ _ _ _ I o Io)).
          rewrite A3 by lia. now apply A2. }
    destruct (map fst l); [congruence|exact MM].
Qed.

(* ---- the copied type ---- *)
Lemma copied fuel s1 p q g : okst ar s1 -> p < length (t_heap s1) -> copy_type fuel (t_heap s1) p gheap = Some (q, g) ->
  store ar g /\ (exists t, g = gheap ++ t) /\ q < length g
  /\ forall S, reading g S -> (forall p, nth_error g p = Some NVar -> S p = Nd (LVar p) []) ->
     forall t, (exists f, t = inst f (S q)) <-> (exists x, reading (t_heap s1) x /\ x p = t).
Proof.
  intros O Lp EC. assert (S1 := okst_store _ _ O).
  destruct (expand_reading _ (proj1 S1) (proj1 (proj2 S1))) as (D & _ & HD).
  destruct (HD (Datatypes.S D) ltac:(lia)) as [RD _]. set (R := expand (Datatypes.S D) (t_heap s1)) in *.
  assert (RV : forall p, nth_error (t_heap s1) p = Some NVar -> R p = Nd (LVar p) []).
  { intros x N. unfold R. cbn. now rewrite N. }
  destruct (copy_type_spec ar (t_heap s1) R RD RV S1 _ _ _ _ _ EC GS) as (Sg & T & Lq & B & Fq & Cq).
  split; [assumption|]. split; [assumption|]. split; [assumption|].
  intros S' RS SV t. split.
  - intros (f & ->). destruct (Fq S' RS) as (h & ->).
    exists (fun x => inst (fun v => inst f (h v)) (R x)). split; [now apply inst_reading|]. now rewrite inst_inst.
  - intros (y & Ry & <-). destruct (Cq sigma y GR) as (z & Rz & _ & Ez).
    exists z. rewrite (reading_types ar _ _ _ S1 RD RV Ry p Lp), <- Ez. apply reading_types with (ar := ar) (h := g); assumption.
Qed.

Lemma check_cases fuel k r g s2 : type_check_o fuel gheap fns veq depth k e s = Some (r, g, s2) ->
  (exists s1, infer_o fuel gheap fns e [] [] (push_ctx s) = RFail s1 /\ r = TypeError /\ g = gheap /\ pop_ctx true s1 = Some s2)
  \/ exists p tb l s1 r1 s', infer_o fuel gheap fns e [] [] (push_ctx s) = ROk (p, tb, rev l) s1 /\ inv e p l s1
     /\ (forall y t us, reading (t_heap s) y -> has_uses y none e t us ->
            exists z, reading (t_heap s1) z /\ z p = t /\ map (at_ z) l = us)
     /\ rounds fuel gheap fns veq depth k e p (rev l) s1 = Some (r1, s') /\ pop_ctx true s' = Some s2
     /\ match r1 with
        | Typed e' args p' => exists q, r = Typed e' args q /\ copy_type fuel (t_heap s') p' gheap = Some (q, g)
        | _ => r = r1 /\ g = gheap
        end.
Proof.
  intros E. unfold type_check_o in E. pose proof (first_ok fuel) as FO.
  destruct (infer_o fuel gheap fns e [] [] (push_ctx s)) as [[[p tb] todo] s1|s1| |]; try discriminate.
  - destruct FO as (l & -> & I & F).
    destruct (rounds fuel gheap fns veq depth k e p (rev l) s1) as [[r1 s']|] eqn:ER; [|discriminate].
    right. exists p, tb, l, s1, r1, s'. split; [reflexivity|]. split; [assumption|]. split; [assumption|]. split; [assumption|].
    destruct (pop_ctx true s') as [s3|]; [|discriminate]. destruct r1 as [|f| |e' args p'].
    1-3: injection E as <- <- <-; auto.
    destruct (copy_type fuel (t_heap s') p' gheap) as [[q g']|]; [|discriminate]. injection E as <- <- <-. eauto.
  - left. exists s1. destruct (pop_ctx true s1) as [s3|]; [|discriminate]. injection E as <- <- <-. auto.
Qed.

Theorem o_rejects fuel k g s2 : type_check_o fuel gheap fns veq depth k e s = Some (TypeError, g, s2) ->
  forall rho t us, reading (t_heap s) rho -> ~ has_uses rho none e t us.
Proof.
  intros E. apply check_cases in E as [(s1 & E & _)|(p & tb & l & s1 & r1 & s' & E & I & F & ER & _ & X)].
  - pose proof (first_ok fuel) as FO. rewrite E in FO. intros rho t us R. now apply FO.
  - pose proof (rounds_ok _ _ _ _ _ _ _ I F ER) as RO. destruct r1; destruct X as [X Y]; try discriminate; [destruct RO|].
    destruct Y; discriminate.
Qed.
Theorem o_no_match fuel k f g s2 : type_check_o fuel gheap fns veq depth k e s = Some (NoMatch f, g, s2) ->
  forall rho t cs, reading (t_heap s) rho -> ~ typed rho none e t cs.
Proof.
  intros E. apply check_cases in E as [(s1 & _ & E & _)|(p & tb & l & s1 & r1 & s' & E & I & F & ER & _ & X)]; [discriminate|].
  pose proof (rounds_ok _ _ _ _ _ _ _ I F ER) as RO. destruct r1; destruct X as [X Y]; try discriminate; [apply RO|].
  destruct Y; discriminate.
Qed.
Theorem o_principal fuel k e' q g s2 : type_check_o fuel gheap fns veq depth k e s = Some (Typed e' [] q, g, s2) ->
  store ar g /\ (exists t, g = gheap ++ t) /\ q < length g
  /\ exists cs, fulls fns e cs e'
     /\ (forall rho t cs', reading (t_heap s) rho -> typed rho none e t cs' -> cs' = cs)
     /\ forall S, reading g S -> (forall p, nth_error g p = Some NVar -> S p = Nd (LVar p) []) ->
        forall t, ((exists f, t = inst f (S q)) <-> (exists rho, reading (t_heap s) rho /\ typed rho none e t cs))
          /\ ((exists f, t = inst f (S q)) <-> (exists rho, reading (t_heap s) rho /\ has_uses rho none e' t [])).
Proof.
  intros E. apply check_cases in E as [(s1 & _ & E & _)|(p & tb & l & s1 & r1 & s' & E & I & F & ER & _ & X)]; [discriminate|].
  pose proof (rounds_ok _ _ _ _ _ _ _ I F ER) as RO. destruct r1 as [|f| |e1 args p']; try (destruct X; discriminate).
  destruct X as (q' & [= <- <- <-] & EC). destruct RO as (cs & U & e2 & p2 & [= <- <-] & I' & N & FU & TY).
  destruct (copied _ _ _ _ _ (i_ok _ _ _ _ _ _ _ _ I') (i_p _ _ _ _ _ _ _ _ I') EC) as (A & B & C & D).
  split; [assumption|]. split; [assumption|]. split; [assumption|]. exists cs. split; [assumption|]. split; [apply U|].
  assert (HU : forall rho t, has_uses rho none e' t [] <-> typed rho none e' t []).
  { intros rho t. split.
    - intros H. exists []. split; [assumption|constructor].
    - intros (us & H & R). inversion R; subst. assumption. }
  assert (RR : forall t, (exists x, reading (t_heap s') x /\ x p' = t) <-> (exists rho, reading (t_heap s) rho /\ typed rho none e' t [])).
  { intros t. split.
    - intros (x & R & <-). destruct (i_back _ _ _ _ _ _ _ _ I' x R) as [R0 H]. exists x. split; [assumption|]. now apply HU.
    - intros (rho & R & T). destruct (i_forth _ _ _ _ _ _ _ _ I' rho t [] R T) as (y & Ry & _ & Ey & _). eauto. }
  intros S' RS SV t. rewrite (D S' RS SV t), (RR t). split.
  - split; intros (rho & R & T); exists rho; (split; [assumption|]); now apply TY.
  - split; intros (rho & R & T); exists rho; (split; [assumption|]); now apply HU.
Qed.
Theorem o_implicit fuel k e' a args q g s2 :
  type_check_o fuel gheap fns veq depth k e s = Some (Typed e' (a :: args) q, g, s2) ->
  store ar g /\ (exists t, g = gheap ++ t) /\ q < length g
  /\ (exists rho t cs rho' t' cs', reading (t_heap s) rho /\ reading (t_heap s) rho'
        /\ typed rho none e t cs /\ typed rho' none e t' cs' /\ cs <> cs')
  /\ (forall rho t us, reading (t_heap s) rho -> has_uses rho none e t us -> map fst us = a :: args)
  /\ (forall rho t us, (forall k, ~ binds (vname k) e) -> has_uses rho none e t us ->
        map fst us = a :: args -> has_uses rho none e' (arrows (map snd us) t) [])
  /\ forall S, reading g S -> (forall p, nth_error g p = Some NVar -> S p = Nd (LVar p) []) ->
     forall t, (exists f, t = inst f (S q))
       <-> (exists rho b us, reading (t_heap s) rho /\ has_uses rho none e b us /\ t = arrows (map snd us) b).
Proof.
  intros E. apply check_cases in E as [(s1 & _ & E & _)|(p & tb & l & s1 & r1 & s' & E & I & F & ER & _ & X)]; [discriminate|].
  pose proof (rounds_ok _ _ _ _ _ _ _ I F ER) as RO. destruct r1 as [|f| |e1 args1 p']; try (destruct X; discriminate).
  destruct X as (q' & [= <- <- <-] & EC). destruct RO as (args2 & p2 & [= -> -> <-] & O & _ & Lp & _ & Two & B & W).
  destruct (copied _ _ _ _ _ O Lp EC) as (A1 & A2 & A3 & D).
  split; [assumption|]. split; [assumption|]. split; [assumption|]. split; [assumption|].
  split; [intros rho t us R U; now apply (W rho t us)|]. split.
  - intros rho t us NB U M. rewrite <- M, map_length. now apply implicit_typed.
  - intros S' RS SV t. rewrite (D S' RS SV t). split.
    + intros (x & R & <-). destruct (B x R) as (b & us & R0 & U & _ & ->). eauto 6.
    + intros (rho & b & us & R & U & ->). apply (W rho b us R U).
Qed.
Theorem o_deep fuel k g s2 : type_check_o fuel gheap fns veq depth k e s = Some (TooDeep, g, s2) ->
  (exists rho t us, reading (t_heap s) rho /\ has_uses rho none e t us /\ unfinished fns sigma (rev us) depth)
  \/ (exists cs, (exists rho t, reading (t_heap s) rho /\ typed rho none e t cs)
        /\ forall rho t cs', reading (t_heap s) rho -> typed rho none e t cs' -> cs' = cs).
Proof.
  intros E. apply check_cases in E as [(s1 & _ & E & _)|(p & tb & l & s1 & r1 & s' & E & I & F & ER & _ & X)]; [discriminate|].
  pose proof (rounds_ok _ _ _ _ _ _ _ I F ER) as RO.
  assert (r1 = TooDeep) as ->.
  { destruct r1; try (destruct X; discriminate); [reflexivity|]. destruct X as (q & X & _). discriminate. }
  destruct RO as [[(x & R & U)|U] _]; [left|right; exact U].
  destruct (i_back _ _ _ _ _ _ _ _ I x R) as [R0 H]. exists x, (x p), (map (at_ x) l).
  split; [assumption|]. split; [assumption|]. rewrite <- map_rev. exact U.
Qed.
Theorem o_restores fuel k r g s2 : type_check_o fuel gheap fns veq depth k e s = Some (r, g, s2) -> r <> TooDeep ->
  t_ctx s2 = t_ctx s /\ length (t_heap s) <= length (t_heap s2)
  /\ forall p, p < length (t_heap s) -> nth_error (t_heap s2) p = nth_error (t_heap s) p.
Proof.
  intros E NT.
  assert (P : forall s1, ext (push_ctx s) s1 -> pop_ctx true s1 = Some s2 -> t_ctx s2 = t_ctx s /\ length (t_heap s) <= length (t_heap s2)
    /\ forall p, p < length (t_heap s) -> nth_error (t_heap s2) p = nth_error (t_heap s) p).
  { intros s1 X EP. destruct (pop_back s s1 X) as (s3 & E3 & H). rewrite EP in E3. injection E3 as <-. exact H. }
  apply check_cases in E as [(s1 & E & _ & _ & EP)|(p & tb & l & s1 & r1 & s' & E & I & F & ER & EP & X)].
  - pose proof (first_ok fuel) as FO. rewrite E in FO. apply (P s1); [apply FO|assumption].
  - pose proof (rounds_ok _ _ _ _ _ _ _ I F ER) as RO. apply (P s'); [|assumption].
    destruct r1 as [|f| |e1 [|a args] p'].
    + destruct RO.
    + apply RO.
    + destruct X; congruence.
    + destruct RO as (cs & _ & e2 & p2 & _ & I' & _). apply I'.
    + destruct RO as (args2 & p2 & _ & _ & X' & _). exact X'.
Qed.
End Top.
