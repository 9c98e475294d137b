(* TypeCheck always ends, also with overloaded functions. *)
From Coq Require Import String List Bool Arith Lia.
From Verif Require Import TyModel TyThms InfModel InfSpec InfThms InfRun InfTop InfEnd
  OvModel OvSpec OvPath OvStore OvThms OvEnd OvCheck OvUse OvInf OvPlug OvFull OvRound OvTop.
Import ListNotations.
Open Scope list_scope.

Section Stop.
Variable ar : con -> nat.
Hypothesis BA : base_arities ar.
Variable gheap : heap.
Variable sigma : rd.
Hypothesis GS : store ar gheap.
Hypothesis GR : reading gheap sigma.
Hypothesis GV : forall p, nth_error gheap p = Some NVar -> sigma p = Nd (LVar p) [].
Variable fns : list fn.
Hypothesis GT : good_table fns sigma gheap.

Lemma infer_o_settles n e : forall s tbl vars todo,
  pre ar s None -> n <= length (t_heap s) -> wf_o fns n vars e ->
  tbl_ok (length (t_heap s)) tbl -> (forall x, In x vars -> find_hash tbl x <> None) ->
  settled (fun f => infer_o f gheap fns e tbl todo s).
Proof.
  assert (HM : forall n m h, n <= m -> hint_in n h -> hint_in m h) by (intros; eapply hint_mono; eauto).
  set (d := Nd (LVar 0) []).
  induction e as [h l|h p|h v|h f|h|h e1 IH1 e2 IH2|h e1 IH1 e2 IH2|h v e IH];
    intros s tbl vars todo P Ln Wf TB VT; cbn [infer_o].
  - eapply (settled_bind ar); [intros _; apply (wp_new_con ar s None (lit_con l) [] P)|apply settled_new|].
    { destruct BA as (_&_&_&_&?&?&?&?&_). destruct l; cbn; congruence. }
    { intros x []. }
    intros p s1 P1 L1 (Lp & _). assert (H1 : hint_in (length (t_heap s1)) h) by (eapply HM; [|exact Wf]; lia).
    eapply (settled_bind ar); [intros f; apply wp_hint; try assumption; discriminate|apply (settled_hint ar); assumption|].
    intros. apply settled_ret.
  - destruct Wf as [Wh NC].
    eapply (settled_bind ar); [intros _; apply (wp_prim ar BA s None p (fun _ => d) P NC); discriminate|apply settled_prim|].
    intros q s1 P1 L1 (Lq & _). assert (H1 : hint_in (length (t_heap s1)) h) by (eapply HM; [|exact Wh]; lia).
    eapply (settled_bind ar); [intros f; apply wp_hint; try assumption; discriminate|apply (settled_hint ar); assumption|].
    intros. apply settled_ret.
  - destruct Wf as [Wh Iv]. destruct (find_hash tbl v) as [q|] eqn:Fv; [|apply settled_const; discriminate].
    assert (Lq : q < length (t_heap s)) by now apply (proj2 TB) in Fv.
    assert (H1 : hint_in (length (t_heap s)) h) by (eapply HM; [|exact Wh]; lia).
    eapply (settled_bind ar); [intros f; apply wp_hint; try assumption; discriminate|apply (settled_hint ar); assumption|].
    intros. apply settled_ret.
  - destruct Wf as [Wh Lf]. destruct (nth_error fns f) as [F|] eqn:EF; [|apply settled_const; discriminate].
    assert (LF := proj1 GT _ _ EF).
    eapply (settled_bind ar); [intros g; apply (wp_fresh ar g gheap sigma GS GR GV s None (fn_type F) (fun _ => d) P LF)
                         |eapply settled_fresh; eauto|].
    intros q s1 P1 L1 (Lq & _). assert (H1 : hint_in (length (t_heap s1)) h) by (eapply HM; [|exact Wh]; lia).
    eapply (settled_bind ar); [intros g; apply wp_hint; try assumption; discriminate|apply (settled_hint ar); assumption|].
    intros _ s2 P2 L2 (_ & L2' & _).
    eapply (settled_bind ar); [intros g; apply wp_real; [assumption|lia]|apply (settled_real ar); [assumption|lia]|].
    intros. apply settled_ret.
  - eapply (settled_bind ar); [intros _; apply (wp_new_var ar s None d P)|apply settled_new|].
    intros v s1 P1 L1 (-> & Lv & _).
    eapply (settled_bind ar); [intros f; apply wp_make_list; assumption|apply (settled_make_list ar); assumption|].
    intros q s2 P2 L2 (Lq & _). assert (H1 : hint_in (length (t_heap s2)) h) by (eapply HM; [|exact Wf]; lia).
    eapply (settled_bind ar); [intros f; apply wp_hint; try assumption; discriminate|apply (settled_hint ar); assumption|].
    intros. apply settled_ret.
  - destruct Wf as (Wh & Wf1 & Wf2).
    eapply (settled_bind ar).
    { intros f. apply (infer_o_spec ar BA gheap sigma GS GR GV fns GT f n e1 s None tbl vars todo d []); try assumption. discriminate. }
    { eapply IH1; eauto. }
    intros [[p1 tbl1] todo1] s1 P1 L1 (Lp1 & TB1 & TE1 & _). cbn [fst snd] in *.
    assert (VT1 : forall x, In x vars -> find_hash tbl1 x <> None) by (intros x I; rewrite TE1; auto).
    eapply (settled_bind ar).
    { intros f. apply (infer_o_spec ar BA gheap sigma GS GR GV fns GT f n e2 s1 None tbl1 vars todo1 d []); try assumption; [lia|discriminate]. }
    { eapply IH2; eauto. lia. }
    intros [[p2 tbl2] todo2] s2 P2 L2 (Lp2 & TB2 & TE2 & _). cbn [fst snd] in *.
    eapply (settled_bind ar); [intros f; apply wp_make_list; [assumption|assumption|]|apply (settled_make_list ar); [assumption|]|]; [lia|lia|].
    intros pot s3 P3 L3 (Lpot & _).
    eapply (settled_bind ar); [intros f; apply wp_unif; [assumption|lia|assumption|discriminate]
                         |apply (settled_unif ar); [assumption|lia|assumption]|].
    intros _ s4 P4 L4 (_ & L4' & _).
    eapply (settled_bind ar); [intros f; apply wp_real; [assumption|lia]|apply (settled_real ar); [assumption|lia]|].
    intros q s5 _ _ (-> & _ & Lq & _).
    assert (H1 : hint_in (length (t_heap s4)) h) by (eapply HM; [|exact Wh]; lia).
    eapply (settled_bind ar); [intros f; apply wp_hint; try assumption; discriminate|apply (settled_hint ar); assumption|].
    intros _ s5 P5 L5 (_ & L5' & _).
    eapply (settled_bind ar); [intros f; apply wp_real; [assumption|lia]|apply (settled_real ar); [assumption|lia]|].
    intros. apply settled_ret.
  - destruct Wf as (Wh & Wf1 & Wf2).
    eapply (settled_bind ar).
    { intros f. apply (infer_o_spec ar BA gheap sigma GS GR GV fns GT f n e1 s None tbl vars todo d []); try assumption. discriminate. }
    { eapply IH1; eauto. }
    intros [[p1 tbl1] todo1] s1 P1 L1 (Lp1 & TB1 & TE1 & _). cbn [fst snd] in *.
    assert (VT1 : forall x, In x vars -> find_hash tbl1 x <> None) by (intros x I; rewrite TE1; auto).
    eapply (settled_bind ar).
    { intros f. apply (infer_o_spec ar BA gheap sigma GS GR GV fns GT f n e2 s1 None tbl1 vars todo1 d []); try assumption; [lia|discriminate]. }
    { eapply IH2; eauto. lia. }
    intros [[p2 tbl2] todo2] s2 P2 L2 (Lp2 & TB2 & TE2 & _). cbn [fst snd] in *.
    assert (H1 : hint_in (length (t_heap s2)) h) by (eapply HM; [|exact Wh]; lia).
    eapply (settled_bind ar).
    { intros f. apply (wp_apply ar BA f s2 None h p1 p2 d P2); [lia|assumption|assumption|discriminate]. }
    { apply (settled_apply ar BA); try assumption. lia. }
    intros. apply settled_ret.
  - destruct Wf as (Wh & Wf).
    set (old := find_hash tbl v) in *.
    set (tbl0 := match old with Some _ => delete_hash tbl v | None => tbl end).
    assert (T0 : forall x, find_hash tbl0 x = if String.eqb v x then None else find_hash tbl x).
    { intros x. unfold tbl0. destruct old eqn:O.
      - apply find_delete. apply TB.
      - destruct (String.eqb_spec v x) as [<-|]; [exact O|reflexivity]. }
    assert (K0 : tbl_ok (length (t_heap s)) tbl0).
    { unfold tbl0. destruct old; [now apply delete_ok|assumption]. }
    eapply (settled_bind ar); [intros _; apply (wp_new_var ar s None d P)|apply settled_new|].
    intros pv s1 P1 L1 (-> & Lv & _). set (pv := length (t_heap s)) in *.
    assert (K1 : tbl_ok (length (t_heap s1)) ((v, pv) :: tbl0)).
    { apply add_ok; [eapply tbl_mono; [|exact K0]; lia| |assumption].
      rewrite T0. now rewrite String.eqb_refl. }
    assert (V1 : forall x, In x (v :: vars) -> find_hash ((v, pv) :: tbl0) x <> None).
    { intros x I. cbn. destruct (String.eqb_spec v x) as [->|Ne]; [discriminate|].
      rewrite T0. destruct (String.eqb_spec v x); [congruence|]. apply VT.
      destruct I as [->|I]; [congruence|assumption]. }
    eapply (settled_bind ar).
    { intros f. apply (infer_o_spec ar BA gheap sigma GS GR GV fns GT f n e s1 None ((v, pv) :: tbl0) (v :: vars) todo d []); try assumption; [lia|discriminate]. }
    { eapply IH; eauto. lia. }
    intros [[pb tblb] todob] s2 P2 L2 (Lpb & TBb & TEb & _). cbn [fst snd] in *.
    eapply (settled_bind ar); [intros f; eapply wp_make_arrow; [assumption|assumption|lia|assumption]
                         |apply (settled_make_arrow ar); [assumption|lia|assumption]|].
    intros q s3 P3 L3 (Lq & _).
    destruct (find_hash tblb v); [|apply settled_const; discriminate].
    assert (H1 : hint_in (length (t_heap s3)) h) by (eapply HM; [|exact Wh]; lia).
    eapply (settled_bind ar); [intros f; apply wp_hint; try assumption; discriminate|apply (settled_hint ar); assumption|].
    intros _ s4 P4 L4 (_ & L4' & _).
    eapply (settled_bind ar); [intros f; apply wp_real; [assumption|lia]|apply (settled_real ar); [assumption|lia]|].
    intros. apply settled_ret.
Qed.


Lemma implicit_settles todo : forall s cnt res nd args, okst ar s -> res < length (t_heap s) ->
  (forall o, In o todo -> snd o < length (t_heap s)) ->
  settled (fun f => implicit f todo cnt res nd args s).
Proof.
  induction todo as [|[f p] todo IH]; intros s cnt res nd args O Lr Lo; cbn [implicit]; [apply settled_ret|].
  assert (Lp := Lo (f, p) (or_introl eq_refl)). cbn in Lp. assert (P := okst_pre ar _ O).
  eapply (settled_bind ar); [intros g; apply (wp_make_arrow ar BA g s None p res P Lp Lr)
                            |apply (settled_make_arrow ar); assumption|].
  intros q s1 P1 L1 (Lq & _). apply IH; [apply P1|assumption|]. intros o I. specialize (Lo o (or_intror I)). lia.
Qed.

Hypothesis GEN : general fns sigma.
Variable veq : tstate -> nat -> nat -> bool.
Variable depth : nat.
Variable s : tstate.
Hypothesis S0 : store ar (t_heap s).
Hypothesis N0 : allnv s.
Notation inv := (inv ar sigma fns s).
Notation only := (only sigma fns s).

Lemma infer_at_settles e s1 : okst ar s1 -> length (t_heap s) <= length (t_heap s1) -> wf_o fns (length (t_heap s)) [] e ->
  settled (fun f => infer_o f gheap fns e [] [] s1).
Proof.
  intros O L W. eapply (infer_o_settles (length (t_heap s))); eauto using okst_pre.
  split; [constructor|discriminate].
Qed.

Lemma rounds_settle m : forall e p l s1 cs, inv e p l s1 -> only e cs -> length (flats cs) < m ->
  exists F a, forall f k, F <= f -> F <= k -> rounds f gheap fns veq depth k e p (rev l) s1 = Some a.
Proof.
  induction m as [|m IH]; intros e p l s1 cs I U Lm; [lia|].
  assert (OR : occs_ok fns (length (t_heap s1)) (rev l)) by (intros o Io; apply (i_occs _ _ _ _ _ _ _ _ I), in_rev, Io).
  assert (O1 := i_ok _ _ _ _ _ _ _ _ I). assert (N1 := i_nv _ _ _ _ _ _ _ _ I).
  destruct (nbr_settles ar BA gheap sigma GS GR GV fns GT veq depth (rev l) s1 O1 N1 OR) as (F1 & o1 & No1 & E1).
  pose proof (nbr_solutions ar BA gheap sigma GS GR GV fns GT F1 veq depth (rev l) s1 O1 N1 OR) as NB.
  rewrite (E1 F1 (le_n _)) in NB. destruct o1 as [a s2|s2| |]; [| |destruct NB|congruence].
  2: { exists (S F1), (TooDeep, s2). intros f [|k] Lf Lk; [lia|]. cbn [rounds]. now rewrite E1 by lia. }
  destruct NB as [Sm C]. apply (only_not ar sigma fns s _ _ _ _ cs _ I U) in C. subst a.
  destruct (next_ok ar BA gheap sigma GS GR GV fns GT GEN s 0 _ _ _ _ _ _ I U Sm) as (e1 & cs1 & PE & EP & U1 & TY & _).
  assert (Wf1 : wf_o fns (length (t_heap s)) [] e1) by (eapply plugs_e_wf; eauto; apply I).
  assert (L2 := same_len ar _ _ Sm). assert (Ln := i_len _ _ _ _ _ _ _ _ I).
  destruct (infer_at_settles e1 s2 (proj1 Sm) ltac:(lia) Wf1) as (F2 & o2 & No2 & E2).
  destruct (next_ok ar BA gheap sigma GS GR GV fns GT GEN s F2 _ _ _ _ _ _ I U Sm) as (e1' & cs1' & PE' & _ & _ & _ & IN).
  destruct (plugs_e_det fns _ _ _ _ PE _ _ PE') as [-> ->].
  rewrite (E2 F2 (le_n _)) in IN. destruct o2 as [[[p2 tb] todo] s3|s3| |]; [|destruct IN|destruct IN|congruence].
  destruct IN as (l2 & -> & I2). destruct (rev l2) as [|o todo] eqn:EL.
  - exists (S (F1 + F2)), (Typed e1 [] p2, s3). intros f [|k] Lf Lk; [lia|]. cbn [rounds].
    rewrite E1 by lia. rewrite EP. now rewrite E2 by lia.
  - destruct (IH e1 p2 l2 s3 cs1 I2 U1) as (F3 & a & E3).
    + assert (X := plugs_e_le fns _ _ _ _ PE). destruct cs as [|c cs].
      * exfalso. cbn in X. destruct U1 as [(rho & t & R & T) _].
        destruct (i_forth _ _ _ _ _ _ _ _ I2 _ _ _ R T) as (y & _ & _ & _ & Rs).
        destruct cs1 as [|[i kids] cs1]; [|cbn in X; lia].
        inversion Rs as [Q|]. symmetry in Q. apply map_eq_nil in Q. subst l2. discriminate.
      * assert (length (flats cs1) < length (flats (c :: cs))) by (apply X; discriminate). lia.
    + exists (S (F1 + F2 + F3)), a. intros f [|k] Lf Lk; [lia|]. cbn [rounds].
      rewrite E1 by lia. rewrite EP. rewrite E2 by lia. rewrite EL in E3. apply E3; lia.
Qed.

Theorem o_answers e : wf_o fns (length (t_heap s)) [] e ->
  exists F a, forall f k, F <= f -> F <= k -> type_check_o f gheap fns veq depth k e s = Some a.
Proof.
  intros Wf.
  destruct (infer_at_settles e (push_ctx s) (store_push ar s S0) (le_n _) Wf) as (F0 & o0 & No0 & E0).
  pose proof (first_ok ar BA gheap sigma GS GR GV fns GT s S0 N0 e Wf F0) as FO. rewrite (E0 F0 (le_n _)) in FO.
  destruct o0 as [[[p tb] todo] s1|s1| |]; [| |destruct FO|congruence].
  2: { destruct (pop_back s s1) as (s2 & Ep & _); [apply FO|]. exists F0, (TypeError, gheap, s2).
       intros f k Lf _. unfold type_check_o. rewrite E0 by lia. now rewrite Ep. }
  destruct FO as (l & -> & I & FW).
  assert (R : exists F a, forall f k, F <= f -> F <= k -> rounds f gheap fns veq depth k e p (rev l) s1 = Some a).
  { assert (OR : occs_ok fns (length (t_heap s1)) (rev l)) by (intros o Io; apply (i_occs _ _ _ _ _ _ _ _ I), in_rev, Io).
    assert (O1 := i_ok _ _ _ _ _ _ _ _ I). assert (N1 := i_nv _ _ _ _ _ _ _ _ I).
    destruct (nbr_settles ar BA gheap sigma GS GR GV fns GT veq depth (rev l) s1 O1 N1 OR) as (F1 & o1 & No1 & E1).
    pose proof (nbr_solutions ar BA gheap sigma GS GR GV fns GT F1 veq depth (rev l) s1 O1 N1 OR) as NB.
    rewrite (E1 F1 (le_n _)) in NB. destruct o1 as [a s2|s2| |]; [| |destruct NB|congruence].
    2: { exists (S F1), (TooDeep, s2). intros f [|k] Lf Lk; [lia|]. cbn [rounds]. now rewrite E1 by lia. }
    destruct NB as [Sm C]. destruct a as [f0|ls|m].
    - exists (S F1), (NoMatch f0, s2). intros f [|k] Lf Lk; [lia|]. cbn [rounds]. now rewrite E1 by lia.
    - destruct (only_of ar sigma fns s _ _ _ _ _ I C) as (cs & U & _). eapply rounds_settle; eauto.
    - assert (L2 := same_len ar _ _ Sm).
      assert (Lp2 : p < length (t_heap s2)) by (assert (X := i_p _ _ _ _ _ _ _ _ I); lia).
      assert (Lo2 : forall o, In o (rev l) -> snd o < length (t_heap s2)).
      { intros o Io. destruct (OR o Io) as [X _]. lia. }
      destruct (implicit_settles (rev l) s2 1 p (fst (unplug fns e 1)) [] (proj1 Sm) Lp2 Lo2) as (F2 & o2 & No2 & E2).
      pose proof (implicit_spec ar BA F2 (rev l) s2 None 1 p (fst (unplug fns e 1)) [] (okst_pre ar _ (proj1 Sm)) Lp2 Lo2) as W.
      rewrite (E2 F2 (le_n _)) in W. destruct o2 as [[[p' e'] args] s3|s3| |]; [| |destruct W|congruence].
      + exists (S (F1 + F2)), (Typed e' args p', s3). intros f [|k] Lf Lk; [lia|]. cbn [rounds].
        rewrite E1 by lia. now rewrite E2 by lia.
      + exfalso. clear - E2. specialize (E2 F2 (le_n _)). revert E2. generalize 1 p (fst (unplug fns e 1)) (@nil nat) s2.
        induction (rev l) as [|[f q] todo IH]; intros c p0 nd ags st H; cbn [implicit] in H; [discriminate|].
        unfold bind, make_arrow, real, new in H. unfold bind in H.
        destruct (get_real F2 (t_heap st) p0); [|discriminate]. destruct (get_real F2 (t_heap st) q); [|discriminate].
        eapply IH; exact H. }
  destruct R as (F & [r s'] & E).
  assert (RO := rounds_ok ar BA gheap sigma GS GR GV fns GT GEN veq depth s e F F p l s1 r s' I FW (E F F (le_n _) (le_n _))).
  assert (PB : exists s2, pop_ctx true s' = Some s2).
  { assert (X : r <> TooDeep -> ext (push_ctx s) s').
    { intros NT. destruct r as [|f| |e1 [|a args] p'].
      - destruct RO.
      - apply RO.
      - congruence.
      - destruct RO as (cs & _ & e2 & p2 & _ & I' & _). apply I'.
      - destruct RO as (args2 & p2 & _ & _ & X' & _). exact X'. }
    destruct r; try (destruct (pop_back s s') as (s2 & Ep & _); [apply X; discriminate|eauto]).
    destruct RO as [_ CX]. unfold pop_ctx. destruct (t_ctx s'); [congruence|]. eauto. }
  destruct PB as (s2 & Ep).
  assert (CP : exists F a, forall f, F <= f ->
    match r with
    | Typed e args p => match copy_type f (t_heap s') p gheap with
                        | Some (q, g) => Some (Typed e args q, g, s2) | None => None end
    | _ => Some (r, gheap, s2)
    end = Some a).
  { destruct r as [|f| |e1 args p']; try (eexists 0, _; reflexivity).
    assert (X : okst ar s' /\ p' < length (t_heap s')).
    { destruct args as [|a args].
      - destruct RO as (cs & _ & e2 & p2 & [= <- <-] & I' & _). split; apply I'.
      - destruct RO as (args2 & p2 & [= _ _ <-] & O' & _ & L' & _). auto. }
    destruct (copy_total ar (t_heap s') (okst_store _ _ (proj1 X)) p' (proj2 X)) as (F2 & C).
    destruct (C [] gheap) as ([[q m] g] & EC).
    exists F2, (Typed e1 args q, g, s2). intros f L. unfold copy_type. now rewrite (copy_mono _ F2 f _ _ _ _ L EC). }
  destruct CP as (F2 & a & E2). exists (F0 + F + F2), a. intros f k Lf Lk. unfold type_check_o.
  rewrite E0 by lia. rewrite E by lia. rewrite Ep. apply E2. lia.
Qed.
End Stop.
