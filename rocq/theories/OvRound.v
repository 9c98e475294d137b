(* The rounds of TypeCheck on an expression with overloaded functions. *)
From Coq Require Import String List Bool Arith Lia.
From Verif Require Import TyModel TyThms InfModel InfSpec InfThms InfRun InfTop InfEnd
  OvModel OvSpec OvPath OvStore OvThms OvEnd OvCheck OvUse OvInf OvPlug OvFull.
Import ListNotations.
Open Scope list_scope.

Lemma keeps_list f a : keeps (make_list f a).
Proof. unfold make_list. apply keeps_bind; [apply keeps_real|]. intros. apply keeps_new. Qed.
Lemma keeps_prim p : keeps (get_prim_fun_type p).
Proof.
  unfold get_prim_fun_type. destruct (prim_type p) as [t| |]; [|apply keeps_fail|apply keeps_crash].
  intros s N. unfold on_heap. destruct (build_prim t (t_heap s)). exact N.
Qed.
Lemma keeps_infer f gh fns e : forall tbl todo, keeps (infer_o f gh fns e tbl todo).
Proof.
  induction e as [h l|h p|h v|h g|h|h e1 IH1 e2 IH2|h e1 IH1 e2 IH2|h v e IH]; intros tbl todo; cbn [infer_o].
  - apply keeps_bind; [apply keeps_new|]. intros. apply keeps_bind; [apply keeps_hint|]. intros. apply keeps_ret.
  - apply keeps_bind; [apply keeps_prim|]. intros. apply keeps_bind; [apply keeps_hint|]. intros. apply keeps_ret.
  - destruct (find_hash tbl v); [|apply keeps_crash]. apply keeps_bind; [apply keeps_hint|]. intros. apply keeps_ret.
  - destruct (nth_error fns g); [|apply keeps_crash]. apply keeps_bind; [apply keeps_fresh|]. intros.
    apply keeps_bind; [apply keeps_hint|]. intros. apply keeps_bind; [apply keeps_real|]. intros. apply keeps_ret.
  - apply keeps_bind; [apply keeps_new|]. intros. apply keeps_bind; [apply keeps_list|]. intros.
    apply keeps_bind; [apply keeps_hint|]. intros. apply keeps_ret.
  - apply keeps_bind; [apply IH1|]. intros. apply keeps_bind; [apply IH2|]. intros.
    repeat (apply keeps_bind; [first [apply keeps_list|apply keeps_unif|apply keeps_real|apply keeps_hint]|]; intros).
    apply keeps_ret.
  - apply keeps_bind; [apply IH1|]. intros. apply keeps_bind; [apply IH2|]. intros.
    apply keeps_bind; [apply keeps_apply|]. intros. apply keeps_ret.
  - apply keeps_bind; [apply keeps_new|]. intros. apply keeps_bind; [apply IH|]. intros.
    apply keeps_bind; [apply keeps_arrow|]. intros. destruct (find_hash _ v); [|apply keeps_crash].
    apply keeps_bind; [apply keeps_hint|]. intros. apply keeps_bind; [apply keeps_real|]. intros. apply keeps_ret.
Qed.

Section Rounds.
Variable ar : con -> nat.
Hypothesis BA : base_arities ar.
Variable gheap : heap.
Variable sigma : rd.
Hypothesis GS : store ar gheap.
Hypothesis GR : reading gheap sigma.
Hypothesis GV : forall p, nth_error gheap p = Some NVar -> sigma p = Nd (LVar p) [].
Variable fns : list fn.
Hypothesis GT : good_table fns sigma gheap.
Variable veq : tstate -> nat -> nat -> bool.
Variable depth : nat.
Notation has_uses := (has_uses fns sigma).
Notation typed := (typed fns sigma).
Notation resolves_all := (resolves_all fns sigma).
Notation plugs_e := (plugs_e fns).
Notation fulls := (fulls fns).

(* ---- one pass of build_node_type_struct ---- *)
Lemma infer_at fuel e s n : okst ar s -> n <= length (t_heap s) -> wf_o fns n [] e ->
  match infer_o fuel gheap fns e [] [] s with
  | ROk (p, _, todo) s1 => exists l, todo = rev l /\ okst ar s1 /\ ext s s1 /\ (allnv s -> allnv s1)
      /\ p < length (t_heap s1) /\ length (t_heap s) <= length (t_heap s1) /\ occs_ok fns (length (t_heap s1)) l
      /\ (forall x, reading (t_heap s1) x -> reading (t_heap s) x /\ has_uses x none e (x p) (map (at_ x) l))
      /\ (forall y t us, reading (t_heap s) y -> has_uses y none e t us ->
            exists z, reading (t_heap s1) z /\ agree (length (t_heap s)) y z /\ z p = t /\ map (at_ z) l = us)
  | RFail s1 => ext s s1 /\ forall y t us, reading (t_heap s) y -> ~ has_uses y none e t us
  | RCrash => False
  | RStuck => True
  end.
Proof.
  intros O Ln Wf. set (d := Nd (LVar 0) []).
  assert (NG : forall x : rd, forall y, G_of x [] y = none y) by reflexivity.
  assert (W : forall r t us, pre ar s r -> (forall x, r = Some x -> has_uses x none e t us) ->
    wp ar s (infer_o fuel gheap fns e [] [] s) r (fun a s1 r1 => fst (fst a) < length (t_heap s1)
    /\ tbl_ok (length (t_heap s1)) (snd (fst a)) /\ (forall x, find_hash (snd (fst a)) x = find_hash [] x)
    /\ exists l, snd a = rev l ++ [] /\ occs_ok fns (length (t_heap s1)) l
    /\ (forall x, reading (t_heap s1) x -> has_uses x (G_of x []) e (x (fst (fst a))) (map (at_ x) l))
    /\ (forall x, r1 = Some x -> x (fst (fst a)) = t /\ map (at_ x) l = us))).
  { intros r t us P H. apply (infer_o_spec ar BA gheap sigma GS GR GV fns GT fuel n) with (vars := []); auto.
    split; [constructor|discriminate]. }
  pose proof (keeps_infer fuel gheap fns e [] [] s) as K.
  destruct (infer_o fuel gheap fns e [] [] s) as [[[p tb] todo] s1|s1| |]; auto.
  - destruct (W None d [] (okst_pre ar _ O) ltac:(discriminate)) as (r1 & St & Lp & _ & _ & l & E & Ol & V & _).
    cbn in E, Lp, V. rewrite app_nil_r in E. exists l. split; [assumption|].
    destruct St as (O1 & L1 & X1 & B1 & _). split; [assumption|]. split; [assumption|]. split; [exact K|].
    split; [assumption|]. split; [assumption|]. split; [assumption|]. split.
    + intros x R. split; [auto|]. eapply has_uses_back; [exact Wf| |exact (V x R)]. intros y. symmetry. apply NG.
    + intros y t us R U. destruct (W (Some y) t us) as (r2 & St & _ & _ & _ & l' & E' & _ & _ & F).
      * split; [assumption|]. now intros x [= <-].
      * now intros x [= <-].
      * destruct St as (_ & _ & _ & _ & T). cbn in T. destruct T as (z & -> & Rz & A). cbn in E', F.
        rewrite app_nil_r in E'. destruct (F z eq_refl) as [Ez El].
        assert (l' = l) as -> by (rewrite <- (rev_involutive l'), <- E', E; apply rev_involutive).
        exists z. auto.
  - destruct (W None d [] (okst_pre ar _ O) ltac:(discriminate)) as [X _]. split; [assumption|].
    intros y t us R U. destruct (W (Some y) t us) as [_ F]; [split; [assumption|]; now intros x [= <-]|now intros x [= <-]|discriminate].
  - destruct (W None d [] (okst_pre ar _ O) ltac:(discriminate)).
Qed.

(* ---- what holds before each round ---- *)
Hypothesis GEN : general fns sigma.
Variable s : tstate.
Hypothesis S0 : store ar (t_heap s).
Let n := length (t_heap s).
Let h0 := t_heap s.

Record inv (e : expr) (p : nat) (l : list occ) (s1 : tstate) : Prop := {
  i_ok : okst ar s1;
  i_nv : allnv s1;
  i_ext : ext (push_ctx s) s1;
  i_len : n <= length (t_heap s1);
  i_p : p < length (t_heap s1);
  i_occs : occs_ok fns (length (t_heap s1)) l;
  i_wf : wf_o fns n [] e;
  i_back : forall x, reading (t_heap s1) x -> reading h0 x /\ has_uses x none e (x p) (map (at_ x) l);
  i_forth : forall rho t cs, reading h0 rho -> typed rho none e t cs ->
    exists y, reading (t_heap s1) y /\ agree n rho y /\ y p = t /\ resolves_all (map (at_ y) l) cs
}.
(* All solutions are cs. *)
Definition only (e : expr) (cs : list choice) : Prop :=
  (exists rho t, reading h0 rho /\ typed rho none e t cs)
  /\ forall rho t cs', reading h0 rho -> typed rho none e t cs' -> cs' = cs.

Lemma sol_typed e p l s1 cs : inv e p l s1 ->
  (solution fns sigma (t_heap s1) (rev l) (rev cs) <-> exists rho t, reading h0 rho /\ typed rho none e t cs).
Proof.
  intros I. split.
  - intros (x & R & Rs). destruct (i_back _ _ _ _ I x R) as [R0 U]. exists x, (x p). split; [assumption|].
    exists (map (at_ x) l). split; [assumption|].
    rewrite map_rev in Rs. apply rev_all in Rs. rewrite !rev_involutive in Rs. exact Rs.
  - intros (rho & t & R & T). destruct (i_forth _ _ _ _ I rho t cs R T) as (y & Ry & _ & _ & Rs).
    exists y. split; [assumption|]. rewrite map_rev. now apply rev_all.
Qed.
Lemma only_of e p l s1 ls : inv e p l s1 ->
  counts (solution fns sigma (t_heap s1) (rev l)) (AOne ls) (fun l cs => l = flats cs) ->
  exists cs, only e cs /\ ls = flats (rev cs).
Proof.
  intros I (c & Sc & -> & U). exists (rev c). rewrite rev_involutive. split; [|reflexivity]. split.
  - apply (sol_typed _ _ _ _ _ I). now rewrite rev_involutive.
  - intros rho t cs' R T. rewrite <- (rev_involutive cs'). f_equal. apply U.
    apply (sol_typed _ _ _ _ _ I). eauto.
Qed.
Lemma only_not e p l s1 cs a : inv e p l s1 -> only e cs ->
  counts (solution fns sigma (t_heap s1) (rev l)) a (fun l cs => l = flats cs) -> a = AOne (flats (rev cs)).
Proof.
  intros I [Ex U] C. pose proof (proj2 (sol_typed _ _ _ _ cs I) Ex) as Sc. destruct a as [f|ls|m]; cbn in C.
  - now destruct (C _ Sc).
  - destruct C as (c & Sc' & -> & _). rewrite <- (rev_involutive c) in Sc'.
    apply (sol_typed _ _ _ _ _ I) in Sc' as (rho & t & R & T). rewrite <- (U _ _ _ R T), rev_involutive. reflexivity.
  - destruct C as (_ & c & c' & Sc1 & Sc2 & N). destruct N.
    assert (X : forall c, solution fns sigma (t_heap s1) (rev l) c -> rev c = cs).
    { intros c0 H. rewrite <- (rev_involutive c0) in H. apply (sol_typed _ _ _ _ _ I) in H as (rho & t & R & T). eapply U; eauto. }
    rewrite <- (rev_involutive c), <- (rev_involutive c'), (X _ Sc1), (X _ Sc2). reflexivity.
Qed.

(* ---- one round ---- *)
Lemma next_ok fuel e p l s1 s2 cs : inv e p l s1 -> only e cs -> same ar s1 s2 ->
  exists e1 cs1, plugs_e e cs e1 cs1 /\ plug fns (length (flats (rev cs))) e (flats (rev cs)) = Some (e1, [])
  /\ only e1 cs1 /\ (forall rho t, typed rho none e1 t cs1 <-> typed rho none e t cs)
  /\ match infer_o fuel gheap fns e1 [] [] s2 with
     | ROk (p2, _, todo) s3 => exists l2, todo = rev l2 /\ inv e1 p2 l2 s3
     | RFail _ | RCrash => False
     | RStuck => True
     end.
Proof.
  intros I [(rho & t & R & T) U] Sm.
  destruct (typed_plugs fns sigma e rho none t cs T) as (e1 & cs1 & PE). exists e1, cs1. split; [assumption|].
  assert (TY := plugs_e_typed fns sigma GEN _ _ _ _ PE). split.
  { pose proof (plugs_e_plug fns _ _ _ _ PE (length (flats (rev cs))) [] (le_n _)) as H. now rewrite app_nil_r in H. }
  assert (UN : forall rho t cs', reading h0 rho -> typed rho none e1 t cs' -> cs' = cs1).
  { intros rho' t' cs' R' T'. destruct (plugs_e_lift fns sigma _ _ _ _ PE _ _ _ _ T') as (cs2 & PE2).
    assert (cs2 = cs) as -> by exact (U _ _ _ R' (proj1 (plugs_e_typed fns sigma GEN _ _ _ _ PE2 rho' none t') T')).
    destruct (plugs_e_det fns _ _ _ _ PE _ _ PE2) as [_ ->]. reflexivity. }
  split. { split; [|exact UN]. exists rho, t. split; [assumption|]. now apply TY. }
  split. { intros; apply TY. }
  assert (Wf1 : wf_o fns n [] e1) by (eapply plugs_e_wf; eauto; apply I).
  assert (L2 := same_len ar _ _ Sm). assert (Ln := i_len _ _ _ _ I).
  assert (FW : forall rho t cs', reading h0 rho -> typed rho none e1 t cs' -> exists y us, reading (t_heap s2) y
    /\ agree n rho y /\ has_uses y none e1 t us /\ resolves_all us cs').
  { intros rho' t' cs' R' T'. destruct (plugs_e_lift fns sigma _ _ _ _ PE _ _ _ _ T') as (cs2 & PE2).
    assert (T2 : typed rho' none e t' cs2) by exact (proj1 (plugs_e_typed fns sigma GEN _ _ _ _ PE2 rho' none t') T').
    destruct (i_forth _ _ _ _ I _ _ _ R' T2) as (y & Ry & A & _).
    destruct (same_reading ar _ _ _ (i_ok _ _ _ _ I) Sm Ry) as (z & Rz & A2).
    destruct T' as (us & HU & HR). exists z, us. split; [assumption|].
    assert (A3 : agree n rho' z) by (intros q Lq; rewrite A2 by lia; now apply A).
    split; [assumption|]. split; [|assumption]. eapply has_uses_agree; eauto. }
  pose proof (infer_at fuel e1 s2 n (proj1 Sm) ltac:(lia) Wf1) as IA.
  destruct (infer_o fuel gheap fns e1 [] [] s2) as [[[p2 tb] todo] s3|s3| |]; auto.
  - destruct IA as (l2 & -> & O3 & X3 & N3 & Lp & L3 & Oc & B & F). exists l2. split; [reflexivity|].
    constructor; auto.
    + apply N3, Sm.
    + eapply ext_trans; [apply I|]. eapply ext_trans; [apply (same_ext ar); exact Sm|assumption].
    + lia.
    + intros x Rx. destruct (B x Rx) as [Rx2 HU]. split; [|assumption].
      apply (i_back _ _ _ _ I). eapply same_back; eauto.
    + intros rho' t' cs' R' T'. destruct (FW _ _ _ R' T') as (y & us & Ry & A & HU & HR).
      destruct (F y t' us Ry HU) as (z & Rz & A2 & Ez & El). exists z. split; [assumption|].
      split; [intros q Lq; rewrite A2 by lia; now apply A|]. split; [assumption|]. now rewrite El.
  - destruct IA as [_ X]. assert (T1 : typed rho none e1 t cs1) by now apply TY.
    destruct (FW _ _ _ R T1) as (y & us & Ry & _ & HU & _). exact (X _ _ _ Ry HU).
Qed.

(* ---- all rounds ---- *)
Definition done (e : expr) (cs : list choice) (r : result) (s' : tstate) : Prop :=
  exists e' p', r = Typed e' [] p' /\ inv e' p' [] s' /\ nover fns e' = 0 /\ fulls e cs e'
    /\ forall rho t, reading h0 rho -> (typed rho none e' t [] <-> typed rho none e t cs).

Lemma typed_nil e1 cs1 p2 s3 : inv e1 p2 [] s3 -> only e1 cs1 -> cs1 = [] /\ nover fns e1 = 0.
Proof.
  intros I [(rho & t & R & T) _]. destruct (i_forth _ _ _ _ I _ _ _ R T) as (y & _ & _ & _ & Rs).
  inversion Rs; subst. split; [reflexivity|]. symmetry. exact (typed_len fns sigma _ _ _ _ _ T).
Qed.
Lemma rounds_only fuel k : forall e p l s1 cs r s', inv e p l s1 -> only e cs ->
  rounds fuel gheap fns veq depth k e p (rev l) s1 = Some (r, s') -> (r = TooDeep /\ t_ctx s' <> []) \/ done e cs r s'.
Proof.
  induction k as [|k IH]; intros e p l s1 cs r s' I U E; [discriminate|]. cbn [rounds] in E.
  pose proof (nbr_solutions ar BA gheap sigma GS GR GV fns GT fuel veq depth (rev l) s1 (i_ok _ _ _ _ I) (i_nv _ _ _ _ I)) as NB.
  assert (OR : occs_ok fns (length (t_heap s1)) (rev l)) by (intros o Io; apply (i_occs _ _ _ _ I), in_rev, Io).
  specialize (NB OR).
  destruct (nbr_succ fuel gheap fns veq depth (rev l) s1) as [a s2|s2| |]; try discriminate.
  2: { injection E as <- <-. left. split; [reflexivity|apply NB]. }
  destruct NB as [Sm C]. apply (only_not _ _ _ _ cs _ I U) in C. subst a.
  destruct (next_ok fuel _ _ _ _ _ _ I U Sm) as (e1 & cs1 & PE & EP & U1 & TY & IN). rewrite EP in E.
  destruct (infer_o fuel gheap fns e1 [] [] s2) as [[[p2 tb] todo] s3|s3| |]; try discriminate; [|destruct IN].
  destruct IN as (l2 & -> & I2).
  assert (D : (r = TooDeep /\ t_ctx s' <> []) \/ done e1 cs1 r s').
  { destruct (rev l2) as [|o todo] eqn:EL.
    - injection E as <- <-. right. assert (l2 = []) as -> by (rewrite <- (rev_involutive l2), EL; reflexivity).
      destruct (typed_nil _ _ _ _ I2 U1) as [-> N]. exists e1, p2. split; [reflexivity|]. split; [assumption|].
      split; [assumption|]. split; [now apply fulls_none|]. tauto.
    - rewrite <- EL in E. eapply IH; eauto. }
  destruct D as [D|(e' & p' & -> & I' & N & F & T)]; [now left|]. right. exists e', p'.
  split; [reflexivity|]. split; [assumption|]. split; [assumption|].
  split; [eapply plugs_e_full; eauto|]. intros rho t R. rewrite T by assumption. apply TY.
Qed.
End Rounds.
