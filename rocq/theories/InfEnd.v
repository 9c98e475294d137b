(* build_node_type_struct always answers, and TypeCheck with it. *)
From Coq Require Import String List Bool Arith Lia.
From Verif Require Import TyModel TyThms InfModel InfSpec InfThms InfRun InfTop.
Import ListNotations.
Open Scope list_scope.
Open Scope m_scope.

Definition settled {A} (o : nat -> res A) : Prop :=
  exists F a, a <> RStuck /\ forall f, F <= f -> o f = a.

Section End_.
Variable ar : con -> nat.
Hypothesis BA : base_arities ar.
Variable gheap : heap.
Variable sigma : rd.
Hypothesis GS : store ar gheap.
Hypothesis GR : reading gheap sigma.
Hypothesis GV : forall p, nth_error gheap p = Some NVar -> sigma p = Nd (LVar p) [].

Lemma settled_bind {A B} (m : nat -> M A) (k : nat -> A -> M B) s (Q : A -> tstate -> option rd -> Prop) :
  (forall f, wp ar s (m f s) None Q) -> settled (fun f => m f s) ->
  (forall a s1, pre ar s1 None -> length (t_heap s) <= length (t_heap s1) -> Q a s1 None ->
     settled (fun f => k f a s1)) ->
  settled (fun f => bind (m f) (k f) s).
Proof.
  intros W (F & o & No & E) K. unfold bind. destruct o as [a s1|s1| |]; [| | |congruence].
  - specialize (W F). rewrite (E F (le_n _)) in W. destruct W as (r1 & S & q).
    assert (r1 = None) by (destruct S as (_ & _ & _ & _ & T); exact T). subst r1.
    destruct (K a s1 (step_pre _ _ _ _ _ S) (step_len _ _ _ _ _ S) q) as (F2 & o & No2 & E2).
    exists (Nat.max F F2), o. split; [assumption|]. intros f L. rewrite E by lia. apply E2. lia.
  - exists F, (RFail s1). split; [discriminate|]. intros f L. now rewrite E.
  - exists F, RCrash. split; [discriminate|]. intros f L. now rewrite E.
Qed.
Lemma settled_const {A} (a : res A) : a <> RStuck -> settled (fun _ => a).
Proof. intros N. exists 0, a. auto. Qed.
Lemma settled_ret {A} (a : A) s : settled (fun _ => ret a s).
Proof. apply settled_const. discriminate. Qed.
Lemma settled_new n s : settled (fun _ => new n s).
Proof. apply settled_const. discriminate. Qed.

Lemma settled_real s p : pre ar s None -> p < length (t_heap s) -> settled (fun f => real f p s).
Proof.
  intros [(IR & AC & _) _] L. destruct (get_real_total _ _ (AC p) IR L) as (F & q & E).
  exists F, (ROk q s). split; [discriminate|]. intros f Lf. unfold real.
  now rewrite (get_real_mono _ _ _ _ _ Lf E).
Qed.
Lemma settled_unif s p q : pre ar s None -> p < length (t_heap s) -> q < length (t_heap s) ->
  settled (fun f => unif f p q s).
Proof.
  intros [O _] Lp Lq. destruct (unify_stops_aux ar _ s p q O (le_n _) Lp Lq) as [F N].
  exists F, (unif F p q s). unfold unif. split; [destruct (unify F s p q); congruence|].
  intros f Lf. now rewrite (unify_mono _ _ _ _ _ _ Lf eq_refl N).
Qed.
Lemma settled_hint s h p : pre ar s None -> p < length (t_heap s) -> hint_in (length (t_heap s)) h ->
  settled (fun f => check_hint f h p s).
Proof.
  intros P Lp H. destruct h as [q|]; cbn in *; [now apply settled_unif|]. apply settled_ret.
Qed.
Lemma settled_fresh s p : p < length gheap -> settled (fun f => fresh_inst f gheap p s).
Proof.
  intros L. destruct (copy_total ar gheap GS p L) as (F & C). destruct (C [] (t_heap s)) as ([[q m] h] & E).
  exists F, (ROk q (set_heap s h)). split; [discriminate|]. intros f Lf. unfold fresh_inst, copy_type.
  now rewrite (copy_mono _ _ _ _ _ _ _ Lf E).
Qed.
Lemma settled_prim s p : settled (fun _ => get_prim_fun_type p s).
Proof.
  apply settled_const. unfold get_prim_fun_type. destruct (prim_type p); try discriminate.
  unfold on_heap. now destruct (build_prim t (t_heap s)).
Qed.
Lemma settled_make_arrow s a b : pre ar s None -> a < length (t_heap s) -> b < length (t_heap s) ->
  settled (fun f => make_arrow f a b s).
Proof.
  intros P La Lb. unfold make_arrow.
  eapply settled_bind; [intros f; now apply wp_real|now apply settled_real|].
  intros b' s1 _ _ (-> & _).
  eapply settled_bind; [intros f; now apply wp_real|now apply settled_real|].
  intros a' s1 _ _ (-> & _). apply settled_new.
Qed.
Lemma settled_make_list s a : pre ar s None -> a < length (t_heap s) ->
  settled (fun f => make_list f a s).
Proof.
  intros P La. unfold make_list.
  eapply settled_bind; [intros f; now apply wp_real|now apply settled_real|].
  intros a' s1 _ _ (-> & _). apply settled_new.
Qed.

Lemma settled_node {B} (k : nat -> option tnode -> M B) s p : pre ar s None ->
  settled (fun f => k f (nth_error (t_heap s) p) s) -> settled (fun f => bind (node p) (k f) s).
Proof. intros _ S. exact S. Qed.

Lemma settled_arg_result s h fn arg : pre ar s None -> fn < length (t_heap s) -> arg < length (t_heap s) ->
  hint_in (length (t_heap s)) h ->
  (exists n, nth_error (t_heap s) fn = Some n /\ forall a, n <> NInd a) ->
  (forall x, reading (t_heap s) x -> exists a b, x fn = arrow a b) ->
  settled (fun f => arg_and_result f h fn arg s).
Proof.
  intros P Lf La Hh RA V.
  destruct (arrow_node ar s fn (proj1 P) Lf RA V) as (u & v & N & Lu & Lv).
  unfold arg_and_result. apply settled_node; [assumption|]. rewrite N.
  eapply settled_bind; [intros f; apply wp_unif; try assumption; discriminate|now apply settled_unif|].
  intros _ s1 P1 L1 (_ & L1' & E1).
  eapply settled_bind; [intros f; apply wp_real; [assumption|lia]|apply settled_real; [assumption|lia]|].
  intros fn' s2 _ _ (-> & _ & Lf' & RA' & E2). apply settled_node; [assumption|].
  destruct (nth_error (t_heap s1) fn') as [n|] eqn:Nf; [|apply settled_const; discriminate].
  destruct n as [| |c [|u' [|v' l]]]; try (apply settled_const; discriminate).
  assert (Lv' : v' < length (t_heap s1)).
  { destruct P1 as [(IR & _) _]. eapply IR; eauto. cbn. auto. }
  assert (H1 : hint_in (length (t_heap s1)) h) by (eapply hint_mono; [|eassumption]; lia).
  eapply settled_bind; [intros f; apply wp_hint; try assumption; discriminate|now apply settled_hint|].
  intros _ s3 P3 L3 _. apply settled_real; [assumption|lia].
Qed.
Lemma settled_apply s h pl pr : pre ar s None -> pl < length (t_heap s) -> pr < length (t_heap s) ->
  hint_in (length (t_heap s)) h -> settled (fun f => apply_types f h pl pr s).
Proof.
  intros P Lf La Hh. unfold apply_types.
  eapply settled_bind; [intros f; apply wp_real; assumption|now apply settled_real|].
  intros fn s1 _ _ (-> & _ & Lfn & RA & Ef).
  eapply settled_bind; [intros f; apply wp_real; assumption|now apply settled_real|].
  intros arg s1 _ _ (-> & _ & Larg & _ & Ea).
  apply settled_node; [assumption|]. destruct RA as (n & N & NI). rewrite N.
  destruct n as [|q|c l].
  - eapply settled_bind; [intros f; apply (wp_new_var ar s None (Nd (LVar 0) []) P)|apply settled_new|].
    intros v s1 P1 L1 (-> & Lv & _).
    eapply settled_bind; [intros f; eapply wp_make_arrow; [assumption|assumption|lia|assumption]
                         |apply settled_make_arrow; [assumption|lia|assumption]|].
    intros ex s2 P2 L2 (Lex & Vex).
    eapply settled_bind; [intros f; apply wp_unif; [assumption|lia|assumption|discriminate]
                         |apply settled_unif; [assumption|lia|assumption]|].
    intros _ s3 P3 L3 (_ & L3' & E3).
    eapply settled_bind; [intros f; apply wp_real; [assumption|lia]|apply settled_real; [assumption|lia]|].
    intros fn' s4 _ _ (-> & _ & Lfn' & RA' & Ef').
    destruct (nth_error (t_heap s3) fn') as [n|] eqn:Nf.
    2: { destruct RA' as (n & ? & _). congruence. }
    assert (D : (exists u w, n = NCon CArrow [u; w]) \/ settled (fun f => arg_and_result f h fn' arg s3)).
    { destruct n as [| |c [|u l]].
      - right. exists 0, RCrash. split; [discriminate|]. intros f _. unfold arg_and_result, bind, node. now rewrite Nf.
      - right. exists 0, RCrash. split; [discriminate|]. intros f _. unfold arg_and_result, bind, node. now rewrite Nf.
      - right. exists 0, RCrash. split; [discriminate|]. intros f _. unfold arg_and_result, bind, node. now rewrite Nf.
      - right. unfold arg_and_result. apply settled_node; [assumption|]. rewrite Nf.
        assert (Lu : u < length (t_heap s3)).
        { destruct P3 as [(IR & _) _]. eapply IR; eauto. cbn. auto. }
        eapply settled_bind; [intros f; apply wp_unif; [assumption|lia|assumption|discriminate]
                             |apply settled_unif; [assumption|lia|assumption]|].
        intros _ s5 P5 L5 (_ & L5' & E5).
        eapply settled_bind; [intros f; apply wp_real; [assumption|lia]|apply settled_real; [assumption|lia]|].
        intros g s6 _ _ (-> & _ & Lg & RAg & Eg). apply settled_node; [assumption|].
        destruct (nth_error (t_heap s5) g) as [n|] eqn:Ng; [|apply settled_const; discriminate].
        destruct n as [| |c' [|u' [|v' l']]]; try (apply settled_const; discriminate).
        assert (Lv' : v' < length (t_heap s5)).
        { destruct P5 as [(IR & _) _]. eapply IR; eauto. cbn. auto. }
        assert (H1 : hint_in (length (t_heap s5)) h) by (eapply hint_mono; [|eassumption]; lia).
        eapply settled_bind; [intros f; apply wp_hint; try assumption; discriminate|now apply settled_hint|].
        intros _ s7 P7 L7 _. apply settled_real; [assumption|lia]. }
    destruct D as [(u & w & ->)|D]; [|exact D].
    apply settled_arg_result; try assumption; try lia.
    + eapply hint_mono; [|eassumption]. lia.
    + exists (NCon CArrow [u; w]). split; [assumption|discriminate].
    + intros x Rx. rewrite (Rx _ _ Nf). cbn. unfold arrow, tcon. eauto.
  - apply settled_const. discriminate.
  - destruct c; try (apply settled_const; discriminate).
    assert (Hk : exists u v, l = [u; v]).
    { destruct P as [(_ & _ & AR & _) _]. pose proof (AR _ _ _ N) as Ln. destruct BA as [E _].
      rewrite E in Ln. destruct l as [|u [|v [|]]]; try discriminate. eauto. }
    destruct Hk as (u & v & ->).
    apply settled_arg_result; try assumption.
    + eauto.
    + intros x Rx. rewrite (Rx _ _ N). cbn. unfold arrow, tcon. eauto.
Qed.

Lemma infer_settles n e : forall s tbl vars,
  pre ar s None -> n <= length (t_heap s) -> wf_expr n (length gheap) vars e ->
  tbl_ok (length (t_heap s)) tbl -> (forall x, In x vars -> find_hash tbl x <> None) ->
  settled (fun f => infer f gheap e tbl s).
Proof.
  assert (HM : forall n m h, n <= m -> hint_in n h -> hint_in m h) by (intros; eapply hint_mono; eauto).
  set (d := Nd (LVar 0) []).
  induction e as [h l|h p|h v|h f|h|h e1 IH1 e2 IH2|h e1 IH1 e2 IH2|h v e IH];
    intros s tbl vars P Ln Wf TB VT; cbn [InfModel.infer].
  - eapply settled_bind; [intros _; apply (wp_new_con ar s None (lit_con l) [] P)|apply settled_new|].
    { destruct BA as (_&_&_&_&?&?&?&?&_). destruct l; cbn; congruence. }
    { intros x []. }
    intros p s1 P1 L1 (Lp & _). assert (H1 : hint_in (length (t_heap s1)) h) by (eapply HM; [|exact Wf]; lia).
    eapply settled_bind; [intros f; apply wp_hint; try assumption; discriminate|now apply settled_hint|].
    intros. apply settled_ret.
  - destruct Wf as [Wh NC].
    eapply settled_bind; [intros _; apply (wp_prim ar BA s None p (fun _ => d) P NC); discriminate|apply settled_prim|].
    intros q s1 P1 L1 (Lq & _). assert (H1 : hint_in (length (t_heap s1)) h) by (eapply HM; [|exact Wh]; lia).
    eapply settled_bind; [intros f; apply wp_hint; try assumption; discriminate|now apply settled_hint|].
    intros. apply settled_ret.
  - destruct Wf as [Wh Iv]. destruct (find_hash tbl v) as [q|] eqn:Fv; [|apply settled_const; discriminate].
    assert (Lq : q < length (t_heap s)) by now apply (proj2 TB) in Fv.
    assert (H1 : hint_in (length (t_heap s)) h) by (eapply HM; [|exact Wh]; lia).
    eapply settled_bind; [intros f; apply wp_hint; try assumption; discriminate|now apply settled_hint|].
    intros. apply settled_ret.
  - destruct Wf as [Wh Lf].
    eapply settled_bind; [intros g; apply (wp_fresh ar g gheap sigma GS GR GV s None f (fun _ => d) P Lf)
                         |now apply settled_fresh|].
    intros q s1 P1 L1 (Lq & _). assert (H1 : hint_in (length (t_heap s1)) h) by (eapply HM; [|exact Wh]; lia).
    eapply settled_bind; [intros g; apply wp_hint; try assumption; discriminate|now apply settled_hint|].
    intros _ s2 P2 L2 (_ & L2' & _).
    eapply settled_bind; [intros g; apply wp_real; [assumption|lia]|apply settled_real; [assumption|lia]|].
    intros. apply settled_ret.
  - eapply settled_bind; [intros _; apply (wp_new_var ar s None d P)|apply settled_new|].
    intros v s1 P1 L1 (-> & Lv & _).
    eapply settled_bind; [intros f; apply wp_make_list; assumption|now apply settled_make_list|].
    intros q s2 P2 L2 (Lq & _). assert (H1 : hint_in (length (t_heap s2)) h) by (eapply HM; [|exact Wf]; lia).
    eapply settled_bind; [intros f; apply wp_hint; try assumption; discriminate|now apply settled_hint|].
    intros. apply settled_ret.
  - destruct Wf as (Wh & Wf1 & Wf2).
    eapply settled_bind.
    { intros f. apply (infer_spec ar BA gheap sigma GS GR GV f n e1 s None tbl vars d); try assumption. discriminate. }
    { eapply IH1; eauto. }
    intros [p1 tbl1] s1 P1 L1 (Lp1 & TB1 & TE1 & _). cbn [fst snd] in *.
    assert (VT1 : forall x, In x vars -> find_hash tbl1 x <> None) by (intros x I; rewrite TE1; auto).
    eapply settled_bind.
    { intros f. apply (infer_spec ar BA gheap sigma GS GR GV f n e2 s1 None tbl1 vars d); try assumption; [lia|discriminate]. }
    { eapply IH2; eauto. lia. }
    intros [p2 tbl2] s2 P2 L2 (Lp2 & TB2 & TE2 & _). cbn [fst snd] in *.
    eapply settled_bind; [intros f; apply wp_make_list; [assumption|assumption|]|apply settled_make_list; [assumption|]|]; [lia|lia|].
    intros pot s3 P3 L3 (Lpot & _).
    eapply settled_bind; [intros f; apply wp_unif; [assumption|lia|assumption|discriminate]
                         |apply settled_unif; [assumption|lia|assumption]|].
    intros _ s4 P4 L4 (_ & L4' & _).
    eapply settled_bind; [intros f; apply wp_real; [assumption|lia]|apply settled_real; [assumption|lia]|].
    intros q s5 _ _ (-> & _ & Lq & _).
    assert (H1 : hint_in (length (t_heap s4)) h) by (eapply HM; [|exact Wh]; lia).
    eapply settled_bind; [intros f; apply wp_hint; try assumption; discriminate|now apply settled_hint|].
    intros _ s5 P5 L5 (_ & L5' & _).
    eapply settled_bind; [intros f; apply wp_real; [assumption|lia]|apply settled_real; [assumption|lia]|].
    intros. apply settled_ret.
  - destruct Wf as (Wh & Wf1 & Wf2).
    eapply settled_bind.
    { intros f. apply (infer_spec ar BA gheap sigma GS GR GV f n e1 s None tbl vars d); try assumption. discriminate. }
    { eapply IH1; eauto. }
    intros [p1 tbl1] s1 P1 L1 (Lp1 & TB1 & TE1 & _). cbn [fst snd] in *.
    assert (VT1 : forall x, In x vars -> find_hash tbl1 x <> None) by (intros x I; rewrite TE1; auto).
    eapply settled_bind.
    { intros f. apply (infer_spec ar BA gheap sigma GS GR GV f n e2 s1 None tbl1 vars d); try assumption; [lia|discriminate]. }
    { eapply IH2; eauto. lia. }
    intros [p2 tbl2] s2 P2 L2 (Lp2 & TB2 & TE2 & _). cbn [fst snd] in *.
    assert (H1 : hint_in (length (t_heap s2)) h) by (eapply HM; [|exact Wh]; lia).
    eapply settled_bind.
    { intros f. apply (wp_apply ar BA f s2 None h p1 p2 d P2); [lia|assumption|assumption|discriminate]. }
    { apply settled_apply; try assumption. lia. }
    intros. apply settled_ret.
  - destruct Wf as (Wh & Wf).
    set (old := find_hash tbl v) in *.
    set (tbl0 := match old with Some _ => delete_hash tbl v | None => tbl end).
    assert (T0 : forall x, find_hash tbl0 x = if String.eqb v x then None else find_hash tbl x).
    { intros x. unfold tbl0. destruct old eqn:O.
      - apply find_delete. apply TB.
      - destruct (String.eqb_spec v x) as [<-|]; [exact O|reflexivity]. }
    assert (K0 : tbl_ok (length (t_heap s)) tbl0).
    { unfold tbl0. destruct old; [now apply delete_ok|assumption]. }
    eapply settled_bind; [intros _; apply (wp_new_var ar s None d P)|apply settled_new|].
    intros pv s1 P1 L1 (-> & Lv & _). set (pv := length (t_heap s)) in *.
    assert (K1 : tbl_ok (length (t_heap s1)) ((v, pv) :: tbl0)).
    { apply add_ok; [eapply tbl_mono; [|exact K0]; lia| |assumption].
      rewrite T0. now rewrite String.eqb_refl. }
    assert (V1 : forall x, In x (v :: vars) -> find_hash ((v, pv) :: tbl0) x <> None).
    { intros x I. cbn. destruct (String.eqb_spec v x) as [->|Ne]; [discriminate|].
      rewrite T0. destruct (String.eqb_spec v x); [congruence|]. apply VT.
      destruct I as [->|I]; [congruence|assumption]. }
    eapply settled_bind.
    { intros f. apply (infer_spec ar BA gheap sigma GS GR GV f n e s1 None ((v, pv) :: tbl0) (v :: vars) d); try assumption; [lia|discriminate]. }
    { eapply IH; eauto. lia. }
    intros [pb tblb] s2 P2 L2 (Lpb & TBb & TEb & _). cbn [fst snd] in *.
    eapply settled_bind; [intros f; eapply wp_make_arrow; [assumption|assumption|lia|assumption]
                         |apply settled_make_arrow; [assumption|lia|assumption]|].
    intros q s3 P3 L3 (Lq & _).
    destruct (find_hash tblb v); [|apply settled_const; discriminate].
    assert (H1 : hint_in (length (t_heap s3)) h) by (eapply HM; [|exact Wh]; lia).
    eapply settled_bind; [intros f; apply wp_hint; try assumption; discriminate|now apply settled_hint|].
    intros _ s4 P4 L4 (_ & L4' & _).
    eapply settled_bind; [intros f; apply wp_real; [assumption|lia]|apply settled_real; [assumption|lia]|].
    intros. apply settled_ret.
Qed.

(* ---- TypeCheck ---- *)
Lemma pre_push s : okst ar (push_ctx s) -> forall r : option rd,
  (forall x, r = Some x -> reading (t_heap s) x) -> pre ar (push_ctx s) r.
Proof. intros O r R. split; [assumption|exact R]. Qed.
Lemma store_push s : store ar (t_heap s) -> okst ar (push_ctx s).
Proof. intros (A & B & C). split; [exact A|]. split; [exact B|]. split; [exact C|discriminate]. Qed.

Lemma inst_reading h R f : reading h R -> reading h (fun p => inst f (R p)).
Proof.
  intros RR p n N. specialize (RR p n N). destruct n as [|a|c k]; cbn in *; [exact I|now rewrite RR|].
  rewrite RR. cbn. f_equal. now rewrite map_map.
Qed.
(* Every reading is an instance of the one that reads variables as themselves. *)
Lemma reading_types h R y : store ar h -> reading h R ->
  (forall p, nth_error h p = Some NVar -> R p = Nd (LVar p) []) -> reading h y ->
  forall p, p < length h -> y p = inst y (R p).
Proof.
  intros (IR & AC & _) RR RV Ry p. induction (AC p) as [p _ IH]. intros L.
  destruct (nth_error h p) as [n|] eqn:N; [|apply nth_error_None in N; lia].
  pose proof (RR _ _ N) as RN. pose proof (Ry _ _ N) as YN. destruct n as [|a|c k]; cbn in *.
  - now rewrite (RV _ N).
  - rewrite YN, RN. apply IH; [exists (NInd a); split; [assumption|now left]|eapply IR; eauto; now left].
  - rewrite YN, RN. cbn. f_equal. rewrite map_map. apply map_ext_in. intros a I.
    apply IH; [exists (NCon c k); split; [assumption|exact I]|eapply IR; eauto].
Qed.

Lemma pop_back s s1 : ext (push_ctx s) s1 -> exists s2, pop_ctx true s1 = Some s2
  /\ t_ctx s2 = t_ctx s /\ length (t_heap s) <= length (t_heap s2)
  /\ forall p, p < length (t_heap s) -> nth_error (t_heap s2) p = nth_error (t_heap s) p.
Proof.
  intros [L1 G1]. cbn in L1, G1. unfold pop_ctx. destruct (t_ctx s1) as [|d1 ctx1]; [tauto|].
  destruct G1 as [-> (e & -> & G)]. rewrite app_nil_r. eexists. split; [reflexivity|]. cbn.
  split; [reflexivity|]. split; [now rewrite restore_length|].
  intros p Lp. set (k := length (t_heap s)) in *. rewrite <- G. clear - Lp.
  generalize (restore e (t_heap s1)). revert p Lp. generalize k. clear k.
  induction k as [|n IH]; intros p Lp h; [lia|].
  destruct h as [|x h]; [reflexivity|]. destruct p as [|p]; cbn; [reflexivity|]. apply IH. lia.
Qed.

Definition none : ctx := fun _ => None.

Lemma infer_top fuel e s r t : store ar (t_heap s) -> wf_expr (length (t_heap s)) (length gheap) [] e ->
  (forall x, r = Some x -> reading (t_heap s) x /\ has_type sigma x none e t) ->
  wp ar (push_ctx s) (infer fuel gheap e [] (push_ctx s)) r (fun a s1 r1 => fst a < length (t_heap s1)
    /\ (forall x, reading (t_heap s1) x -> has_type sigma x none e (x (fst a)))
    /\ (forall x, r1 = Some x -> x (fst a) = t)).
Proof.
  intros S Wf W. eapply wp_conseq.
  - apply (infer_spec ar BA gheap sigma GS GR GV fuel (length (t_heap s)) e (push_ctx s) r [] [] t).
    + apply pre_push; [now apply store_push|]. intros x E. now apply W.
    + apply le_n.
    + exact Wf.
    + split; [constructor|discriminate].
    + intros x [].
    + intros x E. now apply W.
  - intros a s1 r1 _ (L & _ & _ & V & T). auto.
Qed.

Theorem check_answers e s : store ar (t_heap s) -> wf_expr (length (t_heap s)) (length gheap) [] e ->
  exists F a, forall f, F <= f -> type_check f gheap e s = Some a.
Proof.
  intros S Wf. set (d := Nd (LVar 0) []).
  destruct (infer_settles (length (t_heap s)) e (push_ctx s) [] []) as (F & o & No & E).
  { apply pre_push; [now apply store_push|discriminate]. }
  { apply le_n. }
  { exact Wf. }
  { split; [constructor|discriminate]. }
  { intros x []. }
  pose proof (infer_top F e s None d S Wf ltac:(discriminate)) as W. rewrite (E F (le_n _)) in W.
  destruct o as [[p tb] s1|s1| |]; [| |destruct W|congruence].
  - destruct W as (r1 & St & Lp & _). cbn in Lp.
    destruct (pop_back s s1) as (s2 & Ep & _); [apply St|].
    destruct (copy_total ar (t_heap s1) (okst_store _ _ (proj1 St)) p Lp) as (F2 & C).
    destruct (C [] gheap) as ([[q m] g] & EC).
    exists (Nat.max F F2), (Some q, g, s2). intros f L. unfold type_check. rewrite E by lia.
    unfold copy_type. rewrite (copy_mono _ F2 f _ _ _ _ ltac:(lia) EC). now rewrite Ep.
  - destruct W as (Ex & _). destruct (pop_back s s1 Ex) as (s2 & Ep & _).
    exists F, (None, gheap, s2). intros f L. unfold type_check. rewrite E by lia. now rewrite Ep.
Qed.

Theorem check_principal e s fuel q g s2 : store ar (t_heap s) ->
  wf_expr (length (t_heap s)) (length gheap) [] e ->
  type_check fuel gheap e s = Some (Some q, g, s2) ->
  store ar g /\ (exists t, g = gheap ++ t) /\ q < length g
  /\ forall S, reading g S -> (forall p, nth_error g p = Some NVar -> S p = Nd (LVar p) []) ->
     forall t, (exists f, t = inst f (S q))
       <-> (exists rho, reading (t_heap s) rho /\ has_type sigma rho none e t).
Proof.
  intros S Wf E. unfold type_check in E.
  destruct (infer fuel gheap e [] (push_ctx s)) as [[p tb] s1|s1| |] eqn:EI; try discriminate.
  2: { destruct (pop_ctx true s1); discriminate. }
  destruct (copy_type fuel (t_heap s1) p gheap) as [[q0 g0]|] eqn:EC; [|discriminate].
  destruct (pop_ctx true s1); [|discriminate]. injection E as -> -> ->.
  pose proof (fun r t => infer_top fuel e s r t S Wf) as W. rewrite EI in W.
  destruct (W None (Nd (LVar 0) []) ltac:(discriminate)) as (r1 & St & Lp & V & _). cbn in Lp, V.
  assert (S1 := okst_store _ _ (proj1 St)).
  destruct (expand_reading _ (proj1 S1) (proj1 (proj2 S1))) as (D & _ & HD).
  destruct (HD (Datatypes.S D) ltac:(lia)) as [RD _]. set (R := expand (Datatypes.S D) (t_heap s1)) in *.
  assert (RV : forall p, nth_error (t_heap s1) p = Some NVar -> R p = Nd (LVar p) []).
  { intros x N. unfold R. cbn. now rewrite N. }
  destruct (copy_type_spec ar (t_heap s1) R RD RV S1 _ _ _ _ _ EC GS) as (Sg & T & Lq & B & Fq & Cq).
  split; [assumption|]. split; [assumption|]. split; [assumption|].
  intros S' RS SV t. split.
  - intros (f & ->). destruct (Fq S' RS) as (h & ->).
    exists (fun x => inst (fun v => inst f (h v)) (R x)).
    assert (RI : reading (t_heap s1) (fun x => inst (fun v => inst f (h v)) (R x))) by now apply inst_reading.
    split; [exact (step_back _ _ _ _ _ _ St RI)|]. rewrite inst_inst. now apply V.
  - intros (rho & Rr & HT).
    destruct (W (Some rho) t) as (r2 & St2 & _ & _ & Wp); [now intros x [= <-]|].
    destruct St2 as (_ & _ & _ & _ & T2). cbn in T2. destruct T2 as (y & -> & Ry & _).
    specialize (Wp y eq_refl). cbn in Wp.
    rewrite (reading_types _ _ _ S1 RD RV Ry p Lp) in Wp.
    destruct (Cq sigma y GR) as (z & Rz & _ & Ez).
    exists z. rewrite <- Wp, <- Ez. symmetry. symmetry. now apply reading_types with (h := g).
Qed.

Theorem check_rejects e s fuel g s2 : store ar (t_heap s) ->
  wf_expr (length (t_heap s)) (length gheap) [] e ->
  type_check fuel gheap e s = Some (None, g, s2) ->
  g = gheap /\ forall rho t, reading (t_heap s) rho -> ~ has_type sigma rho none e t.
Proof.
  intros S Wf E. unfold type_check in E.
  destruct (infer fuel gheap e [] (push_ctx s)) as [[p tb] s1|s1| |] eqn:EI; try discriminate.
  { destruct (copy_type fuel (t_heap s1) p gheap) as [[q0 g0]|], (pop_ctx true s1); discriminate. }
  destruct (pop_ctx true s1); [|discriminate]. injection E as <- _. split; [reflexivity|].
  intros rho ty Rr HT. pose proof (infer_top fuel e s (Some rho) ty S Wf) as W. rewrite EI in W.
  destruct W as [_ X]; [now intros x [= <-]|discriminate].
Qed.

Theorem check_restores e s fuel o g s2 : store ar (t_heap s) ->
  wf_expr (length (t_heap s)) (length gheap) [] e ->
  type_check fuel gheap e s = Some (o, g, s2) ->
  t_ctx s2 = t_ctx s /\ length (t_heap s) <= length (t_heap s2)
  /\ forall p, p < length (t_heap s) -> nth_error (t_heap s2) p = nth_error (t_heap s) p.
Proof.
  intros S Wf E. unfold type_check in E.
  pose proof (infer_top fuel e s None (Nd (LVar 0) []) S Wf ltac:(discriminate)) as W.
  destruct (infer fuel gheap e [] (push_ctx s)) as [[p tb] s1|s1| |] eqn:EI; try discriminate.
  - destruct W as (r1 & St & _). destruct (pop_back s s1) as (s3 & Ep & H); [apply St|].
    rewrite Ep in E. destruct (copy_type fuel (t_heap s1) p gheap) as [[q0 g0]|]; [|discriminate].
    injection E as _ _ <-. assumption.
  - destruct W as (Ex & _). destruct (pop_back s s1 Ex) as (s3 & Ep & H). rewrite Ep in E.
    injection E as _ _ <-. assumption.
Qed.
End End_.
