(* build_node_type_struct with overloaded functions finds exactly the types and the uses that the
   rules give. *)
From Coq Require Import String List Bool Arith Lia.
From Verif Require Import TyModel TyThms InfModel InfSpec InfThms InfRun InfTop InfEnd
  OvModel OvSpec OvPath OvStore OvThms OvEnd OvCheck OvUse.
Import ListNotations.
Open Scope list_scope.

Section Inf.
Variable ar : con -> nat.
Hypothesis BA : base_arities ar.
Variable gheap : heap.
Variable sigma : rd.
Hypothesis GS : store ar gheap.
Hypothesis GR : reading gheap sigma.
Hypothesis GV : forall p, nth_error gheap p = Some NVar -> sigma p = Nd (LVar p) [].
Variable fns : list fn.
Hypothesis GT : good_table fns sigma gheap.

Lemma has_uses_agree n rho rho' e : agree n rho rho' -> forall vars G G' t us,
  wf_o fns n vars e -> (forall x, G' x = G x) ->
  has_uses fns sigma rho G e t us -> has_uses fns sigma rho' G' e t us.
Proof.
  intros A. induction e; cbn; intros vars G G' ty us W E T; inversion T; subst.
  - constructor. eapply hinted_agree; eauto.
  - econstructor; eauto. eapply hinted_agree; [apply W|eauto|eauto].
  - constructor; [now rewrite E|]. eapply hinted_agree; [apply W|eauto|eauto].
  - constructor; [assumption|]. eapply hinted_agree; [apply W|eauto|eauto].
  - constructor. eapply hinted_agree; [apply W|eauto|eauto].
  - destruct W as (W0 & W1 & W2). econstructor; eauto. eapply hinted_agree; eauto.
  - destruct W as (W0 & W1 & W2). econstructor; eauto. eapply hinted_agree; eauto.
  - destruct W as (W0 & W1). econstructor; eauto; [|eapply hinted_agree; eauto].
    apply (IHe (x :: vars) (bound x a G)); [assumption| |assumption]. intros y. unfold bound. now rewrite E.
Qed.
Lemma has_uses_back n rho e vars G G' t us : wf_o fns n vars e -> (forall x, G' x = G x) ->
  has_uses fns sigma rho G e t us -> has_uses fns sigma rho G' e t us.
Proof. intros W E. eapply has_uses_agree; eauto. intros x _. reflexivity. Qed.

Variable fuel : nat.

Lemma infer_o_spec n e : forall s r tbl vars todo t us,
  pre ar s r -> n <= length (t_heap s) -> wf_o fns n vars e ->
  tbl_ok (length (t_heap s)) tbl -> (forall x, In x vars -> find_hash tbl x <> None) ->
  (forall x, r = Some x -> has_uses fns sigma x (G_of x tbl) e t us) ->
  wp ar s (infer_o fuel gheap fns e tbl todo s) r (fun a s1 r1 => fst (fst a) < length (t_heap s1)
    /\ tbl_ok (length (t_heap s1)) (snd (fst a)) /\ (forall x, find_hash (snd (fst a)) x = find_hash tbl x)
    /\ exists l, snd a = rev l ++ todo /\ occs_ok fns (length (t_heap s1)) l
    /\ (forall x, reading (t_heap s1) x -> has_uses fns sigma x (G_of x tbl) e (x (fst (fst a))) (map (at_ x) l))
    /\ (forall x, r1 = Some x -> x (fst (fst a)) = t /\ map (at_ x) l = us)).
Proof.
  induction e as [h l|h p|h v|h f|h|h e1 IH1 e2 IH2|h e1 IH1 e2 IH2|h v e IH];
    intros s r tbl vars todo t us P Ln Wf TB VT W; cbn [infer_o].
  - (* literals *)
    assert (U : forall x, r = Some x -> us = []).
    { intros x E. specialize (W x E). now inversion W. }
    assert (Wt : forall x, r = Some x -> t = tcon (lit_type l) [] /\ hinted x h t).
    { intros x E. specialize (W x E). inversion W; subst. auto. }
    eapply wp_bind; [apply (wp_new_con ar s r (lit_con l) [] P)|].
    { destruct BA as (_&_&_&_&?&?&?&?&_). destruct l; cbn; congruence. }
    { intros x []. }
    intros p s1 r1 S1 (Lp & Vp). assert (P1 := step_pre _ _ _ _ _ S1). assert (L1 := step_len _ _ _ _ _ S1).
    assert (W1 : forall x, r1 = Some x -> x p = t /\ hinted x h t).
    { intros x E. destruct (step_track _ _ _ _ _ S1 x E) as (y & Ey & A & Rx). destruct (Wt y Ey) as [-> H].
      split; [rewrite (Vp x Rx); now destruct l|]. eapply hinted_agree; [eapply hint_mono; [|exact Wf]; eassumption|exact A|exact H]. }
    eapply wp_bind; [apply wp_hint; [assumption|assumption|eapply hint_mono; [|exact Wf]; lia|]|].
    { intros x E. destruct (W1 x E) as [-> ?]. assumption. }
    intros _ s2 r2 S2 (-> & L2 & E2). assert (P2 := step_pre _ _ _ _ _ S2).
    apply wp_ret; [assumption|]. repeat (intros _). cbn [fst snd].
    split; [lia|]. split; [eapply tbl_mono; [|eassumption]; lia|]. split; [reflexivity|]. exists []. split; [reflexivity|]. split; [intros o []|]. split.
    + intros x Rx. assert (E : x p = tcon (lit_type l) []).
      { rewrite Vp by (eapply step_back; eauto). now destruct l. }
      specialize (E2 x Rx). rewrite E in *. now constructor.
    + intros x E. split; [now apply W1|]. destruct (step_track _ _ _ _ _ S1 x E) as (y & Ey & _). symmetry. now apply (U y).
  - (* primitives *)
    destruct Wf as [Wh NC].
    assert (U : forall x, r = Some x -> us = []).
    { intros x E. specialize (W x E). now inversion W. }
    assert (F : exists f, forall x, r = Some x -> exists t0, prim_type p = PType t0 /\ t = sinst f t0 /\ hinted x h t).
    { destruct r as [x|]; [|exists (fun _ => Nd (LVar 0) []); discriminate].
      specialize (W x eq_refl). inversion W; subst. eexists. intros y [= <-]. eauto. }
    destruct F as [f F].
    eapply wp_bind; [apply (wp_prim ar BA s r p f P NC)|].
    { intros x E. destruct (F x E) as (t0 & ? & _). eauto. }
    intros q s1 r1 S1 (Lq & t0 & Et & Vq & Wq). assert (P1 := step_pre _ _ _ _ _ S1). assert (L1 := step_len _ _ _ _ _ S1).
    assert (W1 : forall x, r1 = Some x -> x q = t /\ hinted x h t).
    { intros x E. destruct (step_track _ _ _ _ _ S1 x E) as (y & Ey & A & Rx).
      destruct (F y Ey) as (t1 & Et1 & -> & H). rewrite Et in Et1. injection Et1 as <-.
      split; [auto|]. eapply hinted_agree; [eapply hint_mono; [|exact Wh]; eassumption|exact A|exact H]. }
    eapply wp_bind; [apply wp_hint; [assumption|assumption|eapply hint_mono; [|exact Wh]; lia|]|].
    { intros x E. destruct (W1 x E) as [-> ?]. assumption. }
    intros _ s2 r2 S2 (-> & L2 & E2). assert (P2 := step_pre _ _ _ _ _ S2).
    apply wp_ret; [assumption|]. repeat (intros _). cbn [fst snd].
    split; [lia|]. split; [eapply tbl_mono; [|eassumption]; lia|]. split; [reflexivity|]. exists []. split; [reflexivity|]. split; [intros o []|]. split.
    + intros x Rx. destruct (Vq x) as [g E]; [eapply step_back; eauto|].
      specialize (E2 x Rx). rewrite E in *. econstructor; eauto.
    + intros x E. split; [now apply W1|]. destruct (step_track _ _ _ _ _ S1 x E) as (y & Ey & _). symmetry. now apply (U y).
  - (* variables *)
    destruct Wf as [Wh Iv]. specialize (VT _ Iv).
    assert (U : forall x, r = Some x -> us = []).
    { intros x E. specialize (W x E). now inversion W. }
    destruct (find_hash tbl v) as [q|] eqn:Fv; [|congruence].
    assert (Lq : q < length (t_heap s)) by now apply (proj2 TB) in Fv.
    assert (W1 : forall x, r = Some x -> x q = t /\ hinted x h t).
    { intros x E. specialize (W x E). inversion W as [| |? ? ? ? E1 H1| | | | |]; subst.
      unfold G_of in E1. rewrite Fv in E1. injection E1 as <-. auto. }
    eapply wp_bind; [apply wp_hint; [assumption|assumption|eapply hint_mono; [|exact Wh]; lia|]|].
    { intros x E. destruct (W1 x E) as [-> ?]. assumption. }
    intros _ s2 r2 S2 (-> & L2 & E2). assert (P2 := step_pre _ _ _ _ _ S2).
    apply wp_ret; [assumption|]. repeat (intros _). cbn [fst snd].
    split; [lia|]. split; [eapply tbl_mono; [|eassumption]; lia|]. split; [reflexivity|]. exists []. split; [reflexivity|]. split; [intros o []|]. split.
    + intros x Rx. constructor; [|now apply E2]. unfold G_of. now rewrite Fv.
    + intros x E. split; [now apply W1|]. symmetry. now apply (U x).
  - (* defined functions *)
    destruct Wf as [Wh Nf]. destruct (nth_error fns f) as [F0|] eqn:EF; [|congruence].
    assert (OV : overloaded fns f = fn_over F0) by (unfold overloaded; now rewrite EF).
    assert (F : exists g, forall x, r = Some x -> t = inst g (sigma (fn_type F0)) /\ hinted x h t
      /\ us = if fn_over F0 then [(f, t)] else []).
    { destruct r as [x|]; [|exists (fun _ => Nd (LVar 0) []); discriminate].
      specialize (W x eq_refl). inversion W as [| | |? ? ? ? (F1 & v & E1 & E2) Hh| | | |]; subst.
      rewrite EF in E1. injection E1 as <-. exists v. intros y [= <-]. rewrite OV. auto. }
    destruct F as [g F].
    eapply wp_bind; [apply (wp_fresh ar fuel gheap sigma GS GR GV s r (fn_type F0) g P); eapply GT; eauto|].
    intros q s1 r1 S1 (Lq & Vq & Wq). assert (P1 := step_pre _ _ _ _ _ S1). assert (L1 := step_len _ _ _ _ _ S1).
    assert (W1 : forall x, r1 = Some x -> x q = t /\ hinted x h t /\ us = if fn_over F0 then [(f, t)] else []).
    { intros x E. destruct (step_track _ _ _ _ _ S1 x E) as (y & Ey & A & Rx).
      destruct (F y Ey) as (-> & H & U). split; [auto|]. split; [|assumption].
      eapply hinted_agree; [eapply hint_mono; [|exact Wh]; eassumption|exact A|exact H]. }
    eapply wp_bind; [apply wp_hint; [assumption|assumption|eapply hint_mono; [|exact Wh]; lia|]|].
    { intros x E. destruct (W1 x E) as (-> & ? & _). assumption. }
    intros _ s2 r2 S2 (-> & L2 & E2). assert (P2 := step_pre _ _ _ _ _ S2).
    eapply wp_bind; [apply wp_real; [assumption|lia]|]. intros q' s3 r3 S3 (-> & -> & Lq' & _ & Eq').
    apply wp_ret; [assumption|]. repeat (intros _). cbn [fst snd].
    split; [lia|]. split; [eapply tbl_mono; [|eassumption]; lia|]. split; [reflexivity|].
    exists (if fn_over F0 then [(f, q')] else []). split; [now destruct (fn_over F0)|]. split; [|split].
    + intros o. destruct (fn_over F0); [|intros []]. intros [<-|[]]. cbn. split; [assumption|congruence].
    + intros x Rx. destruct (Vq x) as [g' E]; [eapply step_back; eauto|].
      specialize (E2 x Rx). rewrite <- (Eq' x Rx) in *.
      assert (FT : fun_type fns sigma f (x q')) by (exists F0, g'; auto).
      pose proof (V_glob fns sigma x (G_of x tbl) h f (x q') FT E2) as H. rewrite OV in H.
      destruct (fn_over F0); exact H.
    + intros x E. assert (Z : x q' = t).
      { rewrite (Eq' x (proj2 P2 x E)). now apply W1. }
      split; [assumption|]. destruct (W1 x E) as (_ & _ & ->). destruct (fn_over F0); [|reflexivity].
      unfold at_. cbn. now rewrite Z.
  - (* the empty list *)
    assert (U : forall x, r = Some x -> us = []).
    { intros x E. specialize (W x E). now inversion W. }
    assert (F : exists a, forall x, r = Some x -> t = tcon CList [a] /\ hinted x h t).
    { destruct r as [x|]; [|exists (Nd (LVar 0) []); discriminate].
      specialize (W x eq_refl). inversion W; subst. eexists. intros y [= <-]. eauto. }
    destruct F as [a F].
    eapply wp_bind; [apply (wp_new_var ar s r a P)|].
    intros v s1 r1 S1 (-> & Lv & Nv & Vv). assert (P1 := step_pre _ _ _ _ _ S1). assert (L1 := step_len _ _ _ _ _ S1).
    eapply wp_bind; [apply wp_make_list; assumption|].
    intros q s2 r2 S2 (Lq & Vq). assert (P2 := step_pre _ _ _ _ _ S2). assert (L2 := step_len _ _ _ _ _ S2).
    assert (S12 := step_trans _ _ _ _ _ _ _ S1 S2).
    assert (W1 : forall x, r2 = Some x -> x q = t /\ hinted x h t).
    { intros x E. destruct (step_track _ _ _ _ _ S12 x E) as (y & Ey & A & Rx).
      destruct (step_track _ _ _ _ _ S2 x E) as (z & Ez & Az & _).
      destruct (F y Ey) as [-> H]. split.
      - rewrite (Vq x Rx), Az by assumption. now rewrite (Vv z Ez).
      - eapply hinted_agree; [eapply hint_mono; [|exact Wf]; eassumption|exact A|exact H]. }
    eapply wp_bind; [apply wp_hint; [assumption|assumption|eapply hint_mono; [|exact Wf]; lia|]|].
    { intros x E. destruct (W1 x E) as [-> ?]. assumption. }
    intros _ s3 r3 S3 (-> & L3 & E3). assert (P3 := step_pre _ _ _ _ _ S3).
    apply wp_ret; [assumption|]. repeat (intros _). cbn [fst snd].
    split; [lia|]. split; [eapply tbl_mono; [|eassumption]; lia|]. split; [reflexivity|]. exists []. split; [reflexivity|]. split; [intros o []|]. split.
    + intros x Rx. assert (E := Vq x ltac:(eapply step_back; eauto)).
      specialize (E3 x Rx). rewrite E in *. now constructor.
    + intros x E. split; [now apply W1|]. destruct (step_track _ _ _ _ _ S12 x E) as (y & Ey & _). symmetry. now apply (U y).
  - (* cons *)
    destruct Wf as (Wh & Wf1 & Wf2).
    assert (F : exists a u1 u2, forall x, r = Some x -> t = tcon CList [a]
      /\ has_uses fns sigma x (G_of x tbl) e1 a u1 /\ has_uses fns sigma x (G_of x tbl) e2 t u2 /\ hinted x h t
      /\ us = u1 ++ u2).
    { destruct r as [x|]; [|exists (Nd (LVar 0) []), [], []; discriminate].
      specialize (W x eq_refl). inversion W; subst. eexists _, _, _. intros y [= <-]. eauto 6. }
    destruct F as (a & u1 & u2 & F).
    eapply wp_bind.
    { apply (IH1 s r tbl vars todo a u1 P Ln Wf1 TB VT). intros x E. now apply F. }
    intros [[p1 tbl1] todo1] s1 r1 S1 (Lp1 & TB1 & TE1 & l1 & -> & OC1 & Vp1 & Wp1). cbn [fst snd] in *.
    assert (P1 := step_pre _ _ _ _ _ S1). assert (L1 := step_len _ _ _ _ _ S1).
    eapply wp_bind.
    { apply (IH2 s1 r1 tbl1 vars (rev l1 ++ todo) t u2 P1 ltac:(lia) Wf2 TB1).
      - intros x I. rewrite TE1. auto.
      - intros x E. destruct (step_track _ _ _ _ _ S1 x E) as (y & Ey & A & Rx).
        destruct (F y Ey) as (_ & _ & H & _ & _). eapply has_uses_agree; [|exact Wf2| |exact H].
        + intros z Lz. apply A. lia.
        + eapply G_agree; eauto. }
    intros [[p2 tbl2] todo2] s2 r2 S2 (Lp2 & TB2 & TE2 & l2 & -> & OC2 & Vp2 & Wp2). cbn [fst snd] in *.
    assert (P2 := step_pre _ _ _ _ _ S2). assert (L2 := step_len _ _ _ _ _ S2).
    assert (S12 := step_trans _ _ _ _ _ _ _ S1 S2).
    eapply wp_bind; [apply wp_make_list; [assumption|assumption|]|]. { lia. }
    intros pot s3 r3 S3 (Lpot & Vpot). assert (P3 := step_pre _ _ _ _ _ S3). assert (L3 := step_len _ _ _ _ _ S3).
    assert (S13 := step_trans _ _ _ _ _ _ _ S12 S3).
    assert (W3 : forall x, r3 = Some x -> x p1 = a /\ x p2 = t /\ t = tcon CList [a] /\ hinted x h t
      /\ map (at_ x) (l1 ++ l2) = us).
    { intros x E. destruct (step_track _ _ _ _ _ S3 x E) as (y & Ey & Ay & Rx).
      destruct (step_track _ _ _ _ _ S2 y Ey) as (z & Ez & Az & _).
      destruct (step_track _ _ _ _ _ S13 x E) as (w & Ew & Aw & _).
      destruct (F w Ew) as (Et & _ & _ & H & Us).
      split; [rewrite Ay by lia; rewrite Az by lia; now apply Wp1|].
      split; [rewrite Ay by lia; now apply Wp2|]. split; [assumption|]. split.
      - eapply hinted_agree; [eapply hint_mono; [|exact Wh]; eassumption|exact Aw|exact H].
      - rewrite Us, map_app. f_equal.
        + rewrite (at_agree fns _ z x l1 OC1); [now apply Wp1|].
          intros o Lo. rewrite Ay by lia. now apply Az.
        + rewrite (at_agree fns _ y x l2 OC2); [now apply Wp2|]. exact Ay. }
    eapply wp_bind; [apply wp_unif; [assumption|lia|assumption|]|].
    { intros x E. destruct (W3 x E) as (E1 & E2 & E3 & _ & _). rewrite (Vpot x (proj2 P3 x E)).
      now rewrite E1, E2, E3. }
    intros _ s4 r4 S4 (-> & L4 & E4). assert (P4 := step_pre _ _ _ _ _ S4).
    eapply wp_bind; [apply wp_real; [assumption|lia]|]. intros q s5 r5 S5 (-> & -> & Lq & _ & Eq).
    eapply wp_bind; [apply wp_hint; [assumption|assumption|eapply hint_mono; [|exact Wh]; lia|]|].
    { intros x E. rewrite Eq by now apply P4. destruct (W3 x E) as (_ & -> & _ & ? & _). assumption. }
    intros _ s5 r5 S6 (-> & L5 & E5). assert (P5 := step_pre _ _ _ _ _ S6).
    eapply wp_bind; [apply wp_real; [assumption|lia]|]. intros q' s6 r6 S7 (-> & -> & Lq' & _ & Eq').
    apply wp_ret; [assumption|]. repeat (intros _). cbn [fst snd].
    split; [assumption|]. split; [eapply tbl_mono; [|eassumption]; lia|].
    split; [intros x; now rewrite TE2, TE1|].
    exists (l1 ++ l2). split; [now rewrite rev_app_distr, app_assoc|]. split.
    { intros o I. apply in_app_iff in I as [I|I]; [apply OC1 in I|apply OC2 in I]; split; try apply I; lia. }
    split.
    + intros x Rx. rewrite (Eq' x Rx).
      assert (Rx4 : reading (t_heap s4) x) by (eapply step_back; eauto).
      assert (Rx3 : reading (t_heap s3) x) by (eapply step_back; eauto).
      assert (Rx2 : reading (t_heap s2) x) by (eapply step_back; eauto).
      assert (Rx1 : reading (t_heap s1) x) by (eapply step_back; eauto).
      specialize (E5 x Rx). rewrite (Eq x Rx4) in *. rewrite (E4 x Rx4), (Vpot x Rx3) in *.
      rewrite map_app. constructor; [now apply Vp1| |assumption].
      eapply has_uses_back; [exact Wf2|intros y; unfold G_of; now rewrite <- TE1|].
      assert (Z : x p2 = tcon CList [x p1]) by now rewrite (E4 x Rx4), (Vpot x Rx3).
      rewrite <- Z. now apply Vp2.
    + intros x E. split; [|now apply W3]. rewrite Eq' by now apply P5. rewrite Eq by now apply P4. now apply W3.
  - (* application *)
    destruct Wf as (Wh & Wf1 & Wf2).
    assert (F : exists a u1 u2, forall x, r = Some x ->
      has_uses fns sigma x (G_of x tbl) e1 (arrow a t) u1 /\ has_uses fns sigma x (G_of x tbl) e2 a u2 /\ hinted x h t
      /\ us = u1 ++ u2).
    { destruct r as [x|]; [|exists (Nd (LVar 0) []), [], []; discriminate].
      specialize (W x eq_refl). inversion W; subst. eexists _, _, _. intros y [= <-]. eauto 6. }
    destruct F as (a & u1 & u2 & F).
    eapply wp_bind.
    { apply (IH1 s r tbl vars todo (arrow a t) u1 P Ln Wf1 TB VT). intros x E. now apply F. }
    intros [[p1 tbl1] todo1] s1 r1 S1 (Lp1 & TB1 & TE1 & l1 & -> & OC1 & Vp1 & Wp1). cbn [fst snd] in *.
    assert (P1 := step_pre _ _ _ _ _ S1). assert (L1 := step_len _ _ _ _ _ S1).
    eapply wp_bind.
    { apply (IH2 s1 r1 tbl1 vars (rev l1 ++ todo) a u2 P1 ltac:(lia) Wf2 TB1).
      - intros x I. rewrite TE1. auto.
      - intros x E. destruct (step_track _ _ _ _ _ S1 x E) as (y & Ey & A & Rx).
        destruct (F y Ey) as (_ & H & _ & _). eapply has_uses_agree; [|exact Wf2| |exact H].
        + intros z Lz. apply A. lia.
        + eapply G_agree; eauto. }
    intros [[p2 tbl2] todo2] s2 r2 S2 (Lp2 & TB2 & TE2 & l2 & -> & OC2 & Vp2 & Wp2). cbn [fst snd] in *.
    assert (P2 := step_pre _ _ _ _ _ S2). assert (L2 := step_len _ _ _ _ _ S2).
    assert (S12 := step_trans _ _ _ _ _ _ _ S1 S2).
    eapply wp_bind; [apply (wp_apply ar BA fuel s2 r2 h p1 p2 t P2); [lia|assumption|eapply hint_mono; [|exact Wh]; lia|]|].
    { intros x E. destruct (step_track _ _ _ _ _ S2 x E) as (z & Ez & Az & _).
      destruct (step_track _ _ _ _ _ S12 x E) as (w & Ew & Aw & _).
      destruct (F w Ew) as (_ & _ & H & _). split.
      - rewrite Az by lia. rewrite (proj1 (Wp1 z Ez)), (proj1 (Wp2 x E)). reflexivity.
      - eapply hinted_agree; [eapply hint_mono; [|exact Wh]; eassumption|exact Aw|exact H]. }
    intros q s3 r3 S3 (Lq & Vq & Wq). assert (P3 := step_pre _ _ _ _ _ S3). assert (L3 := step_len _ _ _ _ _ S3).
    apply wp_ret; [assumption|]. repeat (intros _). cbn [fst snd].
    split; [assumption|]. split; [eapply tbl_mono; [|eassumption]; lia|].
    split; [intros x; now rewrite TE2, TE1|].
    exists (l1 ++ l2). split; [now rewrite rev_app_distr, app_assoc|]. split.
    { intros o I. apply in_app_iff in I as [I|I]; [apply OC1 in I|apply OC2 in I]; split; try apply I; lia. }
    split.
    2: { intros x E. split; [now apply Wq|].
      destruct (step_track _ _ _ _ _ S3 x E) as (y & Ey & Ay & _).
      destruct (step_track _ _ _ _ _ S2 y Ey) as (z & Ez & Az & _).
      destruct (step_track _ _ _ _ _ S1 z Ez) as (w & Ew & _).
      destruct (F w Ew) as (_ & _ & _ & ->). rewrite map_app. f_equal.
      - rewrite (at_agree fns _ z x l1 OC1); [now apply Wp1|].
        intros o Lo. rewrite Ay by lia. now apply Az.
      - rewrite (at_agree fns _ y x l2 OC2); [now apply Wp2|]. exact Ay. }
    intros x Rx. destruct (Vq x Rx) as [V1 V2].
    assert (Rx2 : reading (t_heap s2) x) by (eapply step_back; eauto).
    assert (Rx1 : reading (t_heap s1) x) by (eapply step_back; eauto).
    rewrite map_app. econstructor; [rewrite <- V1; now apply Vp1| |assumption].
    eapply has_uses_back; [exact Wf2|intros y; unfold G_of; now rewrite <- TE1|].
    now apply Vp2.
  - (* abstraction *)
    destruct Wf as (Wh & Wf).
    assert (F : exists a b, forall x, r = Some x -> t = arrow a b
      /\ has_uses fns sigma x (bound v a (G_of x tbl)) e b us /\ hinted x h t).
    { destruct r as [x|]; [|exists (Nd (LVar 0) []), (Nd (LVar 0) []); discriminate].
      specialize (W x eq_refl). inversion W; subst. eexists. eexists. intros y [= <-]. eauto. }
    destruct F as (a & b & F).
    set (old := find_hash tbl v) in *.
    set (tbl0 := match old with Some _ => delete_hash tbl v | None => tbl end).
    assert (T0 : forall x, find_hash tbl0 x = if String.eqb v x then None else find_hash tbl x).
    { intros x. unfold tbl0. destruct old eqn:O.
      - apply find_delete. apply TB.
      - destruct (String.eqb_spec v x) as [<-|]; [exact O|reflexivity]. }
    assert (K0 : tbl_ok (length (t_heap s)) tbl0).
    { unfold tbl0. destruct old; [now apply delete_ok|assumption]. }
    eapply wp_bind; [apply (wp_new_var ar s r a P)|].
    intros pv s1 r1 S1 (-> & Lv & Nv & Vv). assert (P1 := step_pre _ _ _ _ _ S1). assert (L1 := step_len _ _ _ _ _ S1).
    set (pv := length (t_heap s)) in *.
    assert (GE : forall x y tb, G_of x ((v, pv) :: tbl0) tb = bound v (x pv) (G_of x tbl) tb /\ y = y :> nat).
    { intros x y tb. split; [|reflexivity]. unfold G_of, bound. cbn. destruct (String.eqb_spec v tb) as [<-|Ne]; [reflexivity|].
      rewrite T0. destruct (String.eqb_spec v tb); [congruence|reflexivity]. }
    eapply wp_bind.
    { apply (IH s1 r1 ((v, pv) :: tbl0) (v :: vars) todo b us P1 ltac:(lia) Wf).
      - apply add_ok; [eapply tbl_mono; [|exact K0]; lia| |assumption].
        rewrite T0. now rewrite String.eqb_refl.
      - intros x I. cbn. destruct (String.eqb_spec v x) as [->|Ne]; [discriminate|].
        rewrite T0. destruct (String.eqb_spec v x); [congruence|]. apply VT.
        destruct I as [->|I]; [congruence|assumption].
      - intros x E. destruct (step_track _ _ _ _ _ S1 x E) as (y & Ey & A & Rx).
        destruct (F y Ey) as (_ & H & _). eapply has_uses_agree; [|exact Wf| |exact H].
        + intros z Lz. apply A. lia.
        + intros z. rewrite (proj1 (GE x 0 z)), (Vv x E). unfold bound.
          destruct (String.eqb v z); [reflexivity|]. eapply G_agree; [exact TB|exact A|reflexivity]. }
    intros [[pb tblb] todob] s2 r2 S2 (Lpb & TBb & TEb & lb & -> & OCb & Vpb & Wpb). cbn [fst snd] in *.
    assert (P2 := step_pre _ _ _ _ _ S2). assert (L2 := step_len _ _ _ _ _ S2).
    assert (S12 := step_trans _ _ _ _ _ _ _ S1 S2).
    eapply wp_bind; [eapply wp_make_arrow; [assumption|assumption| |assumption]|]. { lia. }
    intros q s3 r3 S3 (Lq & Vq). assert (P3 := step_pre _ _ _ _ _ S3). assert (L3 := step_len _ _ _ _ _ S3).
    assert (S13 := step_trans _ _ _ _ _ _ _ S12 S3).
    assert (Fv : find_hash tblb v = Some pv) by (rewrite TEb; cbn; now rewrite String.eqb_refl).
    rewrite Fv.
    assert (W3 : forall x, r3 = Some x -> x q = t /\ hinted x h t /\ map (at_ x) lb = us).
    { intros x E. destruct (step_track _ _ _ _ _ S3 x E) as (y & Ey & Ay & Rx).
      destruct (step_track _ _ _ _ _ S2 y Ey) as (z & Ez & Az & _).
      destruct (step_track _ _ _ _ _ S13 x E) as (w & Ew & Aw & _).
      destruct (F w Ew) as (Et & _ & H). split; [|split].
      - rewrite (Vq x Rx), Et. f_equal.
        + rewrite Ay by lia. rewrite Az by lia. auto.
        + rewrite Ay by lia. now apply Wpb.
      - eapply hinted_agree; [eapply hint_mono; [|exact Wh]; eassumption|exact Aw|exact H].
      - rewrite (at_agree fns _ y x lb OCb); [now apply Wpb|]. exact Ay. }
    eapply wp_bind; [apply wp_hint; [assumption|assumption|eapply hint_mono; [|exact Wh]; lia|]|].
    { intros x E. destruct (W3 x E) as (-> & ? & _). assumption. }
    intros _ s4 r4 S4 (-> & L4 & E4). assert (P4 := step_pre _ _ _ _ _ S4).
    eapply wp_bind; [apply wp_real; [assumption|lia]|]. intros q' s5 r5 S5 (-> & -> & Lq' & _ & Eq').
    apply wp_ret; [assumption|]. repeat (intros _). cbn [fst snd].
    assert (TD : forall x, find_hash (delete_hash tblb v) x = if String.eqb v x then None else find_hash tbl x).
    { intros x. rewrite find_delete by apply TBb. rewrite TEb. cbn.
      destruct (String.eqb_spec v x); [reflexivity|]. rewrite T0.
      destruct (String.eqb_spec v x); [congruence|reflexivity]. }
    assert (LT : length (t_heap s2) <= length (t_heap s4)) by lia.
    assert (TBd : tbl_ok (length (t_heap s4)) (delete_hash tblb v)).
    { apply delete_ok. eapply tbl_mono; [|exact TBb]. assumption. }
    split; [assumption|]. split; [|split; [|exists lb; split; [reflexivity|]; split; [|split]]].
    + destruct old as [q0|] eqn:O; [|assumption]. apply add_ok; [assumption| |].
      * rewrite TD. now rewrite String.eqb_refl.
      * apply (proj2 TB) in O. lia.
    + intros x. destruct old as [q0|] eqn:O; cbn.
      * destruct (String.eqb_spec v x) as [<-|Ne]; [now symmetry|]. rewrite TD.
        destruct (String.eqb_spec v x); [congruence|reflexivity].
      * rewrite TD. destruct (String.eqb_spec v x) as [<-|Ne]; [now symmetry|reflexivity].
    + intros o I. apply OCb in I. split; [lia|apply I].
    + intros x Rx. rewrite (Eq' x Rx). specialize (E4 x Rx).
      assert (Rx3 : reading (t_heap s3) x) by (eapply step_back; eauto).
      assert (Rx2 : reading (t_heap s2) x) by (eapply step_back; eauto).
      rewrite (Vq x Rx3) in *. constructor; [|assumption].
      eapply has_uses_back; [exact Wf| |apply Vpb; exact Rx2].
      intros y. symmetry. apply (proj1 (GE x 0 y)).
    + intros x E. rewrite Eq' by now apply P4. split; now apply W3.
Qed.
End Inf.
