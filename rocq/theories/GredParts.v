(** * The parts of the evaluator: formulas, [merge], [force], the spine *)

From Coq Require Import String List Bool Arith ZArith Lia.
From Verif Require Import GredModel GredSpec GredConf GredFail GredHeap.
Import ListNotations.
Open Scope list_scope.
Open Scope nat_scope.

(** ** Equality of formulas *)

Lemma sem_ext f s s' : (forall n, In n (fvars f) -> s n = s' n) -> sem s f = sem s' f.
Proof.
  induction f; cbn; intros H; auto.
  - rewrite IHf; auto.
  - rewrite IHf1, IHf2; auto; intros; apply H, in_or_app; auto.
  - rewrite IHf1, IHf2; auto; intros; apply H, in_or_app; auto.
  - rewrite IHf1, IHf2; auto; intros; apply H, in_or_app; auto.
Qed.

Lemma existsb_in n l : existsb (Nat.eqb n) l = true <-> In n l.
Proof.
  rewrite existsb_exists. split.
  - intros (x & I & E). apply Nat.eqb_eq in E. now subst.
  - intros I. exists n. split; [exact I|apply Nat.eqb_refl].
Qed.

Lemma all_assign_sem vs f s : forall on, all_assign vs on f = true ->
  exists on', (forall n, In n on' <-> In n on \/ (In n vs /\ s n = true)) /\
              sem (fun n => existsb (Nat.eqb n) on') f = true.
Proof.
  induction vs; cbn; intros on H.
  - exists on. split; [tauto|exact H].
  - apply andb_prop in H. destruct H as [H1 H2]. destruct (s a) eqn:E.
    + destruct (IHvs _ H1) as (on' & I & Q). exists on'. split; [|exact Q].
      intros n. rewrite I. cbn. split.
      * intros [[->|K]|[K K']]; auto.
      * intros [K|[[->|K] K']]; auto.
    + destruct (IHvs _ H2) as (on' & I & Q). exists on'. split; [|exact Q].
      intros n. rewrite I. split; [tauto|].
      intros [K|[[->|K] K']]; auto. congruence.
Qed.

Lemma feq_sem f g s : feq f g = true -> sem s f = sem s g.
Proof.
  unfold feq. intros H. destruct (all_assign_sem _ _ s _ H) as (on & I & Q).
  rewrite (sem_ext _ _ s) in Q.
  - cbn in Q. destruct (sem s f), (sem s g); auto; discriminate.
  - intros n K. cbn in K.
    assert (L : In n (nodup Nat.eq_dec (fvars f ++ fvars g))).
    { apply nodup_In. exact K. }
    destruct (s n) eqn:E.
    + apply existsb_in, I. right. auto.
    + apply not_true_is_false. intros C. apply existsb_in, I in C.
      destruct C as [C|[_ C]]; [contradiction|congruence].
Qed.

Section Parts.
Variable s : nat -> bool.
Notation tree := (tree s).
Notation good := (good s).
Notation run := (run s).
Notation tnode := (tnode s).

(** ** merge *)

Lemma plain_not_none h a t : tree h a t -> plain t = true -> is_none h a = false.
Proof.
  intros T P. unfold is_none. destruct (get h a) as [[]|] eqn:G; auto.
  apply (tree_node _ _ _ _ _ G) in T. cbn in T. subst. cbn in P.
  now destruct (String.eqb s0 s_NONE).
Qed.

Lemma is_fail_tree h a t : tree h a t ->
  (is_fail h a = true -> exists m, t = TFail m) /\
  (is_fail h a = false -> forall m, t <> TFail m).
Proof.
  intros T. unfold is_fail. destruct T; rewrite H; split; try discriminate; eauto.
Qed.

Definition merged (b : form) (tl tr tx : tm) : Prop :=
  (exists m, tx = TFail m) \/ tx = if sem s b then tl else tr.

Definition merge_res (R : addr -> Prop) (b : form) (h : heap) (tl tr : tm)
    (h' : heap) (x : addr) : Prop :=
  run R h h' /\ (forall y t, tree h y t -> tree h' y t) /\ ext R h h' x /\
  exists tx, tree h' x tx /\ merged b tl tr tx.

Lemma ret_new_ok R b h n tl tr tn h' x :
  good h R -> tnode h n tn -> plain tn = true -> (forall y, child n y -> R y) ->
  merged b tl tr tn -> ret_new h n = Ret h' x -> merge_res R b h tl tr h' x.
Proof.
  intros G T P C M E. unfold ret_new, alloc in E. injection E as <- <-.
  destruct (run_alloc s R h n tn G T P C) as (A & B & D & F).
  unfold merge_res. eauto 6.
Qed.

Lemma here_ok R b h tl tr x t :
  good h R -> R x -> tree h x t -> merged b tl tr t -> merge_res R b h tl tr h x.
Proof.
  intros G X T M. unfold merge_res. split; [now apply run_refl|].
  split; [auto|]. split; [now left|eauto].
Qed.

Lemma ite_pair b (a1 a2 b1 b2 : tm) (k : tm -> tm -> tm) :
  (if sem s b then k a1 a2 else k b1 b2) =
  k (if sem s b then a1 else b1) (if sem s b then a2 else b2).
Proof. now destruct (sem s b). Qed.

Lemma plain_ite b t u : plain t = true -> plain u = true ->
  plain (if sem s b then t else u) = true.
Proof. now destruct (sem s b). Qed.

Lemma merge_ok fuel b : forall R h l r tl tr h' x,
  good h R -> R l -> R r -> tree h l tl -> tree h r tr ->
  merge fuel b h l r = Ret h' x -> merge_res R b h tl tr h' x.
Proof.
  induction fuel; intros R h l r tl tr h' x G L K TL TR E; [discriminate E|].
  cbn [merge] in E.
  pose proof G as [C GT].
  destruct (GT _ L) as (tl' & TL' & PL & _).
  rewrite (tree_fun s _ _ _ TL' _ TL) in *. clear TL' tl'.
  destruct (GT _ K) as (tr' & TR' & PR & _).
  rewrite (tree_fun s _ _ _ TR' _ TR) in *. clear TR' tr'.
  rewrite (plain_not_none _ _ _ TL PL), (plain_not_none _ _ _ TR PR) in E.
  destruct (tree_get _ _ _ _ TL) as (nl & GL).
  destruct (tree_get _ _ _ _ TR) as (nr & GR).
  rewrite GL, GR in E.
  pose proof (proj1 (tree_node _ _ _ _ _ GL) TL) as NL.
  pose proof (proj1 (tree_node _ _ _ _ _ GR) TR) as NR.
  assert (MIS : ret_new h (Fail "Structural mismatch in ite") = Ret h' x ->
                merge_res R b h tl tr h' x).
  { intros Q. eapply ret_new_ok with (n := Fail "Structural mismatch in ite") (tn := TFail _); [exact G|exact eq_refl|reflexivity| | |exact Q].
    - cbn. contradiction.
    - left. eauto. }
  assert (LEAF : (if leaf_same l r nl nr then Ret h l
                  else ret_new h (Fail "Structural mismatch in ite")) = Ret h' x ->
                 merge_res R b h tl tr h' x).
  { destruct (leaf_same l r nl nr) eqn:S1; [|exact MIS].
    intros Q. injection Q as <- <-. eapply here_ok; eauto. right.
    assert (tl = tr); [|subst; now destruct (sem s b)].
    unfold leaf_same, same in S1. apply orb_prop in S1. destruct S1 as [S1|S1].
    - apply Nat.eqb_eq in S1. subst r. eapply tree_fun; eassumption.
    - destruct nl; destruct nr; try discriminate S1; cbn in NL, NR; subst;
        try (apply Z.eqb_eq in S1; congruence);
        try (apply String.eqb_eq in S1; congruence);
        destruct p; try discriminate S1; destruct p0; try discriminate S1; reflexivity. }
  assert (PAIR : forall (k : addr -> addr -> node) (kt : tm -> tm -> tm) l1 l2 r1 r2 a1 a2 b1 b2,
    (forall y, y = l1 \/ y = l2 -> R y) -> (forall y, y = r1 \/ y = r2 -> R y) ->
    (forall x y z, child (k x y) z -> z = x \/ z = y) ->
    (forall h x y u v, tree h x u -> tree h y v -> tnode h (k x y) (kt u v)) ->
    (forall u v, plain u = true -> plain v = true -> plain (kt u v) = true) ->
    (plain a1 = true /\ plain a2 = true) -> (plain b1 = true /\ plain b2 = true) ->
    tl = kt a1 a2 -> tr = kt b1 b2 ->
    tree h l1 a1 -> tree h l2 a2 -> tree h r1 b1 -> tree h r2 b2 ->
    (let* (h, x) := merge fuel b h l1 r1 in
      if is_fail h x then Ret h x else
      let* (h, y) := merge fuel b h l2 r2 in
      if is_fail h y then Ret h y else
      if same x l1 && same y l2 then Ret h l
      else if same x r1 && same y r2 then Ret h r
      else ret_new h (k x y)) = Ret h' x -> merge_res R b h tl tr h' x).
  { intros k kt l1 l2 r1 r2 a1 a2 b1 b2 RL RR CH TN PK [P1 P2] [Q1 Q2] -> -> T1 T2 U1 U2 E1.
    destruct (merge fuel b h l1 r1) as [h1 x1| | |] eqn:M1; try discriminate E1. cbn [bind] in E1.
    destruct (IHfuel R h l1 r1 a1 b1 h1 x1 G (RL _ (or_introl eq_refl)) (RR _ (or_introl eq_refl)) T1 U1 M1)
      as (V1 & KEEP1 & X1 & tx & TX & MX).
    destruct (is_fail_tree _ _ _ TX) as [F1 F2].
    destruct (is_fail h1 x1) eqn:FX.
    { injection E1 as <- <-. split; [exact V1|]. split; [exact KEEP1|]. split; [exact X1|].
      exists tx. split; [exact TX|]. left. auto. }
    destruct MX as [(m & MX)|MX]; [exfalso; eapply F2; eauto|].
    destruct (merge fuel b h1 l2 r2) as [h2 x2| | |] eqn:M2; try discriminate E1. cbn [bind] in E1.
    destruct (IHfuel (ext R h h1) h1 l2 r2 a2 b2 h2 x2 (run_good _ _ _ _ V1)
               (or_introl (RL _ (or_intror eq_refl))) (or_introl (RR _ (or_intror eq_refl)))
               (KEEP1 _ _ T2) (KEEP1 _ _ U2) M2)
      as (V2 & KEEP2 & X2 & ty & TY & MY).
    assert (V12 : run R h h2) by (eapply run_trans; eassumption).
    assert (EX : forall z, ext (ext R h h1) h1 h2 z -> ext R h h2 z).
    { pose proof (run_len _ _ _ _ V1). pose proof (run_len _ _ _ _ V2).
      intros z [[Z|Z]|Z]; [now left|right; lia|right; lia]. }
    destruct (is_fail_tree _ _ _ TY) as [F3 F4].
    destruct (is_fail h2 x2) eqn:FY.
    { injection E1 as <- <-. split; [exact V12|]. split; [auto|]. split; [auto|].
      exists ty. split; [exact TY|]. left. auto. }
    destruct MY as [(m & MY)|MY]; [exfalso; eapply F4; eauto|].
    assert (FINAL : kt tx ty = if sem s b then kt a1 a2 else kt b1 b2).
    { subst. symmetry. apply ite_pair. }
    pose proof (KEEP2 _ _ TX) as TX2.
    destruct (same x1 l1 && same x2 l2) eqn:SM1.
    { injection E1 as <- <-. apply andb_prop in SM1. destruct SM1 as [A B].
      apply Nat.eqb_eq in A, B. subst x1 x2.
      split; [exact V12|]. split; [auto|]. split; [now left|].
      exists (kt a1 a2). split; [auto|]. right. rewrite <- FINAL.
      rewrite (tree_fun s _ _ _ TX2 _ (KEEP2 _ _ (KEEP1 _ _ T1))).
      now rewrite (tree_fun s _ _ _ TY _ (KEEP2 _ _ (KEEP1 _ _ T2))). }
    destruct (same x1 r1 && same x2 r2) eqn:SM2.
    { injection E1 as <- <-. apply andb_prop in SM2. destruct SM2 as [A B].
      apply Nat.eqb_eq in A, B. subst x1 x2.
      split; [exact V12|]. split; [auto|]. split; [now left|].
      exists (kt b1 b2). split; [auto|]. right. rewrite <- FINAL.
      rewrite (tree_fun s _ _ _ TX2 _ (KEEP2 _ _ (KEEP1 _ _ U1))).
      now rewrite (tree_fun s _ _ _ TY _ (KEEP2 _ _ (KEEP1 _ _ U2))). }
    assert (EXR : ext R h h2 x1) by (apply EX; now left).
    destruct (ret_new_ok (ext R h h2) b h2 (k x1 x2) (kt a1 a2) (kt b1 b2) (kt tx ty) h' x)
      as (V3 & KEEP3 & X3 & tz & TZ & MZ).
    - exact (run_good _ _ _ _ V12).
    - apply TN; assumption.
    - rewrite MX, MY. apply PK; apply plain_ite; assumption.
    - intros y Y. destruct (CH _ _ _ Y) as [->| ->]; auto.
    - right. exact FINAL.
    - exact E1.
    - split; [eapply run_trans; eassumption|]. split; [auto|].
      split; [|eauto].
      pose proof (run_len _ _ _ _ V12). pose proof (run_len _ _ _ _ V3).
      destruct X3 as [[Z|Z]|Z]; [now left|right; lia|right; lia]. }
  destruct nl, nr; try (exact (LEAF E)).
  - destruct NL as (a1 & a2 & -> & T1 & T2). destruct NR as (b1 & b2 & -> & U1 & U2).
    cbn in PL, PR. apply andb_prop in PL, PR.
    apply (PAIR App TApp _ _ _ _ a1 a2 b1 b2) in E; auto.
    + intros y Y. eapply C; [exact L|exact GL|exact Y].
    + intros y Y. eapply C; [exact K|exact GR|exact Y].
    + cbn. eauto 6.
    + cbn. intros u v -> ->. reflexivity.
  - destruct NL as (a1 & a2 & -> & T1 & T2). destruct NR as (b1 & b2 & -> & U1 & U2).
    cbn in PL, PR. apply andb_prop in PL, PR.
    apply (PAIR Cons TCons _ _ _ _ a1 a2 b1 b2) in E; auto.
    + intros y Y. eapply C; [exact L|exact GL|exact Y].
    + intros y Y. eapply C; [exact K|exact GR|exact Y].
    + cbn. eauto 6.
    + cbn. intros u v -> ->. reflexivity.
  - injection E as <- <-. eapply here_ok; eauto. right. cbn in NL, NR. subst.
    now destruct (sem s b).
  - cbn in NL, NR. subst.
    set (bres := FOr (FAnd b f) (FAnd (FNot b) f0)) in *.
    assert (SB : TBool (sem s bres) = if sem s b then TBool (sem s f) else TBool (sem s f0)).
    { cbn. destruct (sem s b); cbn; [now rewrite orb_false_r|reflexivity]. }
    destruct (feq bres f) eqn:F1.
    { injection E as <- <-. eapply here_ok; eauto. right.
      now rewrite <- SB, (feq_sem _ _ s F1). }
    destruct (feq bres f0) eqn:F2.
    { injection E as <- <-. eapply here_ok; eauto. right.
      now rewrite <- SB, (feq_sem _ _ s F2). }
    eapply ret_new_ok with (n := Bool bres) (tn := TBool (sem s bres)); [exact G|exact eq_refl|reflexivity| | |exact E].
    + cbn. contradiction.
    + right. exact SB.
Qed.

(** ** Evaluators *)

(** What is expected of an evaluator of nodes. *)
Definition ev_ok (ev : heap -> addr -> res) : Prop :=
  forall R h a h' r, good h R -> dec R -> R a -> ev h a = Ret h' r ->
    r = a /\ run R h h' /\ exists t, tree h' a t /\ wh t = true.

Lemma good_get h (R : addr -> Prop) a : good h R -> R a -> exists t, tree h a t /\ plain t = true.
Proof. intros [_ G] A. destruct (G _ A) as (t & T & P & _). eauto. Qed.

Lemma overwrite_fail h a c m :
  get h c = Some (Fail m) -> overwrite h a c = set_nd h a (Fail m).
Proof. intros G. unfold overwrite. now rewrite G. Qed.

Lemma is_fail_get h a : is_fail h a = true -> exists m, get h a = Some (Fail m).
Proof. unfold is_fail. destruct (get h a) as [[]|]; try discriminate. eauto. Qed.

(** Overwriting by a failure. *)
Lemma run_fail R h a m t :
  good h R -> dec R -> R a -> tree h a t -> can_fail t = true ->
  run R h (set_nd h a (Fail m)).
Proof.
  intros G D A T CF.
  eapply run_eval_set with (R1 := fun _ => False) (t0 := t) (tn := TFail m);
    try eassumption; auto.
  - apply run_refl. split; [intros x n y []|intros x []].
  - intros x. now right.
  - contradiction.
  - exact eq_refl.
  - apply wsteps_one, ws_fail, CF.
  - cbn. contradiction.
Qed.

Lemma conslike_can_fail t : conslike t = true -> can_fail t = true.
Proof. destruct t; auto; discriminate. Qed.

Lemma force_loop_ok ev : ev_ok ev -> forall fuel R h a todo h' r,
  good h R -> dec R -> R a -> (forall x, In x todo -> R x) ->
  ((exists t, tree h a t /\ wh t = true /\ (todo = [] \/ conslike t = true)) \/
   (todo = [a] /\ is_forced h a = false)) ->
  force_loop ev fuel h a todo = Ret h' r ->
  r = a /\ run R h h' /\ exists t, tree h' a t /\ wh t = true.
Proof.
  intros OK. induction fuel; intros R h a todo h' r G D A TD INV E; [discriminate E|].
  cbn [force_loop] in E. destruct todo as [|cur todo].
  { injection E as <- <-. destruct INV as [(t & T & W & _)|[Q _]]; [|discriminate Q].
    split; [reflexivity|]. split; [now apply run_refl|eauto]. }
  destruct (is_forced h cur) eqn:FC.
  { destruct INV as [(t & T & W & [Q|CL])|[Q NF]]; [discriminate Q| |].
    - apply (IHfuel R h a todo h' r G D A); [|left; exists t; auto|exact E].
      intros x X. apply TD. now right.
    - injection Q as -> ->. congruence. }
  destruct (ev h cur) as [h1 c1| | |] eqn:EV; try discriminate E. cbn [bind] in E.
  destruct (OK R h cur h1 c1 G D (TD _ (or_introl eq_refl)) EV) as (-> & U & tc & TC & WC).
  assert (G1 : good h1 (ext R h h1)) by exact (run_good _ _ _ _ U).
  assert (D1 : dec (ext R h h1)) by (now apply ext_dec).
  assert (A1 : ext R h h1 a) by now left.
  assert (RC : ext R h h1 cur) by (left; apply TD; now left).
  (* the tree of [a] now *)
  assert (TA : exists t, tree h1 a t /\ wh t = true /\
             ((cur = a /\ todo = []) \/ conslike t = true)).
  { destruct INV as [(t & T & W & [Q|CL])|[Q NF]]; [discriminate Q| |].
    - destruct (run_red _ _ _ _ U a t A T) as (t1 & T1 & S1).
      exists t1. split; [exact T1|]. split; [eapply wh_wsteps; eassumption|].
      right. eapply conslike_wsteps; eassumption.
    - injection Q as -> ->. exists tc. auto. }
  destruct TA as (ta & TA & WA & SH).
  destruct (is_fail h1 cur) eqn:FL.
  { injection E as <- <-. split; [reflexivity|].
    destruct (is_fail_get _ _ FL) as (m & GF). rewrite (overwrite_fail _ _ _ _ GF).
    assert (CF : can_fail ta = true).
    { destruct SH as [[-> _]|CL]; [|now apply conslike_can_fail].
      apply (tree_node _ _ _ _ _ GF) in TA. cbn in TA. now subst. }
    split.
    - eapply run_trans; [exact U|]. eapply run_fail; eassumption.
    - exists (TFail m). split; [|reflexivity].
      destruct (tree_get _ _ _ _ TA) as (k & GK).
      apply (tree_node _ _ _ (Fail m)); [eapply get_set_same; exact GK|exact eq_refl]. }
  pose proof (run_make s (ext R h h1) h1 cur tc G1 RC TC WC) as U2.
  set (h2 := make_forced h1 cur) in *.
  assert (U12 : run R h h2) by (eapply run_trans; eassumption).
  assert (KEEP : forall x t, tree h1 x t -> tree h2 x t).
  { intros x t T. eapply tree_agree with (R := fun _ => True); try exact T; auto.
    - intros ? ? ? ? ? ?. exact Logic.I.
    - intros y _. apply get_make. }
  assert (CONT : forall todo', (forall x, In x todo' -> ext R h h2 x) ->
     (todo' = [] \/ conslike ta = true) ->
     force_loop ev fuel h2 a todo' = Ret h' r ->
     r = a /\ run R h h' /\ exists t, tree h' a t /\ wh t = true).
  { intros todo' TD' Q E'.
    destruct (IHfuel (ext R h h2) h2 a todo' h' r) as (-> & U3 & T3); auto.
    - exact (run_good _ _ _ _ U12).
    - now apply ext_dec.
    - now left.
    - left. exists ta. auto.
    - split; [reflexivity|]. split; [eapply run_trans; eassumption|exact T3]. }
  assert (TD2 : forall x, In x todo -> ext R h h2 x) by (intros x X; left; apply TD; now right).
  assert (REST : (todo = [] \/ conslike ta = true)) by (destruct SH as [[_ ->]|]; auto).
  assert (NXT : force_loop ev fuel h2 a todo = Ret h' r ->
                r = a /\ run R h h' /\ exists t, tree h' a t /\ wh t = true)
    by (apply CONT; assumption).
  destruct (get h2 cur) as [nc|] eqn:GC; [|auto].
  destruct nc; auto.
  apply CONT in E; auto.
  - assert (RC2 : ext R h h2 cur) by (left; apply TD; now left).
    destruct (run_good _ _ _ _ U12) as [C2 _].
    intros x [<-|[<-|X]]; [| |auto]; eapply C2; try exact RC2; try exact GC; cbn; auto.
  - right. destruct SH as [[-> ->]|CL]; [|exact CL].
    apply (tree_node _ _ _ _ _ GC) in KEEP || idtac.
    pose proof (KEEP _ _ TA) as TA2. apply (tree_node _ _ _ _ _ GC) in TA2.
    destruct TA2 as (u & v & -> & _). reflexivity.
Qed.

Lemma force_ok ev fuel : ev_ok ev -> ev_ok (force ev fuel).
Proof.
  intros OK R h a h' r G D A E. unfold force in E. destruct (is_forced h a) eqn:F.
  - injection E as <- <-. split; [reflexivity|]. split; [now apply run_refl|].
    destruct G as [_ G]. destruct (G _ A) as (t & T & _ & W). eauto.
  - eapply force_loop_ok; try eassumption.
    + intros x [<-|[]]. exact A.
    + right. auto.
Qed.

(** ** The spine *)

Fixpoint chain (h : heap) (root : addr) (sp args : list addr) : Prop :=
  match sp, args with
  | [], [] => True
  | a :: sp, r :: args => get h a = Some (App root r) /\ chain h a sp args
  | _, _ => False
  end.

Definition apps (t : tm) (ts : list tm) : tm := fold_left TApp ts t.

Lemma spine_apps ts : forall t p l, spine t [] = Some (p, l) ->
  spine (apps t ts) [] = Some (p, l ++ ts).
Proof.
  induction ts; intros t p l E.
  - now rewrite app_nil_r.
  - change (apps t (a :: ts)) with (apps (TApp t a) ts).
    rewrite (IHts (TApp t a) p (l ++ [a])); [now rewrite <- app_assoc|].
    exact (spine_ext t [] [a] p l E).
Qed.

Lemma spine_prim p ts : spine (apps (TPrm p) ts) [] = Some (p, ts).
Proof. exact (spine_apps ts (TPrm p) p [] eq_refl). Qed.

Lemma bottom_cons a sp root : bottom (a :: sp) root = bottom sp a.
Proof.
  unfold bottom. cbn. destruct sp as [|b sp]; [reflexivity|].
  revert b. induction sp; intros b; [reflexivity|]. exact (IHsp a0).
Qed.

Lemma chain_root h : forall sp root args t, chain h root sp args ->
  tree h (bottom sp root) t -> exists u, tree h root u.
Proof.
  induction sp as [|b sp IH]; intros root args t CH T.
  - cbn in T. eauto.
  - destruct args as [|x args]; [contradiction|]. destruct CH as [GB CH].
    rewrite bottom_cons in T. destruct (IH _ _ _ CH T) as (u & U).
    apply (tree_node _ _ _ _ _ GB) in U. destruct U as (v & w & _ & V & _). eauto.
Qed.

Lemma chain_tree h : forall sp root args tr, chain h root sp args -> tree h root tr ->
  forall t, tree h (bottom sp root) t ->
  exists ts, Forall2 (tree h) args ts /\ t = apps tr ts.
Proof.
  induction sp as [|a sp IH]; intros root args tr CH TR t T; destruct args as [|x args]; try contradiction.
  - cbn in T. exists []. split; [constructor|]. exact (tree_fun s _ _ _ T _ TR).
  - destruct CH as [GA CH].
    rewrite bottom_cons in T.
    destruct (chain_root _ _ _ _ _ CH T) as (u & U).
    pose proof U as U'.
    apply (tree_node _ _ _ _ _ GA) in U'. destruct U' as (v & w & -> & V & W).
    rewrite (tree_fun s _ _ _ V _ TR) in *.
    destruct (IH a args (TApp tr w) CH U t T) as (ts & F & ->).
    exists (w :: ts). split; [constructor; assumption|reflexivity].
Qed.

End Parts.
