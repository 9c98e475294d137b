(** * The evaluator does what the rewriting of trees says *)

From Coq Require Import String List Bool Arith ZArith Lia.
From Verif Require Import GredModel GredSpec GredConf GredFail GredHeap GredParts GredFire.
Import ListNotations.
Open Scope list_scope.
Open Scope nat_scope.

Lemma with_arg_eq h a l r k : get h a = Some (App l r) -> with_arg h a k = k r.
Proof. intros G. unfold with_arg, right_of. now rewrite G. Qed.

Lemma with_bool_inv h a k h' r : with_bool h a k = Ret h' r ->
  exists f, get h a = Some (Bool f) /\ k f = Ret h' r.
Proof.
  unfold with_bool. destruct (get h a) as [[]|] eqn:G; try discriminate. eauto.
Qed.

Lemma bind_inv x k h' r : bind x k = Ret h' r ->
  exists h1 a1, x = Ret h1 a1 /\ k h1 a1 = Ret h' r.
Proof. destruct x; cbn; try discriminate. eauto. Qed.

Lemma delta_wsteps p ts u : delta p ts = Some u -> wsteps (apps (TPrm p) ts) u.
Proof.
  intros E. apply wsteps_one, ws_delta. unfold contract. now rewrite spine_prim.
Qed.

Lemma apps_wsteps p ts ts' u : Forall2 wsteps ts ts' -> delta p ts' = Some u ->
  wsteps (apps (TPrm p) ts) u.
Proof.
  intros F E. eapply wsteps_trans; [|apply delta_wsteps; exact E].
  apply wsteps_apps; [exact F|constructor].
Qed.

Lemma wh_whnf t : wh t = true -> (forall m, t <> TFail m) -> whnf t = true.
Proof. destruct t; cbn; auto. intros _ N. exfalso. eapply N; reflexivity. Qed.

Section Thms.
Variable s : nat -> bool.
Notation tree := (tree s).
Notation good := (good s).
Notation run := (run s).
Notation tnode := (tnode s).
Notation ev_ok := (ev_ok s).
Notation spn := (spn s).

Lemma tree_bool_at h a f t : get h a = Some (Bool f) -> tree h a t -> t = TBool (sem s f).
Proof. intros G T. now apply (tree_node _ _ _ _ _ G) in T. Qed.

Lemma more_app (Q : addr -> Prop) h h2 x y u v :
  run Q h h2 -> ext Q h h2 x -> ext Q h h2 y -> tree h2 x u -> tree h2 y v ->
  let h3 := h2 ++ [mk_cell false (App x y)] in
  run Q h h3 /\ ext Q h h3 (length h2) /\ tree h3 (length h2) (TApp u v) /\
  (forall z t, tree h2 z t -> tree h3 z t) /\ (forall z, ext Q h h2 z -> ext Q h h3 z).
Proof.
  intros U X Y TX TY h3. pose proof (run_good _ _ _ _ U) as G.
  destruct (good_get _ _ _ _ G X) as (u' & TX' & PX).
  rewrite (tree_fun s _ _ _ TX' _ TX) in PX.
  destruct (good_get _ _ _ _ G Y) as (v' & TY' & PY).
  rewrite (tree_fun s _ _ _ TY' _ TY) in PY.
  destruct (run_alloc s (ext Q h h2) h2 (App x y) (TApp u v) G) as (A & B & C & D).
  - exists u, v. auto.
  - cbn. now rewrite PX, PY.
  - intros z [->| ->]; assumption.
  - assert (LEN : length h3 = S (length h2)) by (unfold h3; rewrite app_length; cbn; lia).
    pose proof (run_len _ _ _ _ U) as LE.
    split; [eapply run_trans; eassumption|]. split; [right; lia|].
    split; [exact C|]. split; [exact D|].
    intros z [Z1|Z1]; [now left|right; lia].
Qed.

Ltac bnd E h1 a1 EV := apply bind_inv in E; destruct E as (h1 & a1 & EV & E).
Ltac args E := repeat erewrite with_arg_eq in E by eassumption.

Lemma spn_inv1 R h root p x0 al ts : spn R h root p [x0] al ts ->
  exists a1 t1, al = [a1] /\ ts = [t1] /\ get h x0 = Some (App root a1) /\ tree h a1 t1.
Proof.
  intros (G & D & B & GR & L & CH & F). destruct al as [|a1 [|]]; cbn in CH; try tauto.
  inversion F as [|? t1 ? ? T1 F1]; subst. inversion F1; subst.
  exists a1, t1. intuition.
Qed.

Lemma spn_inv2 R h root p x0 x1 al ts : spn R h root p [x0; x1] al ts ->
  exists a1 a2 t1 t2, al = [a1; a2] /\ ts = [t1; t2] /\
    get h x0 = Some (App root a1) /\ get h x1 = Some (App x0 a2) /\
    tree h a1 t1 /\ tree h a2 t2.
Proof.
  intros (G & D & B & GR & L & CH & F). destruct al as [|a1 [|a2 [|]]]; cbn in CH; try tauto.
  inversion F as [|? t1 ? ? T1 F1]; subst. inversion F1 as [|? t2 ? ? T2 F2]; subst.
  inversion F2; subst. exists a1, a2, t1, t2. intuition.
Qed.

Lemma spn_inv3 R h root p x0 x1 x2 al ts : spn R h root p [x0; x1; x2] al ts ->
  exists a1 a2 a3 t1 t2 t3, al = [a1; a2; a3] /\ ts = [t1; t2; t3] /\
    get h x0 = Some (App root a1) /\ get h x1 = Some (App x0 a2) /\
    get h x2 = Some (App x1 a3) /\
    tree h a1 t1 /\ tree h a2 t2 /\ tree h a3 t3.
Proof.
  intros (G & D & B & GR & L & CH & F).
  destruct al as [|a1 [|a2 [|a3 [|]]]]; cbn in CH; try tauto.
  inversion F as [|? t1 ? ? T1 F1]; subst. inversion F1 as [|? t2 ? ? T2 F2]; subst.
  inversion F2 as [|? t3 ? ? T3 F3]; subst. inversion F3; subst.
  exists a1, a2, a3, t1, t2, t3. intuition.
Qed.

Lemma spn_inv4 R h root p x0 x1 x2 x3 al ts : spn R h root p [x0; x1; x2; x3] al ts ->
  exists a1 a2 a3 a4 t1 t2 t3 t4, al = [a1; a2; a3; a4] /\ ts = [t1; t2; t3; t4] /\
    get h x0 = Some (App root a1) /\ get h x1 = Some (App x0 a2) /\
    get h x2 = Some (App x1 a3) /\ get h x3 = Some (App x2 a4) /\
    tree h a1 t1 /\ tree h a2 t2 /\ tree h a3 t3 /\ tree h a4 t4.
Proof.
  intros (G & D & B & GR & L & CH & F).
  destruct al as [|a1 [|a2 [|a3 [|a4 [|]]]]]; cbn in CH; try tauto.
  inversion F as [|? t1 ? ? T1 F1]; subst. inversion F1 as [|? t2 ? ? T2 F2]; subst.
  inversion F2 as [|? t3 ? ? T3 F3]; subst. inversion F3 as [|? t4 ? ? T4 F4]; subst.
  inversion F4; subst. exists a1, a2, a3, a4, t1, t2, t3, t4. intuition.
Qed.

(** Evaluate one argument and return a copy of it. *)
Lemma copy_arg R h root p sp al ts ev a h1 r :
  spn R h root p sp al ts -> ev_ok ev -> In a al -> ev h a = Ret h1 r ->
  (forall t t', tree h a t -> wsteps t t' -> wsteps (apps (TPrm p) ts) t') ->
  r = a /\ run R h (overwrite h1 (bottom sp root) a).
Proof.
  intros SP OK A E W.
  destruct (spn_args _ _ _ _ _ _ _ _ SP) as (GQ & DQ & SUB & NQ & AQ).
  destruct (spn_eval _ _ _ _ _ _ _ _ _ _ _ _ SP OK A E) as (-> & U & _ & _ & _).
  split; [reflexivity|].
  destruct (good_tree _ _ _ _ GQ (AQ _ A)) as (t & T).
  destruct (run_red _ _ _ _ U a t (AQ _ A) T) as (t' & T' & S').
  eapply spn_copy; try eassumption; [left; auto|eauto].
Qed.

(** The first argument is evaluated and does not fail. *)
Lemma first_arg R h root p sp al ts ev a h1 r :
  spn R h root p sp al ts -> ev_ok ev -> In a al -> ev h a = Ret h1 r ->
  r = a /\ run R h h1 /\
  (is_fail h1 a = true -> run R h (overwrite h1 (bottom sp root) a)) /\
  exists ts1, spn (ext R h h1) h1 root p sp al ts1 /\
    exists t, tree h1 a t /\ wh t = true /\ (is_fail h1 a = false -> whnf t = true).
Proof.
  intros SP OK A E.
  destruct (spn_eval _ _ _ _ _ _ _ _ _ _ _ _ SP OK A E) as (-> & U & UR & (t & T & W) & ts1 & SP1 & _).
  split; [reflexivity|]. split; [exact UR|]. split.
  - intros FL. eapply spn_copy_fail; eassumption.
  - exists ts1. split; [exact SP1|]. exists t. split; [exact T|]. split; [exact W|].
    intros FL. apply wh_whnf; [exact W|]. now apply (is_fail_tree s _ _ _ T).
Qed.

Lemma leaf_set R h root p sp al ts h2 n tn :
  spn R h root p sp al ts -> run (argR h al) h h2 -> tnode h2 n tn ->
  (forall y, ~ child n y) ->
  wsteps (apps (TPrm p) ts) tn -> run R h (set_nd h2 (bottom sp root) n).
Proof.
  intros SP U T N W. eapply spn_set; try eassumption. intros y C. exfalso. eapply N; exact C.
Qed.

Definition fire_good (p : prim) : Prop :=
  forall tl fuel c R h root sp rest al ts h' r,
  (forall c, ev_ok (tl c)) -> spn R h root p sp al ts ->
  fire (Watch s) tl fuel c p h (sp ++ rest) = Ret h' r ->
  r = bottom sp root /\ run R h h'.

Ltac start n :=
  intros tl fuel c R h root sp rest al ts h' r OK SP E;
  pose proof (proj1 (proj2 (proj2 (proj2 (proj2 SP))))) as L; cbn in L;
  match n with
  | 1 => destruct sp as [|x0 [|]]; try discriminate L; clear L;
    destruct (spn_inv1 _ _ _ _ _ _ _ SP) as (a1 & t1 & -> & -> & G0 & T1)
  | 2 => destruct sp as [|x0 [|x1 [|]]]; try discriminate L; clear L;
    destruct (spn_inv2 _ _ _ _ _ _ _ _ SP) as (a1 & a2 & t1 & t2 & -> & -> & G0 & G1 & T1 & T2)
  | 3 => destruct sp as [|x0 [|x1 [|x2 [|]]]]; try discriminate L; clear L;
    destruct (spn_inv3 _ _ _ _ _ _ _ _ _ SP) as
      (a1 & a2 & a3 & t1 & t2 & t3 & -> & -> & G0 & G1 & G2 & T1 & T2 & T3)
  | 4 => destruct sp as [|x0 [|x1 [|x2 [|x3 [|]]]]]; try discriminate L; clear L;
    destruct (spn_inv4 _ _ _ _ _ _ _ _ _ _ SP) as
      (a1 & a2 & a3 & a4 & t1 & t2 & t3 & t4 & -> & -> & G0 & G1 & G2 & G3 & T1 & T2 & T3 & T4)
  end;
  unfold fire in E; cbn [nth_sp nth app] in E; args E.

Lemma fire_I : fire_good P_I.
Proof.
  start 1. bnd E h1 r1 EV. injection E as <- <-.
  destruct (copy_arg _ _ _ _ _ _ _ _ _ _ _ SP (OK _) (or_introl eq_refl) EV) as (-> & U); [|auto].
  intros t t' T W. eapply wsteps_trans; [apply delta_wsteps; reflexivity|].
  now rewrite (tree_fun s _ _ _ T1 _ T).
Qed.

Lemma fire_K : fire_good P_K.
Proof.
  start 2. bnd E h1 r1 EV. injection E as <- <-.
  destruct (copy_arg _ _ _ _ _ _ _ _ _ _ _ SP (OK _) (or_introl eq_refl) EV) as (-> & U); [|auto].
  intros t t' T W. eapply wsteps_trans; [apply delta_wsteps; reflexivity|].
  now rewrite (tree_fun s _ _ _ T1 _ T).
Qed.

Lemma fire_NSEQ : fire_good P_NSEQ.
Proof.
  start 2. bnd E h1 r1 EV. injection E as <- <-.
  destruct (copy_arg _ _ _ _ _ _ _ _ _ _ _ SP (OK _) (or_intror (or_introl eq_refl)) EV) as (-> & U); [|auto].
  intros t t' T W. eapply wsteps_trans; [apply delta_wsteps; reflexivity|].
  now rewrite (tree_fun s _ _ _ T2 _ T).
Qed.

Lemma fire_NAMED : fire_good P_NAMED_ARG.
Proof.
  start 3. bnd E h1 r1 EV. injection E as <- <-.
  destruct (copy_arg _ _ _ _ _ _ _ _ _ _ _ SP (OK _) (or_introl eq_refl) EV) as (-> & U); [|auto].
  intros t t' T W. eapply wsteps_trans; [apply delta_wsteps; reflexivity|].
  now rewrite (tree_fun s _ _ _ T1 _ T).
Qed.

(** The combinators. *)
Ltac args_in SP X :=
  pose proof (spn_here _ _ _ _ _ _ _ _ SP) as X;
  destruct (spn_args _ _ _ _ _ _ _ _ SP) as (_ & _ & _ & _ & AQ).

Ltac inA := match goal with
  | AQ : forall a, In a _ -> argR _ _ a |- _ => left; apply AQ; cbn; auto 6
  end.

Ltac new U x y tx ty :=
  let V := fresh "V" in let X := fresh "X" in let T := fresh "T" in
  let K := fresh "K" in let M := fresh "M" in
  destruct (more_app _ _ _ x y tx ty U) as (V & X & T & K & M);
  [solve [assumption | inA]|solve [assumption | inA]|solve [auto 8]|solve [auto 8]|].

Ltac fin := match goal with
  | SP : spn _ _ _ _ _ _ _ |- _ =>
    split; [reflexivity|];
    eapply (spn_set s _ _ _ _ _ _ _ _ _ _ SP);
    [eassumption
    |eexists _, _; split; [reflexivity|split; eauto 8]
    |intros y [->| ->]; solve [auto 8 | inA]
    |apply delta_wsteps; reflexivity]
  end.

Lemma fire_S : fire_good P_S.
Proof.
  start 3. unfold alloc in E. injection E as <- <-. args_in SP U.
  new U a1 a3 t1 t3. new V a2 a3 t2 t3. fin.
Qed.

Lemma fire_SPRIME : fire_good P_SPRIME.
Proof.
  start 4. unfold alloc in E. injection E as <- <-. args_in SP U.
  new U a2 a4 t2 t4. new V a1 (length h) t1 (t2 · t4). new V0 a3 a4 t3 t4. fin.
Qed.

Lemma fire_C : fire_good P_C.
Proof.
  start 3. unfold alloc in E. injection E as <- <-. args_in SP U.
  new U a1 a3 t1 t3. fin.
Qed.

Lemma fire_CPRIME : fire_good P_CPRIME.
Proof.
  start 4. unfold alloc in E. injection E as <- <-. args_in SP U.
  new U a2 a4 t2 t4. new V a1 (length h) t1 (t2 · t4). fin.
Qed.

Lemma fire_B : fire_good P_B.
Proof.
  start 3. unfold alloc in E. injection E as <- <-. args_in SP U.
  new U a2 a3 t2 t3. fin.
Qed.

Lemma fire_BSTAR : fire_good P_BSTAR.
Proof.
  start 4. unfold alloc in E. injection E as <- <-. args_in SP U.
  new U a3 a4 t3 t4. new V a2 (length h) t2 (t3 · t4). fin.
Qed.

Lemma fire_BPRIME : fire_good P_BPRIME.
Proof.
  start 4. unfold alloc in E. injection E as <- <-. args_in SP U.
  new U a1 a2 t1 t2. new V a3 a4 t3 t4. fin.
Qed.

Lemma fire_CONS : fire_good P_CONS.
Proof.
  start 2. injection E as <- <-. args_in SP U. fin.
Qed.

(** ** Primitives that look at their arguments *)

Ltac first E SP OKE n :=
  let EV := fresh "EV" in
  apply bind_inv in E; destruct E as (h1 & r1 & EV & E);
  destruct (first_arg _ _ _ _ _ _ _ _ _ _ _ SP OKE (or_introl eq_refl) EV)
    as (-> & U & FL & ts1 & SP1 & t & T & W & WN);
  clear EV;
  match n with
  | 1 => destruct (spn_inv1 _ _ _ _ _ _ _ SP1) as (b1 & u1 & AE & -> & D0 & V1);
         injection AE as <-
  | 2 => destruct (spn_inv2 _ _ _ _ _ _ _ _ SP1)
           as (b1 & b2 & u1 & u2 & AE & -> & D0 & D1 & V1 & V2);
         injection AE as <- <-
  | 3 => destruct (spn_inv3 _ _ _ _ _ _ _ _ _ SP1)
           as (b1 & b2 & b3 & u1 & u2 & u3 & AE & -> & D0 & D1 & D2 & V1 & V2 & V3);
         injection AE as <- <- <-
  end.

Ltac failed E FL FA :=
  injection E as <- <-; split; [reflexivity|]; exact (FL FA).

(** The second argument, once the first has been evaluated. *)
Lemma second_arg R h root p sp al ts ev a h2 r :
  spn R h root p sp al ts -> ev_ok ev -> In a al -> ev h a = Ret h2 r ->
  r = a /\ run (argR h al) h h2 /\
  (is_fail h2 a = true -> run R h (overwrite h2 (bottom sp root) a)) /\
  exists ts2, Forall2 (tree h2) al ts2 /\ Forall2 wsteps ts ts2 /\
    exists t, tree h2 a t /\ wh t = true /\ (is_fail h2 a = false -> whnf t = true).
Proof.
  intros SP OK A E.
  destruct (spn_eval _ _ _ _ _ _ _ _ _ _ _ _ SP OK A E) as (-> & U & UR & (t & T & W) & ts1 & SP1 & WS).
  split; [reflexivity|]. split; [exact U|]. split.
  - intros FL. eapply spn_copy_fail; eassumption.
  - exists ts1. split; [apply SP1|]. split; [exact WS|]. exists t.
    split; [exact T|]. split; [exact W|].
    intros FL. apply wh_whnf; [exact W|]. now apply (is_fail_tree s _ _ _ T).
Qed.

Lemma trees2 h a1 a2 ts : Forall2 (tree h) [a1; a2] ts ->
  exists u1 u2, ts = [u1; u2] /\ tree h a1 u1 /\ tree h a2 u2.
Proof.
  intros F. inversion F as [|? u1 ? ? T1 F1]; subst. inversion F1 as [|? u2 ? ? T2 F2]; subst.
  inversion F2; subst. eauto 6.
Qed.

Lemma trees3 h a1 a2 a3 ts : Forall2 (tree h) [a1; a2; a3] ts ->
  exists u1 u2 u3, ts = [u1; u2; u3] /\ tree h a1 u1 /\ tree h a2 u2 /\ tree h a3 u3.
Proof.
  intros F. inversion F as [|? u1 ? ? T1 F1]; subst.
  destruct (trees2 _ _ _ _ F1) as (u2 & u3 & -> & T2 & T3). eauto 9.
Qed.

Lemma wss2 t1 t2 u1 u2 : Forall2 wsteps [t1; t2] [u1; u2] -> wsteps t1 u1 /\ wsteps t2 u2.
Proof. intros F. inversion F as [|? ? ? ? ? F1]; subst. inversion F1; subst. auto. Qed.

Lemma wss3 t1 t2 t3 u1 u2 u3 : Forall2 wsteps [t1; t2; t3] [u1; u2; u3] ->
  wsteps t1 u1 /\ wsteps t2 u2 /\ wsteps t3 u3.
Proof.
  intros F. inversion F as [|? ? ? ? ? F1]; subst. apply wss2 in F1. tauto.
Qed.

Lemma no_child_bool f y : ~ child (Bool f) y.
Proof. exact (fun H => H). Qed.
Lemma no_child_int z y : ~ child (Int z) y.
Proof. exact (fun H => H). Qed.

Lemma fire_SEQ_aux (p : prim) ev1 ev2 R h root x0 x1 al ts a1 a2 h1 r1 h' r :
  (p = P_SEQ \/ p = P_FSEQ) -> ev_ok ev1 -> ev_ok ev2 ->
  spn R h root p [x0; x1] al ts -> al = [a1; a2] ->
  ev1 h a1 = Ret h1 r1 ->
  (if is_fail h1 r1 then Ret (overwrite h1 x1 r1) x1 else
   arg a2 := h1 @ x1 in
   let* (h, a2) := ev2 h1 a2 in
   Ret (overwrite h x1 a2) x1) = Ret h' r ->
  r = x1 /\ run R h h'.
Proof.
  intros PP OK1 OK2 SP -> EV E.
  destruct (first_arg _ _ _ _ _ _ _ _ _ _ _ SP OK1 (or_introl eq_refl) EV)
    as (-> & U & FL & ts1 & SP1 & t & T & W & WN).
  destruct (is_fail h1 a1) eqn:FA; [failed E FL (@eq_refl bool true)|].
  destruct (spn_inv2 _ _ _ _ _ _ _ _ SP1)
    as (b1 & b2 & u1 & u2 & AE & -> & D0 & D1 & V1 & V2). injection AE as <- <-.
  args E. bnd E h2 r2 EV2. injection E as <- <-.
  destruct (copy_arg _ _ _ _ _ _ _ _ _ _ _ SP1 OK2 (or_intror (or_introl eq_refl)) EV2) as (-> & U2).
  - intros q q' Q WQ. rewrite (tree_fun s _ _ _ Q _ V2) in WQ.
    eapply wsteps_trans; [|exact WQ]. apply delta_wsteps.
    rewrite (tree_fun s _ _ _ V1 _ T). specialize (WN eq_refl).
    destruct PP as [-> | ->]; cbn; now rewrite WN.
  - split; [reflexivity|]. eapply run_trans; eassumption.
Qed.

Lemma fire_SEQ : fire_good P_SEQ.
Proof.
  start 2. bnd E h1 r1 EV.
  exact (fire_SEQ_aux P_SEQ _ _ _ _ _ _ _ _ _ _ _ _ _ _ _ (or_introl eq_refl)
           (OK c) (OK c) SP eq_refl EV E).
Qed.

Lemma fire_FSEQ : fire_good P_FSEQ.
Proof.
  start 2. bnd E h1 r1 EV.
  exact (fire_SEQ_aux P_FSEQ _ _ _ _ _ _ _ _ _ _ _ _ _ _ _ (or_intror eq_refl)
           (force_ok s _ fuel (OK c)) (OK c) SP eq_refl EV E).
Qed.

Lemma fire_THEN : fire_good P_THEN.
Proof.
  start 2. first E SP (force_ok s _ fuel (OK c)) 2.
  destruct (is_fail h1 a1) eqn:FA; [failed E FL (@eq_refl bool true)|].
  specialize (WN eq_refl). args E. injection E as <- <-.
  split; [reflexivity|]. eapply run_trans; [exact U|].
  pose proof (spn_here _ _ _ _ _ _ _ _ SP1) as HERE.
  destruct (spn_args _ _ _ _ _ _ _ _ SP1) as (_ & _ & _ & _ & AQ).
  eapply (spn_set s _ _ _ _ _ _ _ _ _ (u2 · u1) SP1); [exact HERE| | |].
  - exists u2, u1. auto.
  - intros y [->| ->]; inA.
  - apply delta_wsteps. cbn. rewrite (tree_fun s _ _ _ V1 _ T). now rewrite WN.
Qed.

Lemma fire_NOT : fire_good P_NOT.
Proof.
  start 1. first E SP (force_ok s _ fuel (OK c)) 1.
  destruct (is_fail h1 a1) eqn:FA; [failed E FL (@eq_refl bool true)|].
  apply with_bool_inv in E. destruct E as (f & GF & E). injection E as <- <-.
  split; [reflexivity|]. eapply run_trans; [exact U|].
  eapply (leaf_set _ _ _ _ _ _ _ _ (Bool (FNot f)) (TBool (sem s (FNot f))) SP1);
    [exact (spn_here _ _ _ _ _ _ _ _ SP1)|exact eq_refl|apply no_child_bool|].
  rewrite (tree_bool_at _ _ _ _ GF V1). now apply delta_wsteps.
Qed.

Lemma fire_AND : fire_good P_AND.
Proof.
  start 2. first E SP (force_ok s _ fuel (OK c)) 2.
  destruct (is_fail h1 a1) eqn:FA; [failed E FL (@eq_refl bool true)|].
  apply with_bool_inv in E. destruct E as (f & GF & E).
  rewrite (tree_bool_at _ _ _ _ GF V1) in SP1.
  destruct (feq f FZero) eqn:FZ.
  { injection E as <- <-. split; [reflexivity|]. eapply run_trans; [exact U|].
    eapply (leaf_set _ _ _ _ _ _ _ _ (Bool FZero) (TBool false) SP1);
      [exact (spn_here _ _ _ _ _ _ _ _ SP1)|exact eq_refl|apply no_child_bool|].
    apply delta_wsteps. cbn. now rewrite (feq_sem _ _ s FZ). }
  args E. bnd E h2 r2 EV2.
  destruct (second_arg _ _ _ _ _ _ _ _ _ _ _ SP1 (OK c) (or_intror (or_introl eq_refl)) EV2)
    as (-> & U2 & FL2 & ts2 & F2 & WS & _).
  destruct (is_fail h2 a2) eqn:FA2.
  { injection E as <- <-. split; [reflexivity|]. eapply run_trans; [exact U|]. exact (FL2 eq_refl). }
  apply with_bool_inv in E. destruct E as (f1 & GF1 & E).
  apply with_bool_inv in E. destruct E as (f2 & GF2 & E). injection E as <- <-.
  split; [reflexivity|]. eapply run_trans; [exact U|].
  eapply (leaf_set _ _ _ _ _ _ _ _ (Bool (FAnd f1 f2)) (TBool (sem s (FAnd f1 f2))) SP1);
    [exact U2|exact eq_refl|apply no_child_bool|].
  eapply apps_wsteps; [exact WS|].
  destruct (trees2 _ _ _ _ F2) as (q1 & q2 & -> & Q1 & Q2).
  rewrite (tree_bool_at _ _ _ _ GF1 Q1), (tree_bool_at _ _ _ _ GF2 Q2). cbn.
  now destruct (sem s f1).
Qed.

Lemma fire_OR : fire_good P_OR.
Proof.
  start 2. first E SP (force_ok s _ fuel (OK c)) 2.
  destruct (is_fail h1 a1) eqn:FA; [failed E FL (@eq_refl bool true)|].
  apply with_bool_inv in E. destruct E as (f & GF & E).
  rewrite (tree_bool_at _ _ _ _ GF V1) in SP1.
  destruct (feq f FOne) eqn:FZ.
  { injection E as <- <-. split; [reflexivity|]. eapply run_trans; [exact U|].
    eapply (leaf_set _ _ _ _ _ _ _ _ (Bool FOne) (TBool true) SP1);
      [exact (spn_here _ _ _ _ _ _ _ _ SP1)|exact eq_refl|apply no_child_bool|].
    apply delta_wsteps. cbn. now rewrite (feq_sem _ _ s FZ). }
  args E. bnd E h2 r2 EV2.
  destruct (second_arg _ _ _ _ _ _ _ _ _ _ _ SP1 (OK c) (or_intror (or_introl eq_refl)) EV2)
    as (-> & U2 & FL2 & ts2 & F2 & WS & _).
  destruct (is_fail h2 a2) eqn:FA2.
  { injection E as <- <-. split; [reflexivity|]. eapply run_trans; [exact U|]. exact (FL2 eq_refl). }
  apply with_bool_inv in E. destruct E as (f1 & GF1 & E).
  apply with_bool_inv in E. destruct E as (f2 & GF2 & E). injection E as <- <-.
  split; [reflexivity|]. eapply run_trans; [exact U|].
  eapply (leaf_set _ _ _ _ _ _ _ _ (Bool (FOr f1 f2)) (TBool (sem s (FOr f1 f2))) SP1);
    [exact U2|exact eq_refl|apply no_child_bool|].
  eapply apps_wsteps; [exact WS|].
  destruct (trees2 _ _ _ _ F2) as (q1 & q2 & -> & Q1 & Q2).
  rewrite (tree_bool_at _ _ _ _ GF1 Q1), (tree_bool_at _ _ _ _ GF2 Q2). cbn.
  now destruct (sem s f1).
Qed.

Lemma fire_XOR : fire_good P_XOR.
Proof.
  start 2. first E SP (force_ok s _ fuel (OK c)) 2.
  destruct (is_fail h1 a1) eqn:FA; [failed E FL (@eq_refl bool true)|].
  args E. bnd E h2 r2 EV2.
  destruct (second_arg _ _ _ _ _ _ _ _ _ _ _ SP1 (force_ok s _ fuel (OK c)) (or_intror (or_introl eq_refl)) EV2)
    as (-> & U2 & FL2 & ts2 & F2 & WS & _).
  destruct (is_fail h2 a2) eqn:FA2.
  { injection E as <- <-. split; [reflexivity|]. eapply run_trans; [exact U|]. exact (FL2 eq_refl). }
  apply with_bool_inv in E. destruct E as (f1 & GF1 & E).
  apply with_bool_inv in E. destruct E as (f2 & GF2 & E). injection E as <- <-.
  split; [reflexivity|]. eapply run_trans; [exact U|].
  eapply (leaf_set _ _ _ _ _ _ _ _ (Bool (FXor f1 f2)) (TBool (sem s (FXor f1 f2))) SP1);
    [exact U2|exact eq_refl|apply no_child_bool|].
  eapply apps_wsteps; [exact WS|].
  destruct (trees2 _ _ _ _ F2) as (q1 & q2 & -> & Q1 & Q2).
  now rewrite (tree_bool_at _ _ _ _ GF1 Q1), (tree_bool_at _ _ _ _ GF2 Q2).
Qed.

Lemma fire_STRICT : fire_good P_STRICT_CONS.
Proof.
  start 2. first E SP (OK c) 2.
  args E. bnd E h2 r2 EV2.
  destruct (second_arg _ _ _ _ _ _ _ _ _ _ _ SP1 (OK c) (or_intror (or_introl eq_refl)) EV2)
    as (-> & U2 & FL2 & ts2 & F2 & WS & _).
  injection E as <- <-.
  split; [reflexivity|]. eapply run_trans; [exact U|].
  destruct (trees2 _ _ _ _ F2) as (q1 & q2 & -> & Q1 & Q2).
  destruct (spn_args _ _ _ _ _ _ _ _ SP1) as (_ & _ & _ & _ & AQ).
  eapply (spn_set s _ _ _ _ _ _ _ _ _ (TCons q1 q2) SP1); [exact U2| | |].
  - exists q1, q2. auto.
  - intros y [->| ->]; inA.
  - eapply apps_wsteps; [exact WS|reflexivity].
Qed.

Lemma fire_EMPTY : fire_good P_EMPTY.
Proof.
  start 1. first E SP (OK c) 1.
  destruct (is_fail h1 a1) eqn:FA; [failed E FL (@eq_refl bool true)|].
  specialize (WN eq_refl). rewrite (tree_fun s _ _ _ T _ V1) in WN.
  destruct (get h1 a1) as [n|] eqn:GA; [|discriminate E].
  pose proof (proj1 (tree_node _ _ _ _ _ GA) V1) as N.
  assert (X : exists f, Ret (set_nd h1 x0 (Bool f)) x0 = Ret h' r /\
          sem s f = match u1 with TNil => true | _ => false end).
  { destruct n; cbn in N; try destruct N as (? & ? & -> & _); subst; eexists; (split; [exact E|reflexivity]). }
  destruct X as (f & X & SF). injection X as <- <-.
  split; [reflexivity|]. eapply run_trans; [exact U|].
  eapply (leaf_set _ _ _ _ _ _ _ _ (Bool f) (TBool (sem s f)) SP1);
    [exact (spn_here _ _ _ _ _ _ _ _ SP1)|exact eq_refl|apply no_child_bool|].
  apply delta_wsteps. cbn [delta]. now rewrite WN, SF.
Qed.

Lemma fire_IS_CONS : fire_good P_IS_CONS.
Proof.
  start 1. first E SP (OK c) 1.
  destruct (is_fail h1 a1) eqn:FA; [failed E FL (@eq_refl bool true)|].
  specialize (WN eq_refl). rewrite (tree_fun s _ _ _ T _ V1) in WN.
  destruct (get h1 a1) as [n|] eqn:GA; [|discriminate E].
  pose proof (proj1 (tree_node _ _ _ _ _ GA) V1) as N.
  assert (X : exists f, Ret (set_nd h1 x0 (Bool f)) x0 = Ret h' r /\
          sem s f = match u1 with TCons _ _ => true | _ => false end).
  { destruct n; cbn in N; try destruct N as (? & ? & -> & _); subst; eexists; (split; [exact E|reflexivity]). }
  destruct X as (f & X & SF). injection X as <- <-.
  split; [reflexivity|]. eapply run_trans; [exact U|].
  eapply (leaf_set _ _ _ _ _ _ _ _ (Bool f) (TBool (sem s f)) SP1);
    [exact (spn_here _ _ _ _ _ _ _ _ SP1)|exact eq_refl|apply no_child_bool|].
  apply delta_wsteps. cbn [delta]. now rewrite WN, SF.
Qed.

Lemma fire_SUC : fire_good P_SUC.
Proof.
  start 1. first E SP (OK c) 1.
  destruct (is_fail h1 a1) eqn:FA; [failed E FL (@eq_refl bool true)|].
  destruct (get h1 a1) as [[]|] eqn:GA; try discriminate E. injection E as <- <-.
  apply (tree_node _ _ _ _ _ GA) in V1. cbn in V1. subst u1.
  split; [reflexivity|]. eapply run_trans; [exact U|].
  eapply (leaf_set _ _ _ _ _ _ _ _ (Int (z + 1)) (TInt (z + 1)) SP1);
    [exact (spn_here _ _ _ _ _ _ _ _ SP1)|exact eq_refl|apply no_child_int|].
  now apply delta_wsteps.
Qed.

Lemma fire_ERROR : fire_good P_ERROR.
Proof.
  start 1. first E SP (OK c) 1.
  destruct (is_fail h1 a1) eqn:FA; [failed E FL (@eq_refl bool true)|].
  destruct (get h1 a1) as [[]|] eqn:GA; try discriminate E. injection E as <- <-.
  split; [reflexivity|]. eapply run_trans; [exact U|].
  exact (spn_fail s _ _ _ _ _ _ _ _ SP1).
Qed.

Lemma fire_CONSTR_EQ : fire_good P_CONSTR_EQ.
Proof.
  start 2. first E SP (OK c) 2.
  destruct (is_fail h1 a1) eqn:FA; [failed E FL (@eq_refl bool true)|].
  specialize (WN eq_refl). rewrite (tree_fun s _ _ _ T _ V1) in WN, W.
  args E. bnd E h2 r2 EV2.
  destruct (second_arg _ _ _ _ _ _ _ _ _ _ _ SP1 (OK c) (or_intror (or_introl eq_refl)) EV2)
    as (-> & U2 & FL2 & ts2 & F2 & WS & t2' & T2' & W2 & WN2).
  destruct (is_fail h2 a2) eqn:FA2.
  { injection E as <- <-. split; [reflexivity|]. eapply run_trans; [exact U|]. exact (FL2 eq_refl). }
  specialize (WN2 eq_refl).
  destruct (trees2 _ _ _ _ F2) as (q1 & q2 & -> & Q1 & Q2).
  rewrite (tree_fun s _ _ _ T2' _ Q2) in WN2. apply wss2 in WS. destruct WS as [WS1 WS2].
  destruct (get h2 a1) as [n1|] eqn:GN1; [|discriminate E].
  destruct (get h2 a2) as [n2|] eqn:GN2; [|destruct n1; discriminate E].
  pose proof (proj1 (tree_node _ _ _ _ _ GN1) Q1) as N1.
  pose proof (proj1 (tree_node _ _ _ _ _ GN2) Q2) as N2.
  set (v := match u1, q2 with TStr x, TStr y => String.eqb x y | _, _ => false end).
  assert (X : exists f, Ret (set_nd h2 x1 (Bool f)) x1 = Ret h' r /\ sem s f = v).
  { assert (K1 : forall x, u1 = TStr x <-> n1 = Str x).
    { intros x. split.
      - intros ->. pose proof (atom_wsteps _ _ WS1 eq_refl) as Q. subst q1.
        destruct n1; cbn in N1; try destruct N1 as (? & ? & ? & _); try discriminate. congruence.
      - intros ->. cbn in N1. subst q1. now apply whnf_str. }
    assert (K2 : forall x, q2 = TStr x <-> n2 = Str x).
    { intros x. split.
      - intros ->. destruct n2; cbn in N2; try destruct N2 as (? & ? & ? & _); try discriminate.
        congruence.
      - intros ->. exact N2. }
    destruct n1.
    5: { destruct n2.
      5: { eexists. split; [exact E|]. unfold v.
           rewrite (proj2 (K1 _) eq_refl), (proj2 (K2 _) eq_refl).
           now destruct (String.eqb s0 s1). }
      all: eexists; (split; [exact E|]); unfold v; rewrite (proj2 (K1 _) eq_refl);
        destruct q2; try reflexivity; specialize (proj1 (K2 _) eq_refl); discriminate. }
    all: exists FZero; (split; [destruct n2; exact E|]); unfold v; destruct u1; try reflexivity;
      specialize (proj1 (K1 _) eq_refl); discriminate. }
  destruct X as (f & X & SF). injection X as <- <-.
  split; [reflexivity|]. eapply run_trans; [exact U|].
  eapply (leaf_set _ _ _ _ _ _ _ _ (Bool f) (TBool (sem s f)) SP1);
    [exact U2|exact eq_refl|apply no_child_bool|].
  apply apps_wsteps with (ts' := [u1; q2]).
  - constructor; [constructor|]. constructor; [exact WS2|constructor].
  - cbn [delta]. rewrite WN, WN2, SF. reflexivity.
Qed.

Lemma select_ok p ev R h root x0 rest al ts pick missing h' r :
  ev_ok ev -> spn R h root p [x0] al ts ->
  (forall x y u v, delta p [TCons u v] = Some (if Nat.eqb (pick 0 1) 0 then u else v) /\
     pick x y = if Nat.eqb (pick 0 1) 0 then x else y) ->
  select ev h (nth_sp (x0 :: rest) 0) pick missing = Ret h' r ->
  r = x0 /\ run R h h'.
Proof.
  intros OK SP PK E.
  destruct (spn_inv1 _ _ _ _ _ _ _ SP) as (a1 & t1 & -> & -> & G0 & T1).
  unfold select in E. cbn [nth_sp nth] in E. args E.
  bnd E h1 r1 EV.
  set (ev' := fun h a => match get h a with
                         | Some (Cons _ _) | Some Nil => Ret h a
                         | _ => ev h a end) in *.
  assert (OK' : ev_ok ev').
  { intros Q g a g' q GQ DQ QA EQ. unfold ev' in EQ.
    destruct (get g a) as [n|] eqn:GA.
    - destruct n; try (exact (OK _ _ _ _ _ GQ DQ QA EQ)); injection EQ as <- <-;
        (split; [reflexivity|]; split; [now apply run_refl|]);
        destruct (good_tree _ _ _ _ GQ QA) as (t & T); exists t; (split; [exact T|]);
        apply (tree_node _ _ _ _ _ GA) in T; cbn in T.
      + destruct T as (? & ? & -> & _). reflexivity.
      + now subst.
    - exact (OK _ _ _ _ _ GQ DQ QA EQ). }
  destruct (first_arg _ _ _ _ _ _ _ ev' _ _ _ SP OK' (or_introl eq_refl) EV)
    as (-> & U & FL & ts1 & SP1 & t & T & W & WN).
  destruct (is_fail h1 a1) eqn:FA; [failed E FL (@eq_refl bool true)|].
  destruct (spn_inv1 _ _ _ _ _ _ _ SP1) as (b1 & u1 & AE & -> & D0 & V1). injection AE as <-.
  destruct (get h1 a1) as [n|] eqn:GA; [|discriminate E].
  destruct n as [|y z| | | | | |]; try discriminate E.
  - apply (tree_node _ _ _ _ _ GA) in V1. destruct V1 as (u & v & -> & TU & TV).
    bnd E h2 r2 EV2. injection E as <- <-.
    destruct (spn_args _ _ _ _ _ _ _ _ SP1) as (GQ & DQ & _ & _ & AQ).
    pose proof (spn_here _ _ _ _ _ _ _ _ SP1) as HERE.
    assert (QA1 : argR h1 [a1] a1) by (apply AQ; now left).
    assert (QP : argR h1 [a1] (pick y z)).
    { destruct (PK y z u v) as [_ ->]. destruct GQ as [CQ _].
      destruct (Nat.eqb (pick 0 1) 0); (eapply CQ; [exact QA1|exact GA|cbn; auto]). }
    destruct (OK _ _ _ _ _ GQ DQ QP EV2) as (-> & U2 & _).
    split; [reflexivity|]. eapply run_trans; [exact U|].
    destruct (good_tree _ _ _ _ GQ QP) as (w & TW).
    destruct (run_red _ _ _ _ U2 _ w QP TW) as (w' & TW' & SW).
    eapply (spn_copy s _ _ _ _ _ _ _ _ _ w' SP1); [exact U2|now left|exact TW'|].
    eapply wsteps_trans; [|exact SW]. apply delta_wsteps.
    destruct (PK y z u v) as [-> PE]. f_equal. rewrite PE in TW.
    destruct (Nat.eqb (pick 0 1) 0); eapply tree_fun; eassumption.
  - injection E as <- <-. split; [reflexivity|]. eapply run_trans; [exact U|].
    exact (spn_fail s _ _ _ _ _ _ _ _ SP1).
Qed.

Lemma fire_HEAD : fire_good P_HEAD.
Proof.
  intros tl fuel c R h root sp rest al ts h' r OK SP E.
  pose proof (proj1 (proj2 (proj2 (proj2 (proj2 SP))))) as L; cbn in L.
  destruct sp as [|x0 [|]]; try discriminate L.
  apply (select_ok P_HEAD _ _ _ _ _ rest _ _ _ _ _ _ (OK c) SP) in E; [exact E|].
  intros. cbn. auto.
Qed.

Lemma fire_TAIL : fire_good P_TAIL.
Proof.
  intros tl fuel c R h root sp rest al ts h' r OK SP E.
  pose proof (proj1 (proj2 (proj2 (proj2 (proj2 SP))))) as L; cbn in L.
  destruct sp as [|x0 [|]]; try discriminate L.
  apply (select_ok P_TAIL _ _ _ _ _ rest _ _ _ _ _ _ (OK c) SP) in E; [exact E|].
  intros. cbn. auto.
Qed.

Lemma fire_COND : fire_good P_COND.
Proof.
  start 3. first E SP (OK c) 3.
  destruct (is_fail h1 a1) eqn:FA; [failed E FL (@eq_refl bool true)|].
  args E. apply with_bool_inv in E. destruct E as (b & GB & E).
  pose proof (tree_bool_at _ _ _ _ GB V1) as EB. rewrite EB in SP1.
  unfold right_of, left_of in E. rewrite D2 in E.
  assert (ELSE : forall c', sem s b = false ->
    (let* (h2, q) := tl c' (set_nd h1 x2 (App void_nd a3)) a3 in
     Ret (overwrite h2 x2 q) x2) = Ret h' r -> r = x2 /\ run R h h').
  { intros c' B EE. bnd EE h2 r2 EV2. injection EE as <- <-.
    destruct (spn_frame s _ _ _ _ _ _ _ _ _ _ _ _ SP1 (OK c')
                (or_intror (or_intror (or_introl eq_refl))) EV2) as (-> & U2).
    - intros q q' Q WQ. eapply wsteps_trans; [|exact WQ]. apply delta_wsteps. cbn.
      rewrite B. f_equal. eapply tree_fun; eassumption.
    - split; [reflexivity|]. eapply run_trans; eassumption. }
  assert (THEN : forall c', sem s b = true ->
    (let* (h2, q) := tl c' (set_nd h1 x2 (App x1 void_nd)) a2 in
     Ret (overwrite h2 x2 q) x2) = Ret h' r -> r = x2 /\ run R h h').
  { intros c' B EE. bnd EE h2 r2 EV2. injection EE as <- <-.
    destruct (spn_frame s _ _ _ _ _ _ _ _ _ _ _ _ SP1 (OK c')
                (or_intror (or_introl eq_refl)) EV2) as (-> & U2).
    - intros q q' Q WQ. eapply wsteps_trans; [|exact WQ]. apply delta_wsteps. cbn.
      rewrite B. f_equal. eapply tree_fun; eassumption.
    - split; [reflexivity|]. eapply run_trans; eassumption. }
  destruct (feq b FOne) eqn:F1.
  { eapply THEN; [exact (feq_sem _ _ s F1)|exact E]. }
  destruct (feq b FZero) eqn:F2.
  { eapply ELSE; [exact (feq_sem _ _ s F2)|exact E]. }
  destruct (feq (FAnd c b) FZero) eqn:F3.
  { destruct (allowed (Watch s) c) eqn:AL; [|discriminate E]. cbn in AL.
    pose proof (feq_sem _ _ s F3) as Q. cbn in Q. rewrite AL in Q.
    eapply ELSE; [exact Q|exact E]. }
  destruct (feq (FAnd c (FNot b)) FZero) eqn:F4.
  { destruct (allowed (Watch s) c) eqn:AL; [|discriminate E]. cbn in AL.
    pose proof (feq_sem _ _ s F4) as Q. cbn in Q. rewrite AL in Q.
    eapply THEN; [|exact E]. now destruct (sem s b). }
  clear ELSE THEN.
  destruct (spn_args _ _ _ _ _ _ _ _ SP1) as (GQ & DQ & _ & _ & AQ).
  bnd E h2 r2 EV2.
  destruct (second_arg _ _ _ _ _ _ _ _ _ _ _ SP1 (force_ok s _ fuel (OK _))
              (or_intror (or_introl eq_refl)) EV2) as (-> & U2 & FL2 & _).
  destruct (is_fail h2 a2) eqn:FA2.
  { injection E as <- <-. split; [reflexivity|]. eapply run_trans; [exact U|]. exact (FL2 eq_refl). }
  bnd E h3 r3 EV3.
  destruct (ev_more s _ _ _ _ _ _ _ U2 DQ (force_ok s _ fuel (OK _))
              (or_introl (AQ _ (or_intror (or_intror (or_introl eq_refl))))) EV3)
    as (-> & U3 & _).
  destruct (is_fail h3 a3) eqn:FA3.
  { injection E as <- <-. split; [reflexivity|]. eapply run_trans; [exact U|].
    exact (spn_copy_fail s _ _ _ _ _ _ _ _ _ SP1 U3 FA3). }
  apply with_bool_inv in E. destruct E as (b' & GB' & E).
  bnd E h4 x EV4. injection E as <- <-.
  destruct (trees_run s _ _ _ _ _ U3 AQ (proj2 (proj2 (proj2 (proj2 (proj2 (proj2 SP1)))))))
    as (ts3 & F3' & WS).
  destruct (trees3 _ _ _ _ _ F3') as (q1 & q2 & q3 & -> & Q1 & Q2 & Q3).
  pose proof (tree_bool_at _ _ _ _ GB' Q1) as EB'. subst q1.
  destruct (merge_ok s fuel b' _ _ _ _ q2 q3 _ _ (run_good _ _ _ _ U3)
              (or_introl (AQ _ (or_intror (or_introl eq_refl))))
              (or_introl (AQ _ (or_intror (or_intror (or_introl eq_refl))))) Q2 Q3 EV4)
    as (U4 & KEEP & X4 & tx & TX & MX).
  assert (U14 : run (argR h1 [a1; a2; a3]) h1 h4) by (eapply run_trans; eassumption).
  split; [reflexivity|]. eapply run_trans; [exact U|].
  eapply (spn_copy s _ _ _ _ _ _ _ _ _ tx SP1); [exact U14| |exact TX|].
  - pose proof (run_len _ _ _ _ U3). pose proof (run_len _ _ _ _ U4).
    destruct X4 as [[Z|Z]|Z]; [now left|right; lia|right; lia].
  - destruct MX as [(m & ->)| ->].
    + apply wsteps_one, ws_fail. exact (spn_can_fail _ _ _ _ _ _ _ _ SP1).
    + eapply apps_wsteps; [exact WS|]. cbn. now destruct (sem s b').
Qed.

Lemma spn_plain R h root p sp al ts : spn R h root p sp al ts -> plain (TPrm p) = true.
Proof.
  intros SP. pose proof (spn_tree _ _ _ _ _ _ _ _ SP) as T.
  destruct SP as (G & _ & B & _). destruct (good_get _ _ _ _ G B) as (t & T' & P).
  rewrite (tree_fun s _ _ _ T' _ T) in P.
  destruct (plain_spine _ _ _ _ (spine_prim p ts) P eq_refl). assumption.
Qed.

Lemma fire_ok p : fire_good p.
Proof.
  destruct p.
  - exact fire_I. - exact fire_K. - exact fire_S. - exact fire_B. - exact fire_C.
  - exact fire_SPRIME. - exact fire_BPRIME. - exact fire_CPRIME. - exact fire_BSTAR.
  - exact fire_NAMED. - exact fire_NSEQ. - exact fire_SEQ. - exact fire_FSEQ.
  - exact fire_THEN.
  - intros tl fuel c R h root sp rest al ts h' r OK SP E.
    apply spn_plain in SP. discriminate SP.
  - intros tl fuel c R h root sp rest al ts h' r OK SP E.
    apply spn_plain in SP. discriminate SP.
  - exact fire_COND. - exact fire_NOT. - exact fire_AND. - exact fire_OR. - exact fire_XOR.
  - exact fire_CONS. - exact fire_STRICT. - exact fire_HEAD. - exact fire_TAIL.
  - exact fire_EMPTY. - exact fire_IS_CONS. - exact fire_SUC. - exact fire_CONSTR_EQ.
  - exact fire_ERROR.
  - intros tl fuel c R h root sp rest al ts h' r OK SP E. discriminate E.
Qed.

End Thms.
