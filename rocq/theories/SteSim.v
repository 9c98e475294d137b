(* The simulation of SteModel.v covers the executions of the circuit. *)
From Coq Require Import List Arith NArith ZArith Bool Lia Permutation.
From Verif Require Import FsmOps FsmRel FsmBool FsmDelay SteModel SteEv SteForce SteForceThms.
Import ListNotations.

(* ---------------------------------------------------------------------- *)
(* Specification: two-valued executions. *)
(* a dual-rail value admits v *)
Definition can (r : bool * bool) (v : bool) : Prop := if v then fst r = true else snd r = true.
(* x is an execution of N: node 0 is 0, node 1 is 1, and the outputs of each composite are
   among the values its operator gives for the inputs, one time later for a phase delay *)
Definition execution (N : net) (x : Z -> nat -> bool) : Prop :=
  (forall t, x t 0 = false /\ x t 1 = true) /\
  forall k t i o, nth_error (c_outs (cmp N k)) i = Some o ->
    can (nth i (bop (c_op (cmp N k)) (c_size (cmp N k)) (encv (map (x t) (c_ins (cmp N k))))) (true, true))
        (x (if c_phase (cmp N k) then t + 1 else t)%Z o).
(* circuits as compile_expr builds them, without zero-delay loops *)
Record wf (N : net) : Prop := WF {
  w_drv : forall n k, driver N n = Some k -> In n (c_outs (cmp N k));
  w_out : forall n k, In n (c_outs (cmp N k)) -> driver N n = Some k /\ 3 < n < nn N;
  w_nodup : forall k, NoDup (c_outs (cmp N k));
  w_fan : forall n k, In n (c_ins (cmp N k)) -> In k (fanouts N n);
  w_ins : forall n k, In n (c_ins (cmp N k)) -> n < nn N /\ n <> 3;
  w_rank : forall k, c_rank (cmp N k) <= ranks N;
  w_lvl : exists level : nat -> nat, forall k i o, c_phase (cmp N k) = false ->
            In i (c_ins (cmp N k)) -> In o (c_outs (cmp N k)) -> level i < level o }.

Section Sim.
Variables V A : Type.
Variables cand cor : V -> V -> V.
Variable cnot : V -> V.
Variables czero cone : V.
Variable ceq : V -> V -> bool.
Variable weakening : bool.
Variable big : V -> bool.
Variable chg0 : nat -> bool.
Variable den : V -> A -> bool.
Hypothesis D0 : forall a, den czero a = false.
Hypothesis D1 : forall a, den cone a = true.
Hypothesis Da : forall x y a, den (cand x y) a = den x a && den y a.
Hypothesis Do : forall x y a, den (cor x y) a = den x a || den y a.
Hypothesis Dn : forall x a, den (cnot x) a = negb (den x a).
Hypothesis De : forall x y a, ceq x y = true -> den x a = den y a.
Variable N : net.
Hypothesis W : wf N.
Variable a : A.
Local Notation estate := (estate V).
Local Notation sstate := (sstate V).
Local Notation update_node := (update_node V cand cor ceq N).
Local Notation todo := (todo V N).
Local Notation do_op := (do_op V cand cor czero cone ceq weakening big N).
Local Notation eval_comp := (eval_comp V cand cor czero cone weakening big).
Local Notation new_val := (new_val V cand cor).
Local Notation drain := (drain V cand cor czero cone ceq weakening big N).
Local Notation sweep := (sweep V cand cor czero cone ceq weakening big N).
Local Notation combinational := (combinational V cand cor czero cone ceq weakening big N).
Local Notation do_phase := (do_phase V cand cor cone ceq N).
Local Notation phase1 := (phase1 V cand cor cone ceq N).
Local Notation change1 := (change1 V cand cor cone ceq N).

Definition d2 (r : V * V) : bool * bool := (den (fst r) a, den (snd r) a).
Definition antok (E : estate) (n : nat) (v : bool) : Prop := ha V E n = true -> can (d2 (ab V E n)) v.
Definition exact (k : nat) (s : sstate) : list (bool * bool) :=
  bop (c_op (cmp N k)) (c_size (cmp N k)) (map (fun n => d2 (cur V s n)) (c_ins (cmp N k))).

(* the invariant, except for the nodes in X *)
Record Sx (E : estate) (s : sstate) (X : nat -> Prop) : Prop := SX {
  sx1 : forall k i o, ~ X o -> flag V s k = false -> c_phase (cmp N k) = false ->
    nth_error (c_outs (cmp N k)) i = Some o -> forall v, can (nth i (exact k s) (true, true)) v ->
    antok E o v -> can (d2 (cur V s o)) v;
  sx2 : forall k i o, ~ X o -> flag V s k = false -> c_phase (cmp N k) = true ->
    nth_error (c_outs (cmp N k)) i = Some o -> forall v, can (nth i (exact k s) (true, true)) v ->
    can (d2 (if pev V s o then nxt V s o else cur V s o)) v;
  sx3 : forall n, ~ X n -> 3 < n < nn N -> driver N n = None -> forall v, antok E n v -> can (d2 (cur V s n)) v;
  sx4 : can (d2 (cur V s 0)) false /\ can (d2 (cur V s 1)) true /\ forall v, can (d2 (cur V s 2)) v;
  sx5 : forall k, flag V s k = true -> In k (wheel V s (c_rank (cmp N k)));
  sx6 : forall n, pev V s n = true -> exists k, driver N n = Some k /\ c_phase (cmp N k) = true }.
(* antecedents are on nodes other than constants and phase delays *)
Definition antgood (E : estate) : Prop := forall n, ha V E n = true ->
  3 < n < nn N /\ forall k, driver N n = Some k -> c_phase (cmp N k) = false.

Lemma Sx_weaken E s (X Y : nat -> Prop) : (forall n, X n -> Y n) -> Sx E s X -> Sx E s Y.
Proof. intros K [S1 S2 S3 S4 S5 S6]. split; auto; intros; eauto. Qed.

Lemma can_all v : can (true, true) v. Proof. now destruct v. Qed.
Lemma can_one v : can (d2 (cone, cone)) v. Proof. destruct v; cbn; apply D1. Qed.
Lemma can_new E n r v : can (d2 r) v -> antok E n v -> can (d2 (new_val E n r)) v.
Proof.
  unfold antok, SteModel.new_val, d2, can. destruct (hw V E n), (ha V E n), v; cbn; rewrite ?Da, ?Do; intros K Q; auto;
  try (rewrite (Q eq_refl)); rewrite K; reflexivity.
Qed.

(* add_op_todo *)
Lemma todo_cur k s : cur V (todo k s) = cur V s /\ nxt V (todo k s) = nxt V s /\ pev V (todo k s) = pev V s /\
  flag V (todo k s) k = true /\ (forall j, flag V (todo k s) j = false -> flag V s j = false).
Proof.
  unfold SteModel.todo. destruct (flag V s k) eqn:F; [repeat split; auto|]. cbn. repeat split; auto.
  - apply fupd_same.
  - intros j. unfold fupd. destruct (j =? k); [discriminate|auto].
Qed.
Lemma todo_wheel k s : (forall k, flag V s k = true -> In k (wheel V s (c_rank (cmp N k)))) ->
  forall j, flag V (todo k s) j = true -> In j (wheel V (todo k s) (c_rank (cmp N j))).
Proof.
  intros K j. unfold SteModel.todo. destruct (flag V s k) eqn:F; [apply K|]. cbn.
  unfold fupd at 1 2. destruct (Nat.eqb_spec j k) as [->|D]; [rewrite Nat.eqb_refl; intros _; now left|].
  intros Fj. specialize (K j Fj). destruct (c_rank (cmp N j) =? c_rank (cmp N k)) eqn:R; auto.
  apply Nat.eqb_eq in R. rewrite <- R. now right.
Qed.
Lemma Sx_todo E s X k : Sx E s X -> Sx E (todo k s) X.
Proof.
  intros [S1 S2 S3 S4 S5 S6]. destruct (todo_cur k s) as [C [Nx [Pv [_ F]]]].
  split; unfold exact; rewrite ?C, ?Nx, ?Pv; auto.
  - intros; eapply S1; eauto.
  - intros; eapply S2; eauto.
  - now apply todo_wheel.
Qed.
Lemma todos_spec l : forall s, let s' := fold_left (fun s k => todo k s) l s in
  cur V s' = cur V s /\ nxt V s' = nxt V s /\ pev V s' = pev V s /\
  (forall k, In k l -> flag V s' k = true) /\ (forall j, flag V s' j = false -> flag V s j = false) /\
  ((forall k, flag V s k = true -> In k (wheel V s (c_rank (cmp N k)))) ->
   forall k, flag V s' k = true -> In k (wheel V s' (c_rank (cmp N k)))).
Proof.
  induction l as [|x l IH]; intros s; cbn.
  - do 3 (split; [reflexivity|]). split; [now intros k []|]. auto.
  - destruct (todo_cur x s) as [C [Nx [Pv [F1 F2]]]]. destruct (IH (todo x s)) as [I1 [I2 [I3 [I4 [I5 I6]]]]].
    cbn in *. rewrite I1, I2, I3. do 3 (split; [assumption|]). split.
    + intros k [<-|K]; auto. destruct (flag V (fold_left _ l _) x) eqn:Q; auto. apply I5 in Q. congruence.
    + split; [eauto|]. intros K. apply I6. now apply todo_wheel.
Qed.

(* update_node *)
Lemma update_spec E n r s : let s' := fst (update_node E n r s) in
  cur V s' = fupd (cur V s) n (new_val E n r) /\ nxt V s' = nxt V s /\ pev V s' = pev V s /\
  (forall k, flag V s' k = false -> flag V s k = false /\ exact k s' = exact k s) /\
  ((forall k, flag V s k = true -> In k (wheel V s (c_rank (cmp N k)))) ->
   forall k, flag V s' k = true -> In k (wheel V s' (c_rank (cmp N k)))).
Proof.
  unfold SteModel.update_node. set (r' := new_val E n r).
  set (s1 := SS V (fupd (cur V s) n r') (nxt V s) (pev V s) (flag V s) (wheel V s) _).
  destruct (ceq (fst r') (fst (cur V s n)) && ceq (snd r') (snd (cur V s n))) eqn:Q; cbn.
  - apply andb_true_iff in Q as [Q1 Q2]. repeat (split; [now auto|]). split; auto.
    intros k F. split; auto. unfold exact. f_equal. apply map_ext. intros m. cbn. unfold fupd.
    destruct (Nat.eqb_spec m n) as [->|]; auto. unfold d2. now rewrite (De _ _ a Q1), (De _ _ a Q2).
  - destruct (todos_spec (fanouts N n) s1) as [I1 [I2 [I3 [I4 [I5 I6]]]]]. cbn in *.
    split; auto. split; auto. split; auto. split; [|auto].
    intros k F. split; [apply (I5 k F)|]. unfold exact. f_equal. apply map_ext_in. intros m M.
    rewrite I1. cbn. unfold fupd. destruct (Nat.eqb_spec m n) as [->|]; auto. exfalso.
    apply (w_fan N W) in M. apply I4 in M. congruence.
Qed.
Lemma driver_out k o i : nth_error (c_outs (cmp N k)) i = Some o -> driver N o = Some k /\ 3 < o < nn N.
Proof. intros K. apply nth_error_In in K. now apply (w_out N W). Qed.

Lemma Sx_update E n r s (X : nat -> Prop) : Sx E s (fun m => X m \/ m = n) -> antgood E ->
  (forall k i, c_phase (cmp N k) = false -> nth_error (c_outs (cmp N k)) i = Some n -> flag V s k = false ->
     forall v, can (nth i (exact k s) (true, true)) v -> can (d2 r) v) ->
  (forall k i, c_phase (cmp N k) = true -> nth_error (c_outs (cmp N k)) i = Some n ->
     pev V s n = false /\
     (flag V s k = false -> forall v, can (nth i (exact k s) (true, true)) v -> can (d2 r) v)) ->
  (driver N n = None -> forall v, can (d2 r) v) ->
  Sx E (fst (update_node E n r s)) X.
Proof.
  intros [S1 S2 S3 S4 S5 S6] AG H1 H2 H3.
  destruct (update_spec E n r s) as [C [Nx [Pv [F Wh]]]]. cbn in *.
  set (s' := fst (update_node E n r s)) in *. clearbody s'.
  split; auto.
  - intros k i o O Fk P B v K AO. destruct (F k Fk) as [Fk' Ex]. rewrite Ex in K. rewrite C. unfold fupd.
    destruct (Nat.eqb_spec o n) as [->|D]; [|apply (S1 k i o); auto; intros [?|?]; auto].
    apply can_new; auto. apply (H1 k i); auto.
  - intros k i o O Fk P B v K. destruct (F k Fk) as [Fk' Ex]. rewrite Ex in K. rewrite C, Nx, Pv. unfold fupd.
    destruct (Nat.eqb_spec o n) as [->|D]; [|apply (S2 k i o); auto; intros [?|?]; auto].
    destruct (H2 k i P B) as [Pn Q]. rewrite Pn. apply can_new; [now apply Q|].
    intros HA. exfalso. destruct (AG n HA) as [_ AG']. destruct (driver_out k n i B) as [DR _].
    specialize (AG' k DR). congruence.
  - intros m O L DN v AO. rewrite C. unfold fupd.
    destruct (Nat.eqb_spec m n) as [->|D]; [|apply S3; auto; intros [?|?]; auto].
    apply can_new; auto.
  - assert (G : forall m v, m <= 3 -> m = n -> can (d2 (fupd (cur V s) n (new_val E n r) m)) v).
    { intros m v L ->. rewrite fupd_same. apply can_new.
      - apply H3. destruct (driver N n) as [k|] eqn:DR; auto. exfalso. apply (w_drv N W), (w_out N W) in DR. lia.
      - intros HA. apply AG in HA. lia. }
    rewrite C. destruct S4 as [U1 [U2 U3]]. split; [|split].
    + destruct (Nat.eq_dec 0 n); [apply G; auto; lia|rewrite fupd_other by auto; auto].
    + destruct (Nat.eq_dec 1 n); [apply G; auto; lia|rewrite fupd_other by auto; auto].
    + intros v. destruct (Nat.eq_dec 2 n); [apply G; auto; lia|rewrite fupd_other by auto; auto].
  - intros m. rewrite Pv. apply S6.
Qed.

(* the values of a composite, with or without weakening, admit what the exact ones admit *)
Lemma eval_weak E k (f : nat -> V * V) i v :
  can (nth i (bop (c_op (cmp N k)) (c_size (cmp N k)) (map (fun n => d2 (f n)) (c_ins (cmp N k)))) (true, true)) v ->
  can (d2 (nth i (eval_comp E N k f) (cone, cone))) v.
Proof.
  set (c := cmp N k).
  assert (DD : d2 (cone, cone) = (true, true)) by (unfold d2; cbn; now rewrite D1).
  pose proof (eval_den V cand cor czero cone (fun x => den x a) (c_op c) (c_size c) (map f (c_ins c))
    (D0 a) (D1 a) (fun x y => Da x y a) (fun x y => Do x y a)) as EQ.
  rewrite map_map in EQ. change (den2 V (fun x => den x a)) with d2 in EQ. intros K. rewrite <- EQ in K.
  rewrite <- DD in K. rewrite map_nth in K.
  unfold SteModel.eval_comp. fold c. destruct (weakening && negb (nowk V E k)); auto.
  assert (F : Forall2 (weaker V A den) (map f (c_ins c)) (map f (c_ins c))).
  { generalize (map f (c_ins c)). clear. intros l. induction l; constructor; auto. split; intros b Q; exact Q. }
  assert (L : forall g x y, implied V A den (g x y) (limited big cone g x y)).
  { intros g x y b Q. unfold limited. destruct (big (g x y)); auto. }
  pose proof (weak_op V A cand cor (limited big cone cand) (limited big cone cor) czero cone den Da Do
    (L cand) (L cor) (c_op c) (c_size c) _ _ F) as WK.
  clear EQ F. revert K. generalize dependent i. induction WK as [|x y l m [Q1 Q2] WK IH]; intros i K; [destruct i; exact K|].
  destruct i as [|i]; cbn in *.
  - destruct v; cbn in *; auto.
  - now apply IH.
Qed.

(* the outputs of a composite *)
Lemma Sx_put_now E k l : c_phase (cmp N k) = false -> forall outs done s cnt,
  c_outs (cmp N k) = done ++ outs ->
  Sx E s (fun m => In m outs) -> antgood E ->
  (flag V s k = false -> forall i v, can (nth i (exact k s) (true, true)) v -> can (d2 (nth i l (cone, cone))) v) ->
  let s' := fst (put_now V cand cor cone ceq N E outs (length done) l s cnt) in
  Sx E s' (fun _ => False) /\ (forall n, ~ In n outs -> cur V s' n = cur V s n) /\ pev V s' = pev V s.
Proof.
  intros P. induction outs as [|o outs IH]; intros dn s cnt E1 S1 AG K; cbn.
  - split; [eapply Sx_weaken; [|exact S1]; intros n []|auto].
  - pose proof (update_spec E o (nth (length dn) l (cone, cone)) s) as US.
    pose proof (Sx_update E o (nth (length dn) l (cone, cone)) s (fun m => In m outs)) as UX.
    destruct (update_node E o (nth (length dn) l (cone, cone)) s) as [s1 d]. cbn [fst] in US, UX.
    assert (ND : NoDup (dn ++ o :: outs)) by (rewrite <- E1; apply (w_nodup N W)).
    assert (IO : forall j i, nth_error (c_outs (cmp N j)) i = Some o -> j = k /\ i = length dn).
    { intros j i J. assert (j = k).
      { apply driver_out in J as [J _]. assert (In o (c_outs (cmp N k))) as M by (rewrite E1; apply in_elt).
        apply (w_out N W) in M as [M _]. congruence. } subst j. split; auto.
      rewrite E1 in J. assert (L : i < length (dn ++ o :: outs)) by (apply nth_error_Some; congruence).
      apply (proj1 (NoDup_nth_error _) ND i (length dn) L). rewrite J.
      rewrite nth_error_app2, Nat.sub_diag by lia. reflexivity. }
    cbn zeta in US. destruct US as [C [Nx [Pv [F Wh]]]].
    assert (S2 : Sx E s1 (fun m => In m outs)).
    { apply UX; auto.
      - eapply Sx_weaken; [|exact S1]. cbn. intros n [<-|?]; auto.
      - intros j i Pj B Fj v Q. destruct (IO j i B) as [-> ->]. now apply K.
      - intros j i Pj B. destruct (IO j i B) as [-> ->]. congruence.
      - intros DN. exfalso. assert (M : In o (c_outs (cmp N k))) by (rewrite E1; apply in_elt).
        apply (w_out N W) in M as [M _]. congruence. }
    replace (S (length dn)) with (length (dn ++ [o])) by (rewrite app_length; cbn; lia).
    destruct (IH (dn ++ [o]) s1 (cnt + d)) as [I1 [I2 I3]]; auto.
    { now rewrite <- app_assoc. }
    { intros Fk i v Q. destruct (F k Fk) as [Fk' Ex]. rewrite Ex in Q. now apply K. }
    split; auto. split; [|congruence]. intros n NI. rewrite I2 by tauto. rewrite C. apply fupd_other. intros ->. tauto.
Qed.
Lemma Sx_put_next E k l : c_phase (cmp N k) = true -> forall outs done s,
  c_outs (cmp N k) = done ++ outs ->
  Sx E s (fun m => In m outs) ->
  (flag V s k = false -> forall i v, can (nth i (exact k s) (true, true)) v -> can (d2 (nth i l (cone, cone))) v) ->
  let s' := put_next V cone outs (length done) l s in
  Sx E s' (fun _ => False) /\ cur V s' = cur V s.
Proof.
  intros P. induction outs as [|o outs IH]; intros dn s E1 S1 K; cbn.
  - split; [eapply Sx_weaken; [|exact S1]; intros n []|auto].
  - set (s1 := SS V _ _ _ _ _ _).
    assert (ND : NoDup (dn ++ o :: outs)) by (rewrite <- E1; apply (w_nodup N W)).
    assert (IO : forall j i, nth_error (c_outs (cmp N j)) i = Some o -> j = k /\ i = length dn).
    { intros j i J. assert (j = k).
      { apply driver_out in J as [J _]. assert (In o (c_outs (cmp N k))) as M by (rewrite E1; apply in_elt).
        apply (w_out N W) in M as [M _]. congruence. } subst j. split; auto.
      rewrite E1 in J. assert (L : i < length (dn ++ o :: outs)) by (apply nth_error_Some; congruence).
      apply (proj1 (NoDup_nth_error _) ND i (length dn) L). rewrite J.
      rewrite nth_error_app2, Nat.sub_diag by lia. reflexivity. }
    assert (DO : driver N o = Some k).
    { assert (M : In o (c_outs (cmp N k))) by (rewrite E1; apply in_elt). now apply (w_out N W) in M as [M _]. }
    assert (S2 : Sx E s1 (fun m => In m outs)).
    { destruct S1 as [S1 S2 S3 S4 S5 S6]. split; auto.
      - intros j i m O Fj Pj B v Q. apply (S1 j i m); auto. intros [<-|?]; auto.
        destruct (IO j i B) as [-> ->]. congruence.
      - intros j i m O Fj Pj B v Q. cbn. unfold fupd. destruct (Nat.eqb_spec m o) as [->|D].
        + destruct (IO j i B) as [-> ->]. now apply K.
        + apply (S2 j i m); auto. intros [<-|?]; auto.
      - intros m O L DN v Q. apply S3; auto. intros [<-|?]; auto. congruence.
      - intros m. cbn. unfold fupd. destruct (Nat.eqb_spec m o) as [->|D]; eauto. }
    replace (S (length dn)) with (length (dn ++ [o])) by (rewrite app_length; cbn; lia).
    destruct (IH (dn ++ [o]) s1) as [I1 I2]; auto. now rewrite <- app_assoc.
Qed.

(* one composite from the wheel *)
Definition J (x : nat -> bool) (s : sstate) : Prop := forall n k, driver N n = Some k ->
  c_phase (cmp N k) = true -> can (d2 (cur V s n)) (x n).
Lemma Sx_do_op E k s x : Sx E s (fun m => In m (c_outs (cmp N k))) -> antgood E -> J x s ->
  Sx E (fst (do_op E k s)) (fun _ => False) /\ J x (fst (do_op E k s)).
Proof.
  intros S1 AG JX. unfold SteModel.do_op.
  assert (K : forall i v, can (nth i (exact k s) (true, true)) v ->
    can (d2 (nth i (eval_comp E N k (cur V s)) (cone, cone))) v) by (intros; now apply eval_weak).
  destruct (c_phase (cmp N k)) eqn:P; cbn [fst].
  - destruct (Sx_put_next E k (eval_comp E N k (cur V s)) P (c_outs (cmp N k)) [] s) as [I1 I2]; auto.
    split; auto. intros n j. cbn in I2. rewrite I2. apply JX.
  - destruct (Sx_put_now E k (eval_comp E N k (cur V s)) P (c_outs (cmp N k)) [] s 0) as [I1 [I2 _]]; auto.
    split; auto. intros n j DR Pj. cbn in I2. rewrite I2; [now apply (JX n j)|].
    intros M. apply (w_out N W) in M as [M _]. congruence.
Qed.
Lemma Sx_pop E s k r w : Sx E s (fun _ => False) -> wheel V s r = k :: w ->
  Sx E (SS V (cur V s) (nxt V s) (pev V s) (fupd (flag V s) k false) (fupd (wheel V s) r w) (valid V s))
     (fun m => In m (c_outs (cmp N k))).
Proof.
  intros [S1 S2 S3 S4 S5 S6] Q. split; auto.
  - intros j i o O. cbn. unfold fupd. destruct (Nat.eqb_spec j k) as [->|D].
    + intros _ _ B. exfalso. apply O. eapply nth_error_In; eauto.
    + intros; eapply (S1 j); eauto.
  - intros j i o O. cbn. unfold fupd. destruct (Nat.eqb_spec j k) as [->|D].
    + intros _ _ B. exfalso. apply O. eapply nth_error_In; eauto.
    + intros; eapply (S2 j); eauto.
  - intros m _. apply S3. tauto.
  - intros j. cbn. unfold fupd. destruct (Nat.eqb_spec j k) as [->|D]; [discriminate|].
    intros F. specialize (S5 j F). destruct (Nat.eqb_spec (c_rank (cmp N j)) r) as [E1|]; auto.
    rewrite E1, Q in S5. destruct S5; [congruence|auto].
Qed.

Lemma drain_ok E x : antgood E -> forall gas r s cnt s' cnt', Sx E s (fun _ => False) -> J x s ->
  drain E gas r s cnt = Some (s', cnt') -> Sx E s' (fun _ => False) /\ J x s'.
Proof.
  intros AG. induction gas as [|gas IH]; intros r s cnt s' cnt' S1 JX; cbn.
  - destruct (wheel V s r); [|discriminate]. intros Q; injection Q as <- <-. auto.
  - destruct (wheel V s r) as [|k w] eqn:Q; [intros Q'; injection Q' as <- <-; auto|].
    set (s1 := SS V _ _ _ _ _ _). destruct (do_op E k s1) as [s2 d] eqn:O. intros R.
    destruct (Sx_do_op E k s1 x) as [I1 I2]; auto; [now apply Sx_pop|].
    rewrite O in I1, I2. cbn in I1, I2. eapply IH; eauto.
Qed.
Lemma drain_nil E gas r s cnt : wheel V s r = [] -> drain E gas r s cnt = Some (s, cnt).
Proof. intros Q. destruct gas; cbn; now rewrite Q. Qed.
Lemma sweep_ok E x : antgood E -> forall r gas s cnt e s' cnt' e', Sx E s (fun _ => False) -> J x s ->
  sweep E gas r s cnt e = Some (s', cnt', e') -> Sx E s' (fun _ => False) /\ J x s' /\
  (e' = true -> s' = s /\ e = true /\ forall q, q <= r -> wheel V s q = []).
Proof.
  intros AG. induction r as [|r IH]; intros gas s cnt e s' cnt' e' S1 JX; cbn;
  destruct (drain E gas _ s cnt) as [[s1 c1]|] eqn:D; try discriminate.
  - intros Q; injection Q as <- <- <-. destruct (drain_ok E x AG _ _ _ _ _ _ S1 JX D) as [I1 I2].
    split; auto. split; auto. intros B. apply andb_true_iff in B as [B1 B2].
    destruct (wheel V s 0) eqn:Q; [|discriminate]. rewrite drain_nil in D by auto. injection D as <- <-.
    split; auto. split; auto. intros q L. now replace q with 0 by lia.
  - intros Q. destruct (drain_ok E x AG _ _ _ _ _ _ S1 JX D) as [I1 I2].
    destruct (IH _ _ _ _ _ _ _ I1 I2 Q) as [K1 [K2 K3]]. split; auto. split; auto. intros B.
    destruct (K3 B) as [-> [K4 K5]]. apply andb_true_iff in K4 as [B1 B2].
    destruct (wheel V s (S r)) eqn:Q'; [|discriminate]. rewrite drain_nil in D by auto. injection D as <- <-.
    split; auto. split; auto. intros q L. destruct (Nat.eq_dec q (S r)) as [->|]; auto. apply K5. lia.
Qed.
Lemma combinational_ok E x : antgood E -> forall it gas s cnt s' cnt', Sx E s (fun _ => False) -> J x s ->
  combinational E gas it s cnt = Some (s', cnt', false) -> Sx E s' (fun _ => False) /\ J x s' /\
  forall k, flag V s' k = false.
Proof.
  intros AG. induction it as [|it IH]; intros gas s cnt s' cnt' S1 JX; cbn; [discriminate|].
  destruct (sweep E gas (ranks N) s cnt true) as [[[s1 c1] e]|] eqn:Q; [|discriminate].
  destruct (sweep_ok E x AG _ _ _ _ _ _ _ _ S1 JX Q) as [I1 [I2 I3]].
  destruct e; [|now apply IH]. intros R; injection R as <- <-. split; auto. split; auto.
  destruct (I3 eq_refl) as [-> [_ I4]]. intros k. destruct (flag V s k) eqn:F; auto.
  apply (sx5 _ _ _ I1) in F. rewrite I4 in F by apply (w_rank N W). destruct F.
Qed.

(* when the wheel is empty every node admits its value *)
Lemma bop_can o n (l : list (bool * bool)) (b : list bool) i v : Forall2 can l b ->
  can (nth i (bop o n (encv b)) (true, true)) v -> can (nth i (bop o n l) (true, true)) v.
Proof.
  intros F. assert (L : Forall2 less l (encv b)).
  { induction F as [|[h g] c x y Q F IH]; constructor; auto. unfold less, enc. destruct c; cbn in *; split; auto; discriminate. }
  apply (mono_op o n) in L. revert i. induction L as [|x y p q [Q1 Q2] L IH]; intros [|i]; cbn; auto.
  destruct v; cbn; auto.
Qed.
Definition covers (x : nat -> bool) (f : nat -> V * V) : Prop :=
  forall n, n < nn N -> n <> 3 -> can (d2 (f n)) (x n).
Lemma cover E s (y : Z -> nat -> bool) t : Sx E s (fun _ => False) -> (forall k, flag V s k = false) ->
  execution N y -> J (y t) s -> (forall n, antok E n (y t n)) -> covers (y t) (cur V s).
Proof.
  intros S1 F [X0 X1] JX AO. destruct (w_lvl N W) as [lv LV].
  assert (G : forall m n, lv n < m -> n < nn N -> n <> 3 -> can (d2 (cur V s n)) (y t n)).
  { induction m as [|m IH]; intros n L Ln N3; [lia|].
    destruct (driver N n) as [k|] eqn:DR.
    - destruct (c_phase (cmp N k)) eqn:P; [now apply (JX n k)|].
      pose proof (w_drv N W n k DR) as M. apply In_nth_error in M as [i B].
      apply (sx1 _ _ _ S1 k i n); auto. specialize (X1 k t i n B). rewrite P in X1.
      unfold exact. eapply bop_can; [|exact X1].
      assert (IN : forall j, In j (c_ins (cmp N k)) -> can (d2 (cur V s j)) (y t j)).
      { intros j Ij. destruct (w_ins N W j k Ij). apply IH; auto.
        assert (lv j < lv n) by (apply (LV k); auto; eapply nth_error_In; eauto). lia. }
      clear - IN. induction (c_ins (cmp N k)); cbn; constructor; auto.
      + apply IN. now left.
      + apply IHl. intros; apply IN. now right.
    - destruct (X0 t) as [U0 U1]. destruct (sx4 _ _ _ S1) as [V0 [V1 V2]].
      destruct n as [|[|[|[|n]]]]; try congruence; try lia.
      + now rewrite U0.
      + now rewrite U1.
      + apply V2.
      + apply (sx3 _ _ _ S1); auto; lia. }
  intros n L1 L2. apply (G (S (lv n))); auto.
Qed.

(* do_phase *)
Lemma phase_ok E s (y : Z -> nat -> bool) t : antgood E -> Sx E s (fun _ => False) -> (forall k, flag V s k = false) ->
  execution N y -> covers (y t) (cur V s) ->
  Sx E (do_phase E s) (fun _ => False) /\ J (y (t + 1)%Z) (do_phase E s).
Proof.
  intros AG S1 F [X0 X1] CV.
  set (K := fun s => forall n k, driver N n = Some k -> c_phase (cmp N k) = true ->
     can (d2 (if pev V s n then nxt V s n else cur V s n)) (y (t + 1)%Z n)).
  assert (K0 : K s).
  { intros n k DR P. pose proof (w_drv N W n k DR) as M. apply In_nth_error in M as [i B].
    apply (sx2 _ _ _ S1 k i n); auto. specialize (X1 k t i n B). rewrite P in X1.
    unfold exact. eapply bop_can; [|exact X1].
    assert (IN : forall j, In j (c_ins (cmp N k)) -> can (d2 (cur V s j)) (y t j)).
    { intros j Ij. destruct (w_ins N W j k Ij). now apply CV. }
    clear - IN. induction (c_ins (cmp N k)); cbn; constructor; auto.
    - apply IN. now left.
    - apply IHl. intros; apply IN. now right. }
  assert (ST : forall n s, Sx E s (fun _ => False) -> K s ->
     Sx E (phase1 E s n) (fun _ => False) /\ K (phase1 E s n) /\
     (forall m, pev V (phase1 E s n) m = true -> pev V s m = true) /\ pev V (phase1 E s n) n = false).
  { clear - W AG De D1 Da Do. intros n s S1 KS. unfold SteModel.phase1.
    destruct ((3 <? n) && _) eqn:C.
    - apply andb_true_iff in C as [C1 C2]. destruct (driver N n) eqn:DR; [discriminate|].
      destruct (update_spec E n (cone, cone) s) as [C [Nx [Pv _]]]. cbn in *.
      assert (NB : forall k i, nth_error (c_outs (cmp N k)) i <> Some n).
      { intros k i B. apply driver_out in B as [B _]. congruence. }
      split; [|split; [|split]].
      + apply Sx_update; auto.
        * eapply Sx_weaken; [|exact S1]. intros m [].
        * intros k i _ B. now apply NB in B.
        * intros k i _ B. now apply NB in B.
        * intros _ v. apply can_one.
      + intros m k DR' P. rewrite C, Nx, Pv. rewrite fupd_other by (intros ->; congruence). now apply (KS m k).
      + intros m. now rewrite Pv.
      + rewrite Pv. destruct (pev V s n) eqn:Q; auto. apply (sx6 _ _ _ S1) in Q as [k [Q _]]. congruence.
    - clear C. destruct (pev V s n) eqn:PV; [|auto].
      destruct (sx6 _ _ _ S1 n PV) as [k0 [DR P0]].
      set (s1 := SS V _ _ _ _ _ _).
      destruct (update_spec E n (nxt V s n) s1) as [C [Nx [Pv _]]]. cbn in C, Nx, Pv.
      assert (HA : ha V E n = false).
      { destruct (ha V E n) eqn:HA; auto. destruct (AG n HA) as [_ Q]. specialize (Q k0 DR). congruence. }
      split; [|split; [|split]].
      + apply Sx_update; auto.
        * destruct S1 as [S1 S2 S3 S4 S5 S6]. split; auto.
          -- intros k i o O Fk P B. apply (S1 k i o); auto.
          -- intros k i o O Fk P B v Q. cbn. rewrite fupd_other by (intros ->; tauto). apply (S2 k i o); auto.
          -- intros m _. apply S3. tauto.
          -- intros m. cbn. unfold fupd. destruct (m =? n); [discriminate|apply S6].
        * intros k i P B. apply driver_out in B as [B _]. congruence.
        * intros k i P B. split; [cbn; apply fupd_same|]. intros Fk v Q.
          pose proof (sx2 _ _ _ S1 k i n (fun f => f) Fk P B v Q) as R. now rewrite PV in R.
        * congruence.
      + intros m k DR' P. rewrite C, Nx, Pv. unfold fupd. destruct (Nat.eqb_spec m n) as [->|D]; [|now apply (KS m k)].
        pose proof (KS n k DR' P) as R. rewrite PV in R. apply can_new; auto. intros Q; congruence.
      + intros m. rewrite Pv. unfold fupd. destruct (m =? n); [discriminate|auto].
      + rewrite Pv. apply fupd_same. }
  assert (G : forall l s, Sx E s (fun _ => False) -> K s ->
     let s' := fold_left (phase1 E) l s in Sx E s' (fun _ => False) /\ K s' /\
     (forall m, pev V s' m = true -> pev V s m = true) /\ forall m, In m l -> pev V s' m = false).
  { clear - ST. induction l as [|n l IH]; intros s S1 KS; cbn; [split; [auto|split; [auto|split; [auto|now intros m []]]]|].
    destruct (ST n s S1 KS) as [T1 [T2 [T3 T4]]].
    destruct (IH _ T1 T2) as [I1 [I2 [I3 I4]]]. cbn in *. split; auto. split; auto. split; auto.
    intros m [<-|M]; auto. destruct (pev V (fold_left _ l _) n) eqn:Q; auto. apply I3 in Q. congruence. }
  destruct (G (seq 0 (nn N)) s S1 K0) as [G1 [G2 [_ G4]]]. split; auto.
  intros n k DR P. specialize (G2 n k DR P). unfold SteModel.do_phase in *. rewrite G4 in G2; auto.
  apply in_seq. pose proof (w_drv N W n k DR) as M. apply (w_out N W) in M. lia.
Qed.

(* nodes whose conditions changed *)
Lemma change_ok E0 E s x : antgood E -> Sx E0 s (fun _ => False) -> J x s ->
  (forall n, chg V E n = false -> forall v, antok E n v -> antok E0 n v) ->
  let s' := fold_left (change1 E) (seq 0 (nn N)) s in Sx E s' (fun _ => False) /\ J x s'.
Proof.
  intros AG S0 J0 C.
  assert (G : forall l s, Sx E s (fun m => In m l /\ chg V E m = true) -> J x s ->
     let s' := fold_left (change1 E) l s in Sx E s' (fun _ => False) /\ J x s').
  { clear - AG W De D1 Da Do. induction l as [|n l IH]; intros s S1 JX; cbn.
    - split; auto. eapply Sx_weaken; [|exact S1]. now intros m [[] _].
    - apply IH; unfold SteModel.change1; destruct (chg V E n) eqn:CN.
      + destruct (driver N n) as [k|] eqn:DR.
        * pose proof (Sx_todo E s _ k S1) as S2. destruct (todo_cur k s) as [_ [_ [_ [FK _]]]].
          destruct S2 as [T1 T2 T3 T4 T5 T6]. split; auto.
          -- intros j i o O Fj P B. apply (T1 j i o); auto. intros [[<-|M] CC]; [|tauto].
             apply driver_out in B as [B _]. congruence.
          -- intros j i o O Fj P B. apply (T2 j i o); auto. intros [[<-|M] CC]; [|tauto].
             apply driver_out in B as [B _]. congruence.
          -- intros m O L DM. apply T3; auto. intros [[<-|M] CC]; [congruence|tauto].
        * apply Sx_update; auto.
          -- eapply Sx_weaken; [|exact S1]. cbn. intros m [[<-|M] CC]; auto.
          -- intros k i _ B. apply driver_out in B as [B _]. congruence.
          -- intros k i _ B. apply driver_out in B as [B _]. congruence.
          -- intros _ v. apply can_one.
      + eapply Sx_weaken; [|exact S1]. cbn. intros m [[<-|M] CC]; [congruence|auto].
      + destruct (driver N n) as [k|] eqn:DR.
        * intros m j. destruct (todo_cur k s) as [-> _]. apply JX.
        * intros m j DM P. destruct (update_spec E n (cone, cone) s) as [Cu _]. rewrite Cu.
          rewrite fupd_other by (intros ->; congruence). now apply (JX m j).
      + exact JX. }
  apply G; auto. destruct S0 as [S1 S2 S3 S4 S5 S6]. split; auto.
  - intros k i o O Fk P B v Q AO. apply (S1 k i o); auto. apply C; auto.
    destruct (chg V E o) eqn:CO; auto. exfalso. apply O. split; auto. apply in_seq.
    apply driver_out in B. lia.
  - intros k i o O Fk P B v Q. apply (S2 k i o); auto.
  - intros n O L DN v AO. apply S3; auto. apply C; auto.
    destruct (chg V E n) eqn:CO; auto. exfalso. apply O. split; auto. apply in_seq. lia.
Qed.
End Sim.
