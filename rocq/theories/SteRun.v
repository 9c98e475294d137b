(* Soundness of gSTE: the main loop. *)
From Coq Require Import List Arith NArith ZArith Bool Lia Permutation.
From Verif Require Import FsmOps FsmBool SteModel SteEv SteForce SteForceThms SteSim.
Import ListNotations.

Section Run.
Variables V A : Type.
Variables cand cor : V -> V -> V.
Variable cnot : V -> V.
Variables czero cone : V.
Variable ceq : V -> V -> bool.
Variable weakening : bool.
Variable big : V -> bool.
Variable chg0 : nat -> bool.
Variable den : V -> A -> bool.
Hypothesis D0 : forall a, den czero a = false.
Hypothesis D1 : forall a, den cone a = true.
Hypothesis Da : forall x y a, den (cand x y) a = den x a && den y a.
Hypothesis Do : forall x y a, den (cor x y) a = den x a || den y a.
Hypothesis Dn : forall x a, den (cnot x) a = negb (den x a).
Hypothesis De : forall x y a, ceq x y = true -> den x a = den y a.
Variable N : net.
Hypothesis W : wf N.
Variable a : A.
Variables (wl : list (weak_t V)) (ant cons : list (cond_t V)) (trl : list trace_t).
Hypothesis PR : proper V wl ant cons trl.

(* a tuple list is satisfied by x for the assignment a *)
Definition satisfies (l : list (cond_t V)) (x : Z -> nat -> bool) : Prop :=
  forall k t, In k l -> (k_from V k <= t < k_to V k)%Z ->
    den (k_when V k) a = true -> den (k_val V k) a = x t (k_nd V k).

(* antecedents are on nodes that are not constants and not outputs of phase delays *)
Hypothesis AN : forall k, In k ant -> 3 < k_nd V k < nn N /\
  forall j, driver N (k_nd V k) = Some j -> c_phase (cmp N j) = false.
Hypothesis CN : forall k, In k cons -> k_nd V k < nn N /\ k_nd V k <> 3.
(* where an antecedent ends, no consequent or trace on the node starts, unless a
   weakening or antecedent does *)
Definition restarts (n : nat) (t : Z) : Prop :=
  (exists w, In w wl /\ w_nd V w = n /\ w_from V w = t) \/
  (exists k, In k ant /\ k_nd V k = n /\ k_from V k = t).
Hypothesis NC : forall k, In k ant ->
  (forall c, In c cons -> k_nd V c = k_nd V k -> k_from V c = k_to V k -> restarts (k_nd V k) (k_to V k)) /\
  (forall r, In r trl -> t_nd r = k_nd V k -> t_from r = k_to V k -> restarts (k_nd V k) (k_to V k)).
Hypothesis CD : forall n, disjoint (k_nd V) (k_from V) (k_to V) n cons.

Variable evs : list (event V).
Hypothesis EP : Permutation (create_events V cor cnot czero cone wl ant cons trl) evs.
Hypothesis EO : ordered V evs.
Variable y : Z -> nat -> bool.
Hypothesis EX : execution N y.
Hypothesis SA : satisfies ant y.

Local Notation Sx := (Sx V A den N a).
Local Notation J := (J V A den N a).
Local Notation antok := (antok V A den a).
Local Notation antgood := (antgood V N).
Local Notation covers := (covers V A den N a).
Local Notation inv := (SteEv.inv V cand cone).
Local Notation upto := (upto V).
Local Notation process := (process V cand czero cone ceq N).
Local Notation combinational := (combinational V cand cor czero cone ceq weakening big N).
Local Notation do_phase := (do_phase V cand cor cone ceq N).
Local Notation at_time := (at_time V cand cor cnot czero cone ceq weakening big N).
Local Notation times := (times V cand cor cnot czero cone ceq weakening big N).
Local Notation es0 := (es0 V czero cone chg0).
Local Notation initialize := (initialize V cand cor czero cone ceq weakening big chg0 N).
Local Notation etime := (e_time V).
Local Notation psw := (ps_wf V cor cnot czero cone wl ant cons trl PR).
Local Notation psp := (ps_perm V cor cnot czero cone wl ant cons trl evs EP).
Local Notation evg := (evs_good V cor cnot czero cone wl ant cons trl PR evs EP EO).

Lemma Sx_ext E E' s X : ha V E = ha V E' -> ab V E = ab V E' -> Sx E s X -> Sx E' s X.
Proof.
  intros H1 H2 [S1 S2 S3 S4 S5 S6]. unfold SteSim.antok in *. rewrite H1, H2 in *. split; auto.
Qed.
Lemma good_ant t E : inv (upto t evs) E -> antgood E.
Proof.
  intros I n HA. pose proof (i_flg V cand cone _ _ I KA n) as F. cbn in F. rewrite HA in F. symmetry in F.
  apply (flag_live V _ evs KA n t psw psp EO) in F as [e L].
  apply (live_ant V cor cnot czero cone wl ant cons trl PR evs EP n t) in L as [i [k [K1 [_ [K2 _]]]]].
  apply nth_error_In in K1. rewrite <- K2. now apply AN.
Qed.
Lemma ok_ant t E n : inv (upto t evs) E -> antok E n (y t n).
Proof.
  intros I HA. destruct (ant_buf V A cand cor cnot czero cone ceq chg0 den D1 Da Do Dn wl ant cons trl PR evs EP t E I n a) as [B1 B2].
  assert (K : asserts V A den ant n t a (y t n)).
  { intros k K1 [K2 K3] K4. rewrite <- K2. now apply SA. }
  unfold can, d2. destruct (y t n); cbn; [now apply B1|now apply B2].
Qed.

(* nothing about antecedents changes at a node that is not marked *)
Lemma process_frame k n : k <> KT -> forall R t s R' s', process R t s = Some (R', s') ->
  (forall e, In e R -> (etime e <= t)%Z -> on V k n e = false) ->
  flg V k s' n = flg V k s n /\ vbuf V cone k s' n = vbuf V cone k s n.
Proof.
  intros K. induction R as [|e R IH]; intros t s R' s'; cbn.
  - intros Q; injection Q as <- <-. auto.
  - destruct (Z.ltb_spec t (etime e)); [intros Q; injection Q as <- <-; auto|].
    destruct (proc V cand czero cone ceq N e s) as [s1|] eqn:P; [|discriminate]. intros Q F.
    destruct (proc_spec V cand czero cone ceq N e s s1 P) as [P1 _].
    destruct (P1 k n K) as [_ [P2 P3]]; [apply F; auto; lia|].
    destruct (IH _ _ _ _ Q) as [I1 I2]; [intros; apply F; auto|]. split; congruence.
Qed.
Lemma last_mark_cases n P b :
  (last_mark V n P b = b /\ forall f, In f P -> e_nd V f <> n) \/
  exists B f C, P = B ++ f :: C /\ e_nd V f = n /\ last_mark V n P b = marks V f /\ forall g, In g C -> e_nd V g <> n.
Proof.
  induction P as [|x P IH] using rev_ind; [left; auto|].
  unfold last_mark in *. rewrite fold_left_app. cbn. destruct (Nat.eqb_spec (e_nd V x) n).
  - right. exists P, x, []. auto.
  - destruct IH as [[I1 I2]|[B [f [C [-> [I2 [I3 I4]]]]]]].
    + left. split; auto. intros f F. apply in_app_or in F as [F|[<-|[]]]; auto.
    + right. exists B, f, (C ++ [x]). rewrite <- app_assoc. split; auto. split; auto. split; auto.
      intros g G. apply in_app_or in G as [G|[<-|[]]]; auto.
Qed.
Lemma unmarked Q R R' t n b : evs = Q ++ R -> R = upto t R ++ R' -> (forall f, In f R -> (t <= etime f)%Z) ->
  (forall f, In f Q -> (etime f < t)%Z) -> (forall f, In f R' -> (t < etime f)%Z) ->
  last_mark V n (upto t R) b = false ->
  forall e, In e R -> (etime e <= t)%Z -> on V KA n e = false.
Proof.
  intros E1 E2 T1 T2 T3 L e Ie Te. destruct (on V KA n e) eqn:O; auto. exfalso.
  destruct (on_true V _ _ _ O) as [O1 O2].
  assert (IB : forall x, In x evs -> etime x = t -> In x (upto t R)).
  { intros x X Tx. rewrite E1 in X. apply in_app_or in X as [X|X]; [apply T2 in X; lia|].
    apply filter_In. split; auto. lia. }
  assert (TB : forall x, In x (upto t R) -> etime x = t).
  { intros x X. apply filter_In in X as [X1 X2]. apply T1 in X1. lia. }
  assert (IE : forall x, In x (upto t R) -> In x evs).
  { intros x X. apply filter_In in X as [X _]. rewrite E1. apply in_or_app. auto. }
  assert (Be : In e (upto t R)) by (apply filter_In; split; auto; lia).
  destruct (last_mark_cases n (upto t R) b) as [[_ X]|[B [f [C [E3 [Nf [Mf NoC]]]]]]]; [now apply (X e)|].
  rewrite L in Mf. symmetry in Mf.
  assert (If : In f (upto t R)) by (rewrite E3; apply in_elt).
  (* everything on n in the batch comes no later than f *)
  assert (LT : forall x, In x (upto t R) -> e_nd V x = n -> x = f \/ (ety_num (e_ty V f) <= ety_num (e_ty V x))%Z).
  { intros x X Nx. rewrite E3 in X. apply in_app_or in X as [X|[X|X]]; auto; [|exfalso; now apply (NoC x)].
    right. assert (O' : ordered V (upto t R)).
    { intros P z S1 E z' Z'. rewrite E1, E2, E, <- !app_assoc in EO.
      apply (EO (Q ++ P) z (S1 ++ R')); [now rewrite <- app_assoc|]. apply in_or_app. auto. }
    apply in_split in X as [B1 [B2 ->]].
    apply cmp_type.
    - apply (O' B1 x (B2 ++ f :: C)); [rewrite E3, <- app_assoc; reflexivity|]. apply in_elt.
    - rewrite (TB x), (TB f); auto. rewrite E3, <- app_assoc. apply in_or_app. right. now left.
    - congruence. }
  destruct (LT e Be (eq_sym O2)) as [->|Le]; [unfold marks in Mf; rewrite <- O1 in Mf; discriminate|].
  (* e ends an antecedent, f starts a consequent or trace *)
  assert (K : e_ty V e = end_ant /\ (e_ty V f = start_cons \/ e_ty V f = start_trace)).
  { unfold marks in Mf. destruct (e_ty V e), (e_ty V f); cbn in *; try discriminate; auto; lia. }
  destruct K as [Ke Kf].
  assert (FI : forall x, In x evs -> exists p, In p (ev_pairs V cor cnot czero cone wl ant cons trl) /\ (x = fst p \/ x = snd p)).
  { intros x X. apply (flat_in V). apply (Permutation_in _ (Permutation_sym psp) X). }
  destruct (FI e (IE e Be)) as [p [P1 P2]]. apply in_ps in P1.
  assert (KA' : exists k, In k ant /\ k_nd V k = n /\ k_to V k = t).
  { destruct P1 as [[i [x [E ->]]]|[[i [x [E ->]]]|[[i [x [E ->]]]|[i [x [E ->]]]]]]; apply nth_error_In in E;
    destruct P2 as [->| ->]; cbn in Ke; try discriminate. exists x. split; auto. split; [auto|].
    specialize (TB _ Be). exact TB. }
  destruct KA' as [k [K1 [K2 K3]]].
  assert (RS : restarts n t).
  { destruct (NC k K1) as [NC1 NC2]. rewrite K2, K3 in *.
    destruct (FI f (IE f If)) as [q [Q1 Q2]]. apply in_ps in Q1.
    pose proof (TB f If) as Tf.
    destruct Q1 as [[i [x [E ->]]]|[[i [x [E ->]]]|[[i [x [E ->]]]|[i [x [E ->]]]]]]; apply nth_error_In in E;
    destruct Q2 as [->| ->]; cbn in Kf, Nf, Tf; destruct Kf as [Kf|Kf]; try discriminate.
    - now apply (NC1 x).
    - now apply (NC2 x). }
  assert (G : exists g, In g (upto t R) /\ e_nd V g = n /\ (ety_num (e_ty V g) <= 1)%Z).
  { destruct RS as [[w [W1 [W2 W3]]]|[k' [W1 [W2 W3]]]]; apply In_nth_error in W1 as [i E].
    - exists (fst (weak_pair V i w)). split; [|split; [exact W2|cbn; lia]]. apply IB; auto.
      apply (Permutation_in _ psp). apply flat_in. eexists. split; [apply in_ps; left; eauto|auto].
    - exists (fst (cond_pair V cor cnot cone start_ant end_ant (length wl + i) k')).
      split; [|split; [exact W2|cbn; lia]]. apply IB; auto.
      apply (Permutation_in _ psp). apply flat_in. eexists. split; [apply in_ps; right; left; eauto|auto]. }
  destruct G as [g [G1 [G2 G3]]].
  destruct (LT g G1 G2) as [->|Lg]; destruct Kf as [Kf|Kf]; rewrite Kf in *; cbn in *; lia.
Qed.

(* consequents *)
Lemma check_ok E s : forall l v, let v' := fold_left (check1 V cand cor cnot E s) l v in
  den v' a = true -> den v a = true /\
  forall n, In n l -> hc V E n = true ->
    (den (fst (cur V s n)) a = true -> den (fst (cb V E n)) a = true) /\
    (den (snd (cur V s n)) a = true -> den (snd (cb V E n)) a = true).
Proof.
  induction l as [|m l IH]; intros v; cbn.
  - intros Q. split; auto.
  - intros Q. destruct (IH _ Q) as [I1 I2]. unfold SteModel.check1 in I1.
    assert (K : den v a = true /\ (hc V E m = true ->
      (den (fst (cur V s m)) a = true -> den (fst (cb V E m)) a = true) /\
      (den (snd (cur V s m)) a = true -> den (snd (cb V E m)) a = true))).
    { destruct (hc V E m); [|split; [auto|discriminate]].
      rewrite !Da, !Do, !Dn in I1. apply andb_true_iff in I1 as [I1 I4]. apply andb_true_iff in I1 as [I1 I3].
      split; auto. intros _. split; intros T; rewrite T in *; cbn in *; auto. }
    destruct K as [K1 K2]. split; auto. intros n [<-|M]; auto.
Qed.

(* the state before time t *)
Record St (t : Z) (R : list (event V)) (E : estate V) (s : sstate V) : Prop := {
  st_ev : exists Q, evs = Q ++ R /\ (forall f, In f Q -> (etime f < t)%Z) /\ inv Q E;
  st_R : forall f, In f R -> (t <= etime f)%Z;
  st_S : Sx E s (fun _ => False);
  st_J : J (y t) s }.
Lemma step_ok gas limit t R E s r R' E' s' r' :
  St t R E s -> at_time gas limit t (R, E, s, r) = Some (R', E', s', r') -> r_gave_up V r' = false ->
  r_gave_up V r = false /\ St (t + 1) R' E' s' /\
  (exists f, r_vals V r' = (t, f) :: r_vals V r /\ covers (y t) f) /\
  (den (r_check V r') a = true -> den (r_check V r) a = true /\
     forall n, n < nn N -> n <> 3 -> asserts V A den cons n t a (y t n)).
Proof.
  intros [[Q [EQ [TQ IQ]]] TR S0 J0]. unfold SteModel.at_time.
  assert (GD : good V (Q ++ R)) by (rewrite <- EQ; exact evg).
  assert (OR : ordered V R) by (rewrite EQ in EO; eapply ordered_app; eauto).
  destruct (process_inv V cand czero cone ceq N t Q R E GD OR IQ) as [R1 [E1 [P [ER [TR1 [I1 C1]]]]]].
  rewrite P.
  assert (UT : upto t evs = Q ++ upto t R).
  { rewrite EQ, upto_app, (upto_all V t Q); auto. intros f F. specialize (TQ f F). lia. }
  assert (IT : inv (upto t evs) E1) by now rewrite UT.
  assert (AG : antgood E1) by now apply (good_ant t).
  set (s1 := fold_left _ (seq 0 (nn N)) s).
  assert (CH : Sx E1 s1 (fun _ => False) /\ J (y t) s1).
  { apply (change_ok V A cand cor cone ceq den D1 Da Do De N W a E); auto.
    intros n Cn v AO. rewrite C1 in Cn.
    pose proof (process_frame KA n ltac:(discriminate) R t E R1 E1 P
      (unmarked Q R R1 t n _ EQ ER TR TQ TR1 Cn)) as [F1 F2]. cbn in F1, F2.
    unfold SteSim.antok in *. now rewrite <- F1, <- F2. }
  destruct CH as [S1 J1].
  set (E2 := clear_chg V E1).
  assert (S2 : Sx E2 s1 (fun _ => False)) by (eapply Sx_ext; [| |exact S1]; reflexivity).
  assert (AG2 : antgood E2) by exact AG.
  destruct (combinational E2 gas limit s1 0) as [[[s2 c2] gu]|] eqn:CB; [|discriminate].
  intros K; injection K as <- <- <- <-. cbn. intros GU. apply orb_false_iff in GU as [GU1 ->].
  destruct (combinational_ok V A cand cor czero cone ceq weakening big chg0 den D0 D1 Da Do De N W a E2 (y t) AG2 _ _ _ _ _ _ S2 J1 CB)
    as [S3 [J3 F3]].
  assert (CV : covers (y t) (cur V s2)).
  { apply (cover V A den N W a E2 s2 y t); auto. intros n. apply (ok_ant t E1 n IT). }
  destruct (phase_ok V A cand cor cone ceq den D1 Da Do De N W a E2 s2 y t AG2 S3 F3 EX CV) as [S4 J4].
  split; auto. split; [|split].
  - split; auto.
    + exists (Q ++ upto t R). split; [rewrite EQ, ER at 1; now rewrite <- app_assoc|]. split.
      * intros f F. apply in_app_or in F as [F|F]; [specialize (TQ f F); lia|]. apply filter_In in F as [_ F]. lia.
      * rewrite UT in IT. now apply clear_inv.
    + intros f F. specialize (TR1 f F). lia.
  - exists (cur V s2). auto.
  - intros Q'. apply check_ok in Q' as [Q1 Q2]. split; auto. intros n Ln L3.
    destruct (hc V E2 n) eqn:HC.
    + destruct (Q2 n) as [U1 U2]; auto; [apply in_seq; lia|].
      destruct (cons_buf V A cand cor cnot czero cone ceq chg0 den D1 Da Do Dn wl ant cons trl PR evs EP t E1 IT n a) as [B1 B2].
      pose proof (CV n Ln L3) as CN'. unfold can, d2 in CN'. destruct (y t n); cbn in CN'.
      * apply B1. now apply U1.
      * apply B2. now apply U2.
    + intros k K1 K2. exfalso.
      assert (X : hc V E1 n = true) by
        (apply (flag_cons V cand cor cnot czero cone wl ant cons trl PR evs EP EO t E1 IT n (CD n)); eauto).
      cbn in HC. congruence.
Qed.
Lemma times_ok gas limit : forall m t R E s r R' E' s' r', St t R E s ->
  times gas limit t m (R, E, s, r) = Some (R', E', s', r') -> r_gave_up V r' = false ->
  r_gave_up V r = false /\
  (forall u f, In (u, f) (r_vals V r') -> In (u, f) (r_vals V r) \/ covers (y u) f) /\
  (forall u f, In (u, f) (r_vals V r) -> In (u, f) (r_vals V r')) /\
  (forall u, (t <= u < t + Z.of_nat m)%Z -> exists f, In (u, f) (r_vals V r')) /\
  (den (r_check V r') a = true -> den (r_check V r) a = true /\
     forall u, (t <= u < t + Z.of_nat m)%Z -> forall n, n < nn N -> n <> 3 -> asserts V A den cons n u a (y u n)).
Proof.
  induction m as [|m IH]; intros t R E s r R' E' s' r' ST; cbn [SteModel.times].
  - intros Q; injection Q as <- <- <- <-. intros G. split; auto. split; auto. split; auto. split; [lia|].
    intros D. split; auto. lia.
  - destruct (at_time gas limit t (R, E, s, r)) as [[[[R1 E1] s1] r1]|] eqn:Q; [|discriminate].
    intros Q' G.
    assert (G1 : r_gave_up V r1 = false).
    { destruct (r_gave_up V r1) eqn:X; auto. exfalso. clear - X Q' G.
      revert R1 E1 s1 r1 X Q' G. generalize (t + 1)%Z as t0.
      induction m as [|m IH]; intros t0 R1 E1 s1 r1 X; cbn [SteModel.times].
      - intros K; injection K as <- <- <- <-. congruence.
      - destruct (at_time gas limit t0 (R1, E1, s1, r1)) as [[[[R2 E2] s2] r2]|] eqn:Q; [|discriminate].
        intros K G. apply (IH _ _ _ _ _) in K; auto.
        unfold SteModel.at_time in Q. destruct (process _ _ _) as [[? ?]|]; [|discriminate].
        destruct (combinational _ _ _ _ _) as [[[? ?] ?]|]; [|discriminate].
        injection Q as <- <- <- <-. cbn. now rewrite X. }
    destruct (step_ok _ _ _ _ _ _ _ _ _ _ _ ST Q G1) as [K1 [K2 [[f [K3 K4]] K5]]].
    destruct (IH _ _ _ _ _ _ _ _ _ K2 Q' G) as [I1 [I2 [I3 [I4 I5]]]].
    split; auto. split; [|split; [|split]].
    + intros u g Ug. destruct (I2 u g Ug) as [X|X]; auto. rewrite K3 in X. destruct X as [X|X]; auto.
      injection X as <- <-. auto.
    + intros u g Ug. apply I3. rewrite K3. now right.
    + intros u L. destruct (Z.eq_dec u t) as [->|]; [|apply I4; lia]. exists f. apply I3. rewrite K3. now left.
    + intros D. destruct (I5 D) as [I6 I7]. destruct (K5 I6) as [K6 K7]. split; auto.
      intros u L. destruct (Z.eq_dec u t) as [->|]; [auto|apply I7; lia].
Qed.

(* initialize *)
Lemma es0_ant E : (forall n, ha V E n = false) -> antgood E /\ forall n v, antok E n v.
Proof. intros K. split; [intros n X|intros n v X]; congruence. Qed.
Lemma start_ok : Sx es0 (ss0 V czero cone N) (fun _ => False) /\ forall u, J (y u) (ss0 V czero cone N).
Proof.
  unfold ss0. set (s0 := SS V (cur0 V czero cone) _ _ _ _ _).
  destruct (todos_spec V N (seq 0 (length (comps N))) s0) as [C [Nx [Pv [F [_ Wh]]]]].
  set (s := fold_left _ _ _) in *. clearbody s. cbn in *.
  assert (NF : forall k, flag V s k = false -> c_outs (cmp N k) = []).
  { intros k Fk. destruct (Nat.lt_ge_cases k (length (comps N))) as [L|L].
    - rewrite F in Fk; [discriminate|]. apply in_seq. lia.
    - unfold cmp. now rewrite nth_overflow by lia. }
  assert (CX : forall n v, 3 < n -> can (d2 V A den a (cur0 V czero cone n)) v).
  { intros [|[|[|[|n]]]] v L; try lia. destruct v; apply D1. }
  split.
  - split.
    + intros k i o _ Fk P B. rewrite (NF k Fk) in B. destruct i; discriminate.
    + intros k i o _ Fk P B. rewrite (NF k Fk) in B. destruct i; discriminate.
    + intros n _ L DN v _. rewrite C. apply CX. lia.
    + rewrite C. unfold can, d2. cbn. split; [apply D1|split; [apply D1|]]. intros []; apply D1.
    + apply Wh. discriminate.
    + intros n. rewrite Pv. discriminate.
  - intros u n k DR P. rewrite C. apply CX. apply (w_drv N W), (w_out N W) in DR. lia.
Qed.
Lemma initialize_ok gas limit : forall it s s', initialize gas limit it s = Some s' ->
  Sx es0 s (fun _ => False) -> (forall u, J (y u) s) ->
  Sx es0 s' (fun _ => False) /\ forall u, J (y u) s'.
Proof.
  destruct (es0_ant es0 (fun _ => eq_refl)) as [AG AO].
  induction it as [|it IH]; intros s s'; cbn; [discriminate|].
  destruct (combinational es0 gas limit s 0) as [[[s1 c] g]|] eqn:Q; [|discriminate].
  assert (K : g = false -> Sx es0 s (fun _ => False) -> (forall u, J (y u) s) ->
    Sx es0 s1 (fun _ => False) /\ (forall u, J (y u) s1) /\ forall k, flag V s1 k = false).
  { intros -> S0 J0.
    assert (X : forall u, Sx es0 s1 (fun _ => False) /\ J (y u) s1 /\ forall k, flag V s1 k = false).
    { intros u. eapply (combinational_ok V A cand cor czero cone ceq weakening big chg0 den D0 D1 Da Do De N W a es0 (y u)); eauto. }
    split; [apply (X 0%Z)|]. split; [intros u; apply (X u)|]. apply (X 0%Z). }
  destruct g; [destruct c; discriminate|].
  destruct c as [|c].
  - intros E S0 J0. injection E as <-. destruct (K eq_refl S0 J0) as [K1 [K2 _]]. auto.
  - intros E S0 J0. destruct (K eq_refl S0 J0) as [K1 [K2 K3]].
    assert (X : forall u, Sx es0 (do_phase es0 s1) (fun _ => False) /\ J (y (u + 1)%Z) (do_phase es0 s1)).
    { intros u. apply (phase_ok V A cand cor cone ceq den D1 Da Do De N W a es0 s1 y u); auto.
      apply (cover V A den N W a es0 s1 y u); auto. }
    apply (IH _ _ E).
    + apply (X 0%Z).
    + intros u. replace u with (u - 1 + 1)%Z by lia. apply X.
Qed.
End Run.

(* gSTE *)
Section Top.
Variables V A : Type.
Variables cand cor : V -> V -> V.
Variable cnot : V -> V.
Variables czero cone : V.
Variable ceq : V -> V -> bool.
Variable weakening : bool.
Variable big : V -> bool.
Variable chg0 : nat -> bool.
Variable den : V -> A -> bool.
Hypothesis D0 : forall a, den czero a = false.
Hypothesis D1 : forall a, den cone a = true.
Hypothesis Da : forall x y a, den (cand x y) a = den x a && den y a.
Hypothesis Do : forall x y a, den (cor x y) a = den x a || den y a.
Hypothesis Dn : forall x a, den (cnot x) a = negb (den x a).
Hypothesis De : forall x y a, ceq x y = true -> den x a = den y a.
Lemma gSTE_ok srt N gas limit wl ant cons trl r :
  wf N -> sorts V srt -> proper V wl ant cons trl ->
  (forall k, In k ant -> 3 < k_nd V k < nn N /\ forall j, driver N (k_nd V k) = Some j -> c_phase (cmp N j) = false) ->
  (forall k, In k cons -> k_nd V k < nn N /\ k_nd V k <> 3) ->
  (forall k, In k ant ->
    (forall c, In c cons -> k_nd V c = k_nd V k -> k_from V c = k_to V k -> restarts V wl ant (k_nd V k) (k_to V k)) /\
    (forall r, In r trl -> t_nd r = k_nd V k -> t_from r = k_to V k -> restarts V wl ant (k_nd V k) (k_to V k))) ->
  (forall n, disjoint (k_nd V) (k_from V) (k_to V) n cons) ->
  gSTE V cand cor cnot czero cone ceq weakening big chg0 srt N gas limit wl ant cons trl = Some r ->
  r_gave_up V r = false ->
  forall a y, execution N y -> satisfies V A den a ant y ->
  (forall t f, In (t, f) (r_vals V r) -> covers V A den N a (y t) f) /\
  (forall k t, In k (ant ++ cons) -> (k_from V k <= t < k_to V k)%Z -> exists f, In (t, f) (r_vals V r)) /\
  (den (r_check V r) a = true -> satisfies V A den a cons y).
Proof.
  intros W SR PR AN CN NC CD. unfold gSTE.
  set (l := create_events V cor cnot czero cone wl ant cons trl).
  destruct (sorts_ordered V srt l SR) as [EO EP].
  set (evs := rev (srt l)) in *. clearbody evs.
  destruct (initialize _ _ _ _ _ _ _ _ _ _ _ _ _ _) as [s|] eqn:IN; [|discriminate].
  intros G GU a y EX SA.
  destruct (start_ok V A czero cone chg0 den D1 N W a y) as [S0 J0].
  destruct (initialize_ok V A cand cor czero cone ceq weakening big chg0 den D0 D1 Da Do De N W a y EX
     _ _ _ _ _ IN S0 J0) as [S1 J1].
  assert (EV : forall k, In k (ant ++ cons) -> exists e f, In e evs /\ In f evs /\
            e_time V e = k_from V k /\ e_time V f = k_to V k).
  { intros k K.
    assert (Q : exists p, In p (ev_pairs V cor cnot czero cone wl ant cons trl) /\
       e_time V (fst p) = k_from V k /\ e_time V (snd p) = k_to V k).
    { apply in_app_or in K as [K|K]; apply In_nth_error in K as [i E].
      - eexists. split; [apply in_ps; right; left; eauto|]. cbn. auto.
      - eexists. split; [apply in_ps; right; right; left; eauto|]. cbn. auto. }
    destruct Q as [p [P1 [P2 P3]]]. exists (fst p), (snd p).
    assert (I : forall x, x = fst p \/ x = snd p -> In x evs).
    { intros x X. apply (Permutation_in _ EP). unfold l. rewrite create_flat. apply flat_in. eauto. }
    auto. }
  destruct evs as [|e0 evs'] eqn:Eevs.
  - injection G as <-. cbn. split; [easy|]. assert (NO : forall k, In k (ant ++ cons) -> False).
    { intros k K. destruct (EV k K) as [e [f [[] _]]]. }
    split; [intros k t K; destruct (NO k K)|].
    intros _ k t K. destruct (NO k). apply in_or_app. auto.
  - rewrite <- Eevs in *.
    destruct (times _ _ _ _ _ _ _ _ _ _ _ _ _ _ _) as [[[[R' E'] s'] r']|] eqn:TM; [|discriminate].
    injection G as <-.
    assert (MIN : forall f, In f evs -> (e_time V e0 <= e_time V f)%Z).
    { intros f F. rewrite Eevs in F. destruct F as [<-|F]; [lia|]. apply cmp_time. apply (EO [] e0 evs'); auto. }
    assert (MAX : forall f, In f evs -> (e_time V f <= e_time V (last evs e0))%Z).
    { intros f F. assert (NE : evs <> []) by (rewrite Eevs; discriminate).
      pose proof (app_removelast_last e0 NE) as AL. rewrite AL in F. apply in_app_or in F as [F|[<-|[]]]; [|lia].
      apply in_split in F as [B [C E]]. apply cmp_time. apply (EO B f (C ++ [last evs e0])); [|apply in_elt].
      rewrite AL at 1. rewrite E, <- app_assoc. reflexivity. }
    assert (ST : St V A cand cone den N a evs y (e_time V e0) evs (es0 V czero cone chg0) s).
    { split; auto. exists []. split; auto. split; [easy|]. apply inv0. }
    destruct (times_ok V A cand cor cnot czero cone ceq weakening big chg0 den D0 D1 Da Do Dn De N W a
      wl ant cons trl PR AN NC CD evs EP EO y EX SA gas limit _ _ _ _ _ _ _ _ _ _ ST TM GU) as [_ [T1 [_ [T2 T3]]]].
    cbn in T1. split; [|split].
    + intros t f I. destruct (T1 t f I) as [[]|X]; auto.
    + intros k t K L. destruct (EV k K) as [e [f [I1 [I2 [I3 I4]]]]]. apply T2.
      pose proof (MIN e I1). pose proof (MAX f I2). lia.
    + intros D. destruct (T3 D) as [_ T4]. intros k t K L DW.
      assert (K' : In k (ant ++ cons)) by (apply in_or_app; auto).
      destruct (EV k K') as [e [f [I1 [I2 [I3 I4]]]]].
      destruct (CN k K) as [C1 C2]. apply (T4 t) with (n := k_nd V k); auto.
      * pose proof (MIN e I1). pose proof (MAX f I2). lia.
      * split; auto.
Qed.
End Top.
