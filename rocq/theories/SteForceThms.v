(* C31: the conditions in force at a time. *)
From Coq Require Import List Arith NArith ZArith Bool Lia Permutation Sorted.
From Verif Require Import FsmOps SteModel SteEv SteForce.
Import ListNotations.

(* Specification: the tuples x of a list are on node nd x for the times from x <= t < to x. *)
Definition in_force {A} (nd : A -> nat) (from to : A -> Z) (n : nat) (t : Z) (x : A) : Prop :=
  nd x = n /\ (from x <= t < to x)%Z.
Definition disjoint {A} (nd : A -> nat) (from to : A -> Z) (n : nat) (l : list A) : Prop :=
  forall i j x y, i <> j -> nth_error l i = Some x -> nth_error l j = Some y -> nd x = n -> nd y = n ->
  (to x <= from y \/ to y <= from x)%Z.

Section Thms.
Variables V A : Type.
Variables cand cor : V -> V -> V.
Variable cnot : V -> V.
Variables czero cone : V.
Variable ceq : V -> V -> bool.
Variable chg0 : nat -> bool.
Variable den : V -> A -> bool.
Hypothesis D0 : forall a, den czero a = false.
Hypothesis D1 : forall a, den cone a = true.
Hypothesis Da : forall x y a, den (cand x y) a = den x a && den y a.
Hypothesis Do : forall x y a, den (cor x y) a = den x a || den y a.
Hypothesis Dn : forall x a, den (cnot x) a = negb (den x a).
Local Notation event := (event V).
Local Notation estate := (estate V).
Local Notation conj := (conj V cand cone).
Local Notation es0 := (es0 V czero cone chg0).
Local Notation eid := (e_id V). Local Notation ety := (e_ty V). Local Notation end_ := (e_nd V).
Local Notation etime := (e_time V).
Local Notation create_events := (create_events V cor cnot czero cone).
Local Notation ev_pairs := (ev_pairs V cor cnot czero cone).
Local Notation run_events := (run_events V cand czero cone ceq).
Local Notation proper := (proper V).

Lemma conj_den l a : (den (fst (conj l)) a = true <-> forall e, In e l -> den (e_H V e) a = true) /\
                     (den (snd (conj l)) a = true <-> forall e, In e l -> den (e_L V e) a = true).
Proof.
  unfold SteModel.conj.
  assert (G : forall l r,
    let c := fold_left (fun (r : V * V) (e : event) => (cand (fst r) (e_H V e), cand (snd r) (e_L V e))) l r in
    (den (fst c) a = true <-> den (fst r) a = true /\ forall e, In e l -> den (e_H V e) a = true) /\
    (den (snd c) a = true <-> den (snd r) a = true /\ forall e, In e l -> den (e_L V e) a = true)).
  { clear l. induction l as [|e l IH]; intros r; cbn; [intuition|].
    destruct (IH (cand (fst r) (e_H V e), cand (snd r) (e_L V e))) as [I1 I2]. cbn in *.
    rewrite I1, I2. cbn. rewrite !Da, !andb_true_iff. split; split.
    - intros [[K1 K2] K3]. split; auto. intros x [<-|X]; auto.
    - intros [K1 K2]. split; auto.
    - intros [[K1 K2] K3]. split; auto. intros x [<-|X]; auto.
    - intros [K1 K2]. split; auto. }
  specialize (G l (cone, cone)). cbn in G. destruct G as [G1 G2]. rewrite G1, G2, D1. intuition.
Qed.

Definition app_ant (s : estate) (n : nat) : V * V := if ha V s n then ab V s n else (cone, cone).
Definition app_cons (s : estate) (n : nat) : V * V := if hc V s n then cb V s n else (cone, cone).
Definition app_weak (s : estate) (n : nat) : V * V := if hw V s n then wb V s n else (czero, czero).

(* "when implies node is val" as a pair of rails *)
Definition asserts (l : list (cond_t V)) (n : nat) (t : Z) (a : A) (v : bool) : Prop :=
  forall k, In k l -> in_force (k_nd V) (k_from V) (k_to V) n t k ->
    den (k_when V k) a = true -> den (k_val V k) a = v.

Variables (wl : list (weak_t V)) (ant cons : list (cond_t V)) (trl : list trace_t).
Hypothesis PR : proper wl ant cons trl.
Variable evs : list event.
Hypothesis EP : Permutation (create_events wl ant cons trl) evs.
Hypothesis EO : ordered V evs.
Local Notation ps := (ev_pairs wl ant cons trl).

Lemma ps_wf : wfps V ps. Proof. now apply ev_pairs_wf. Qed.
Lemma ps_perm : Permutation (flat V ps) evs. Proof. now rewrite <- create_flat. Qed.
Lemma evs_good : good V evs. Proof. apply (flat_good V ps); auto using ps_wf, ps_perm. Qed.

Lemma in_ps p : In p ps <->
  (exists i w, nth_error wl i = Some w /\ p = weak_pair V i w) \/
  (exists i k, nth_error ant i = Some k /\ p = cond_pair V cor cnot cone start_ant end_ant (length wl + i) k) \/
  (exists i k, nth_error cons i = Some k /\ p = cond_pair V cor cnot cone start_cons end_cons (length wl + length ant + i) k) \/
  (exists i r, nth_error trl i = Some r /\ p = trace_pair V czero (length wl + length ant + length cons + i) r).
Proof. unfold SteForce.ev_pairs. now rewrite !in_app_iff, !numb_in. Qed.

Lemma on_pair k n (p : event * event) : on V k n (fst p) = true <-> kind_of (ety (fst p)) = k /\ end_ (fst p) = n.
Proof.
  split; [intros Q; destruct (on_true V _ _ _ Q); auto|]. intros [<- <-]. apply on_self.
Qed.
Lemma live_ant n t e : In e (live V KA n (upto V t evs)) <->
  exists i k, nth_error ant i = Some k /\ e = fst (cond_pair V cor cnot cone start_ant end_ant (length wl + i) k) /\
    in_force (k_nd V) (k_from V) (k_to V) n t k.
Proof.
  rewrite (live_in V ps evs) by auto using ps_wf, ps_perm. split.
  - intros [p [I [-> [O T]]]]. apply on_pair in O as [O1 O2]. apply in_ps in I.
    destruct I as [[i [x [E ->]]]|[[i [x [E ->]]]|[[i [x [E ->]]]|[i [x [E ->]]]]]]; cbn in *; try discriminate.
    exists i, x. split; auto. split; auto. split; auto.
  - intros [i [k [E [-> [F1 F2]]]]]. eexists. split; [apply in_ps; right; left; eauto|]. split; auto.
    split; [apply on_pair; cbn; auto|]. exact F2.
Qed.
Lemma live_cons n t e : In e (live V KC n (upto V t evs)) <->
  exists i k, nth_error cons i = Some k /\ e = fst (cond_pair V cor cnot cone start_cons end_cons (length wl + length ant + i) k) /\
    in_force (k_nd V) (k_from V) (k_to V) n t k.
Proof.
  rewrite (live_in V ps evs) by auto using ps_wf, ps_perm. split.
  - intros [p [I [-> [O T]]]]. apply on_pair in O as [O1 O2]. apply in_ps in I.
    destruct I as [[i [x [E ->]]]|[[i [x [E ->]]]|[[i [x [E ->]]]|[i [x [E ->]]]]]]; cbn in *; try discriminate.
    exists i, x. split; auto. split; auto. split; auto.
  - intros [i [k [E [-> [F1 F2]]]]]. eexists. split; [apply in_ps; right; right; left; eauto|]. split; auto.
    split; [apply on_pair; cbn; auto|]. exact F2.
Qed.
Lemma live_weak n t e : In e (live V KW n (upto V t evs)) <->
  exists i w, nth_error wl i = Some w /\ e = fst (weak_pair V i w) /\
    in_force (w_nd V) (w_from V) (w_to V) n t w.
Proof.
  rewrite (live_in V ps evs) by auto using ps_wf, ps_perm. split.
  - intros [p [I [-> [O T]]]]. apply on_pair in O as [O1 O2]. apply in_ps in I.
    destruct I as [[i [x [E ->]]]|[[i [x [E ->]]]|[[i [x [E ->]]]|[i [x [E ->]]]]]]; cbn in *; try discriminate.
    exists i, x. split; auto. split; auto. split; auto.
  - intros [i [k [E [-> [F1 F2]]]]]. eexists. split; [apply in_ps; left; eauto|]. split; auto.
    split; [apply on_pair; cbn; auto|]. exact F2.
Qed.

Lemma disj_ant n : disjoint (k_nd V) (k_from V) (k_to V) n ant -> disjoint_ps V KA n ps.
Proof.
  intros D p q P Q N O1 O2. apply on_pair in O1 as [O1 O1'], O2 as [O2 O2']. apply in_ps in P, Q.
  destruct P as [[i [x [E ->]]]|[[i [x [E ->]]]|[[i [x [E ->]]]|[i [x [E ->]]]]]]; cbn in *; try discriminate.
  destruct Q as [[j [y [F ->]]]|[[j [y [F ->]]]|[[j [y [F ->]]]|[j [y [F ->]]]]]]; cbn in *; try discriminate.
  apply (D i j); auto. intros ->. rewrite E in F. injection F as ->. auto.
Qed.
Lemma disj_cons n : disjoint (k_nd V) (k_from V) (k_to V) n cons -> disjoint_ps V KC n ps.
Proof.
  intros D p q P Q N O1 O2. apply on_pair in O1 as [O1 O1'], O2 as [O2 O2']. apply in_ps in P, Q.
  destruct P as [[i [x [E ->]]]|[[i [x [E ->]]]|[[i [x [E ->]]]|[i [x [E ->]]]]]]; cbn in *; try discriminate.
  destruct Q as [[j [y [F ->]]]|[[j [y [F ->]]]|[[j [y [F ->]]]|[j [y [F ->]]]]]]; cbn in *; try discriminate.
  apply (D i j); auto. intros ->. rewrite E in F. injection F as ->. auto.
Qed.
Lemma disj_weak n : disjoint (w_nd V) (w_from V) (w_to V) n wl -> disjoint_ps V KW n ps.
Proof.
  intros D p q P Q N O1 O2. apply on_pair in O1 as [O1 O1'], O2 as [O2 O2']. apply in_ps in P, Q.
  destruct P as [[i [x [E ->]]]|[[i [x [E ->]]]|[[i [x [E ->]]]|[i [x [E ->]]]]]]; cbn in *; try discriminate.
  destruct Q as [[j [y [F ->]]]|[[j [y [F ->]]]|[[j [y [F ->]]]|[j [y [F ->]]]]]]; cbn in *; try discriminate.
  apply (D i j); auto. intros ->. rewrite E in F. injection F as ->. auto.
Qed.

Variables (t : Z) (s : estate).
Hypothesis I : SteEv.inv V cand cone (upto V t evs) s.

Lemma cond_den s0 e0 id k a : let e := fst (cond_pair V cor cnot cone s0 e0 id k) in
  (den (e_H V e) a = true <-> (den (k_when V k) a = true -> den (k_val V k) a = true)) /\
  (den (e_L V e) a = true <-> (den (k_when V k) a = true -> den (k_val V k) a = false)).
Proof.
  cbn. rewrite !Do, !Dn. destruct (den (k_when V k) a), (den (k_val V k) a); cbn; intuition discriminate.
Qed.
(* the buffers, whether or not intervals overlap *)
Lemma ant_buf n a :
  (den (fst (ab V s n)) a = true <-> asserts ant n t a true) /\
  (den (snd (ab V s n)) a = true <-> asserts ant n t a false).
Proof.
  destruct (i_buf V cand cone _ _ I KA n) as [B|[B _]]; [|discriminate]. cbn in B. rewrite B.
  destruct (conj_den (ta V s n) a) as [C1 C2]. rewrite C1, C2.
  assert (P : forall e, In e (ta V s n) <-> In e (live V KA n (upto V t evs))).
  { pose proof (i_tbl V cand cone _ _ I KA n ltac:(discriminate)) as Q. cbn in Q. intros e.
    split; apply Permutation_in; auto. now apply Permutation_sym. }
  split; split.
  - intros K k Ik F. apply In_nth_error in Ik as [i Ei].
    apply (cond_den start_ant end_ant (length wl + i)). apply K, P, live_ant. eauto.
  - intros K e Ie. apply P, live_ant in Ie as [i [k [E [-> F]]]]. apply cond_den. apply K; auto. eapply nth_error_In; eauto.
  - intros K k Ik F. apply In_nth_error in Ik as [i Ei].
    apply (cond_den start_ant end_ant (length wl + i)). apply K, P, live_ant. eauto.
  - intros K e Ie. apply P, live_ant in Ie as [i [k [E [-> F]]]]. apply cond_den. apply K; auto. eapply nth_error_In; eauto.
Qed.
Lemma cons_buf n a :
  (den (fst (cb V s n)) a = true <-> asserts cons n t a true) /\
  (den (snd (cb V s n)) a = true <-> asserts cons n t a false).
Proof.
  destruct (i_buf V cand cone _ _ I KC n) as [B|[B _]]; [|discriminate]. cbn in B. rewrite B.
  destruct (conj_den (tc V s n) a) as [C1 C2]. rewrite C1, C2.
  assert (P : forall e, In e (tc V s n) <-> In e (live V KC n (upto V t evs))).
  { pose proof (i_tbl V cand cone _ _ I KC n ltac:(discriminate)) as Q. cbn in Q. intros e.
    split; apply Permutation_in; auto. now apply Permutation_sym. }
  split; split.
  - intros K k Ik F. apply In_nth_error in Ik as [i Ei].
    apply (cond_den start_cons end_cons (length wl + length ant + i)). apply K, P, live_cons. eauto.
  - intros K e Ie. apply P, live_cons in Ie as [i [k [E [-> F]]]]. apply cond_den. apply K; auto. eapply nth_error_In; eauto.
  - intros K k Ik F. apply In_nth_error in Ik as [i Ei].
    apply (cond_den start_cons end_cons (length wl + length ant + i)). apply K, P, live_cons. eauto.
  - intros K e Ie. apply P, live_cons in Ie as [i [k [E [-> F]]]]. apply cond_den. apply K; auto. eapply nth_error_In; eauto.
Qed.
(* the flags *)
Lemma flag_ant n : disjoint (k_nd V) (k_from V) (k_to V) n ant ->
  ha V s n = true <-> exists k, In k ant /\ in_force (k_nd V) (k_from V) (k_to V) n t k.
Proof.
  intros D. pose proof (i_flg V cand cone _ _ I KA n) as F. cbn in F. rewrite F. split.
  - intros L. apply (flag_live V ps) in L as [e L]; auto using ps_wf, ps_perm.
    apply live_ant in L as [i [k [E [_ Q]]]]. exists k. split; auto. eapply nth_error_In; eauto.
  - intros [k [K1 K2]]. apply (live_flag V ps); auto using ps_wf, ps_perm, disj_ant.
    apply In_nth_error in K1 as [i E]. eexists. apply live_ant. eauto.
Qed.
Lemma flag_cons n : disjoint (k_nd V) (k_from V) (k_to V) n cons ->
  hc V s n = true <-> exists k, In k cons /\ in_force (k_nd V) (k_from V) (k_to V) n t k.
Proof.
  intros D. pose proof (i_flg V cand cone _ _ I KC n) as F. cbn in F. rewrite F. split.
  - intros L. apply (flag_live V ps) in L as [e L]; auto using ps_wf, ps_perm.
    apply live_cons in L as [i [k [E [_ Q]]]]. exists k. split; auto. eapply nth_error_In; eauto.
  - intros [k [K1 K2]]. apply (live_flag V ps); auto using ps_wf, ps_perm, disj_cons.
    apply In_nth_error in K1 as [i E]. eexists. apply live_cons. eauto.
Qed.
Lemma exact_ant n a : disjoint (k_nd V) (k_from V) (k_to V) n ant ->
  (den (fst (app_ant s n)) a = true <-> asserts ant n t a true) /\
  (den (snd (app_ant s n)) a = true <-> asserts ant n t a false).
Proof.
  intros D. unfold app_ant. destruct (ha V s n) eqn:F; [apply ant_buf|]. cbn. rewrite D1.
  assert (N : forall k, In k ant -> ~ in_force (k_nd V) (k_from V) (k_to V) n t k).
  { intros k K1 K2. assert (ha V s n = true) by (apply flag_ant; eauto). congruence. }
  split; (split; [intros _ k K1 K2; now apply N in K2|auto]).
Qed.
Lemma exact_cons n a : disjoint (k_nd V) (k_from V) (k_to V) n cons ->
  (den (fst (app_cons s n)) a = true <-> asserts cons n t a true) /\
  (den (snd (app_cons s n)) a = true <-> asserts cons n t a false).
Proof.
  intros D. unfold app_cons. destruct (hc V s n) eqn:F; [apply cons_buf|]. cbn. rewrite D1.
  assert (N : forall k, In k cons -> ~ in_force (k_nd V) (k_from V) (k_to V) n t k).
  { intros k K1 K2. assert (hc V s n = true) by (apply flag_cons; eauto). congruence. }
  split; (split; [intros _ k K1 K2; now apply N in K2|auto]).
Qed.
Lemma exact_weak n a : disjoint (w_nd V) (w_from V) (w_to V) n wl ->
  let weakened := exists w, In w wl /\ in_force (w_nd V) (w_from V) (w_to V) n t w /\ den (w_when V w) a = true in
  (den (fst (app_weak s n)) a = true <-> weakened) /\ (den (snd (app_weak s n)) a = true <-> weakened).
Proof.
  intros D. unfold app_weak. pose proof (i_flg V cand cone _ _ I KW n) as F. cbn in F.
  destruct (hw V s n) eqn:Fw.
  - destruct (i_buf V cand cone _ _ I KW n) as [B|[_ B]]; cbn in B; [|congruence]. rewrite B.
    destruct (conj_den (tw V s n) a) as [C1 C2]. rewrite C1, C2.
    assert (P : forall e, In e (tw V s n) <-> In e (live V KW n (upto V t evs))).
    { pose proof (i_tbl V cand cone _ _ I KW n ltac:(discriminate)) as Q. cbn in Q. intros e.
      split; apply Permutation_in; auto. now apply Permutation_sym. }
    symmetry in F. apply (flag_live V ps) in F as [e L]; auto using ps_wf, ps_perm.
    destruct (proj1 (live_weak n t e) L) as [i [w [E [-> Q]]]].
    assert (U : forall f, In f (tw V s n) -> f = fst (weak_pair V i w)).
    { intros f K. apply P in K. apply live_weak in K as [j [x [E' [-> Q']]]].
      destruct (Nat.eq_dec i j) as [->|N]; [congruence|]. destruct Q as [Q1 Q2], Q' as [Q3 Q4].
      destruct (D i j w x N E E' Q1 Q3); lia. }
    assert (X : forall w', In w' wl -> in_force (w_nd V) (w_from V) (w_to V) n t w' -> w' = w).
    { intros w' K1 K2. apply In_nth_error in K1 as [j E'].
      destruct (Nat.eq_dec i j) as [->|N]; [congruence|]. destruct Q as [Q1 Q2], K2 as [Q3 Q4].
      destruct (D i j w w' N E E' Q1 Q3); lia. }
    assert (In w wl) by (eapply nth_error_In; eauto).
    split; (split; [intros K; exists w; split; [auto|split; [auto|apply (K (fst (weak_pair V i w))), P, L]]|
      intros [w' [K1 [K2 K3]]] f Kf; rewrite (U f Kf); cbn; now rewrite <- (X w' K1 K2)]).
  - cbn. rewrite D0. split; (split; [discriminate|]); intros [w [K1 [K2 _]]]; exfalso;
    (assert (L : last_start V KW n (upto V t evs) = true); [|congruence]);
    (apply (live_flag V ps); auto using ps_wf, ps_perm, disj_weak);
    apply In_nth_error in K1 as [i E]; eexists; apply live_weak; eauto.
Qed.
End Thms.

(* What run_events leaves at time t + m, for the events of a sorted buffer. *)
Lemma run_exact (V A : Type) cand cor cnot (czero cone : V) ceq chg0 (den : V -> A -> bool) srt N wl ant cons trl t m :
  (forall a, den czero a = false) -> (forall a, den cone a = true) ->
  (forall x y a, den (cand x y) a = den x a && den y a) ->
  (forall x y a, den (cor x y) a = den x a || den y a) ->
  (forall x a, den (cnot x) a = negb (den x a)) ->
  sorts V srt -> proper V wl ant cons trl ->
  exists R s, run_events V cand czero cone ceq N t (S m)
      (rev (srt (create_events V cor cnot czero cone wl ant cons trl))) (es0 V czero cone chg0) = Some (R, s) /\
    let u := (t + Z.of_nat m)%Z in
    (forall n a,
      (den (fst (ab V s n)) a = true <-> asserts V A den ant n u a true) /\
      (den (snd (ab V s n)) a = true <-> asserts V A den ant n u a false) /\
      (den (fst (cb V s n)) a = true <-> asserts V A den cons n u a true) /\
      (den (snd (cb V s n)) a = true <-> asserts V A den cons n u a false)) /\
    (forall n a, disjoint (k_nd V) (k_from V) (k_to V) n ant ->
      (den (fst (app_ant V cone s n)) a = true <-> asserts V A den ant n u a true) /\
      (den (snd (app_ant V cone s n)) a = true <-> asserts V A den ant n u a false)) /\
    (forall n a, disjoint (k_nd V) (k_from V) (k_to V) n cons ->
      (den (fst (app_cons V cone s n)) a = true <-> asserts V A den cons n u a true) /\
      (den (snd (app_cons V cone s n)) a = true <-> asserts V A den cons n u a false)) /\
    (forall n a, disjoint (w_nd V) (w_from V) (w_to V) n wl ->
      let weakened := exists w, In w wl /\ in_force (w_nd V) (w_from V) (w_to V) n u w /\ den (w_when V w) a = true in
      (den (fst (app_weak V czero s n)) a = true <-> weakened) /\ (den (snd (app_weak V czero s n)) a = true <-> weakened)).
Proof.
  intros D0 D1 Da Do Dn SR PR.
  destruct (sorts_ordered V srt (create_events V cor cnot czero cone wl ant cons trl) SR) as [EO EP].
  set (evs := rev (srt _)) in *. clearbody evs.
  destruct (run_inv V cand czero cone ceq N m t evs [] evs (es0 V czero cone chg0)) as [R [s [E [_ [_ I]]]]]; auto.
  - apply (evs_good V cor cnot czero cone wl ant cons trl PR evs EP EO).
  - apply inv0.
  - easy.
  - exists R, s. split; auto. cbn zeta. split; [|split; [|split]].
    + intros n a. destruct (ant_buf V A cand cor cnot czero cone ceq chg0 den D1 Da Do Dn wl ant cons trl PR evs EP _ s I n a).
      destruct (cons_buf V A cand cor cnot czero cone ceq chg0 den D1 Da Do Dn wl ant cons trl PR evs EP _ s I n a). tauto.
    + intros n a D. eapply exact_ant; eauto.
    + intros n a D. eapply exact_cons; eauto.
    + intros n a D. eapply exact_weak; eauto.
Qed.

(* The main loop changes the conditions as run_events does. *)
Lemma times_run (V : Type) cand cor cnot (czero cone : V) ceq weakening big N gas limit : forall m t R E s r R' E' s' r',
  times V cand cor cnot czero cone ceq weakening big N gas limit t m (R, E, s, r) = Some (R', E', s', r') ->
  run_events V cand czero cone ceq N t m R E = Some (R', E').
Proof.
  induction m as [|m IH]; intros t R E s r R' E' s' r'; cbn [times run_events].
  - intros Q. injection Q as <- <- _ _. auto.
  - unfold at_time. destruct (process _ _ _ _ _ _ _ _ _) as [[R1 E1]|]; [|discriminate].
    destruct (combinational _ _ _ _ _ _ _ _ _ _ _ _ _) as [[[s1 c1] g]|]; [|discriminate].
    apply IH.
Qed.
