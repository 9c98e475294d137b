(* Which tuples are in force at a time: from event lists to tuples. *)
From Coq Require Import List Arith NArith ZArith Bool Lia Permutation Sorted.
From Verif Require Import FsmOps SteModel SteEv.
Import ListNotations.

Section Force.
Variable V : Type.
Variables cand cor : V -> V -> V.
Variable cnot : V -> V.
Variables czero cone : V.
Variable ceq : V -> V -> bool.
Variable chg0 : nat -> bool.
Local Notation event := (event V).
Local Notation estate := (estate V).
Local Notation proc := (proc V cand czero cone ceq).
Local Notation process := (process V cand czero cone ceq).
Local Notation conj := (conj V cand cone).
Local Notation es0 := (es0 V czero cone chg0).
Local Notation eid := (e_id V). Local Notation ety := (e_ty V). Local Notation end_ := (e_nd V).
Local Notation etime := (e_time V).
Local Notation create_events := (create_events V cor cnot czero cone).
Local Notation flg := (flg V). Local Notation tbl := (tbl V). Local Notation vbuf := (vbuf V cone).
Local Notation on := (on V). Local Notation live := (live V). Local Notation good := (good V).
Local Notation ordered := (ordered V). Local Notation upto := (upto V).
Local Notation last_start := (last_start V). Local Notation last_mark := (last_mark V).

Definition flat (ps : list (event * event)) : list event := flat_map (fun p => [fst p; snd p]) ps.
Definition wfp (p : event * event) : Prop :=
  eid (snd p) = eid (fst p) /\ end_ (snd p) = end_ (fst p) /\
  kind_of (ety (snd p)) = kind_of (ety (fst p)) /\
  is_start (ety (fst p)) = true /\ is_start (ety (snd p)) = false /\ (etime (fst p) < etime (snd p))%Z.
Definition wfps (ps : list (event * event)) : Prop :=
  NoDup (map (fun p => eid (fst p)) ps) /\ forall p, In p ps -> wfp p.

Lemma flat_in ps e : In e (flat ps) <-> exists p, In p ps /\ (e = fst p \/ e = snd p).
Proof.
  unfold flat. rewrite in_flat_map. split.
  - intros [p [H1 [H2|[H2|[]]]]]; exists p; auto.
  - intros [p [H1 [H2|H2]]]; exists p; subst; cbn; auto.
Qed.
Lemma wfps_id ps p q : wfps ps -> In p ps -> In q ps -> eid (fst p) = eid (fst q) -> p = q.
Proof.
  intros [N _]. induction ps as [|r ps IH]; intros P Q E; [destruct P|].
  inversion N as [|? ? N1 N2]; subst. destruct P as [<-|P], Q as [<-|Q]; auto.
  - exfalso. apply N1. rewrite E. now apply (in_map (fun p => eid (fst p))).
  - exfalso. apply N1. rewrite <- E. now apply (in_map (fun p => eid (fst p))).
Qed.
Lemma flat_nodup ps : wfps ps -> NoDup (flat ps).
Proof.
  intros W. induction ps as [|p ps IH]; cbn; [constructor|].
  assert (W' : wfps ps). { destruct W as [W1 W2]. inversion W1. split; auto. intros; apply W2; now right. }
  destruct (proj2 W p (or_introl eq_refl)) as [W1 [W2 [W3 [W4 [W5 W6]]]]].
  assert (X : forall e, In e (flat ps) -> eid e <> eid (fst p)).
  { intros e I E. apply flat_in in I as [q [Q1 Q2]].
    assert (E' : eid (fst q) = eid (fst p)).
    { destruct (proj2 W' q Q1) as [K _]. destruct Q2; subst; congruence. }
    destruct W as [W0 _]. inversion W0 as [|? ? K _]; subst. apply K. rewrite <- E'.
    now apply (in_map (fun p => eid (fst p))). }
  constructor; [|constructor; auto].
  - intros [E|I]; [rewrite E in *; congruence|]. now apply (X _ I).
  - intros I. now apply (X _ I).
Qed.
Lemma flat_good ps evs : wfps ps -> Permutation (flat ps) evs -> ordered evs -> good evs.
Proof.
  intros W Q O P e R E.
  assert (ND : NoDup evs) by (eapply Permutation_NoDup; eauto using flat_nodup).
  assert (NP : ~ In e P). { rewrite E in ND. apply NoDup_remove_2 in ND. intros I. apply ND, in_or_app. auto. }
  assert (EI : In e (flat ps)). { apply (Permutation_in _ (Permutation_sym Q)). rewrite E. apply in_elt. }
  apply flat_in in EI as [p [P1 P2]]. destruct (proj2 W p P1) as [W1 [W2 [W3 [W4 [W5 W6]]]]].
  assert (PI : forall f, In f P -> exists q, In q ps /\ (f = fst q \/ f = snd q) /\ eid f = eid (fst q)).
  { intros f F. assert (I : In f (flat ps)).
    { apply (Permutation_in _ (Permutation_sym Q)). rewrite E. apply in_or_app. auto. }
    apply flat_in in I as [q [Q1 Q2]]. exists q. split; auto. split; auto.
    destruct (proj2 W q Q1) as [K _]. destruct Q2; subst; congruence. }
  assert (BF : forall f, In f P -> (etime f <= etime e)%Z).
  { intros f F. apply in_split in F as [A [B ->]]. apply cmp_time.
    apply (O A f (B ++ e :: R)); [rewrite E, <- app_assoc; reflexivity|]. apply in_elt. }
  split.
  - intros S1 f F EF. destruct P2 as [->| ->]; [|congruence].
    destruct (PI f F) as [q [Q1 [Q2 Q3]]]. assert (q = p). { apply (wfps_id ps); auto. congruence. }
    subst q. destruct Q2 as [->| ->]; [auto|]. specialize (BF _ F). lia.
  - intros S1. destruct P2 as [->| ->]; [congruence|]. split.
    + exists (fst p). assert (I : In (fst p) evs).
      { apply (Permutation_in _ Q). apply flat_in. exists p. auto. }
      rewrite E in I. apply in_app_or in I as [I|[I|I]].
      * repeat (split; [now auto|]). auto.
      * rewrite I in *. congruence.
      * exfalso. pose proof (O P (snd p) R E (fst p) I) as C. apply cmp_time in C. lia.
    + intros f F S2 EF. destruct (PI f F) as [q [Q1 [Q2 Q3]]].
      assert (q = p). { apply (wfps_id ps); auto. congruence. } subst q.
      destruct Q2 as [->| ->]; [congruence|auto].
Qed.

(* The live events at t are the starts of the tuples whose interval contains t. *)
Lemma live_in ps evs k n t e : wfps ps -> Permutation (flat ps) evs ->
  In e (live k n (upto t evs)) <->
  exists p, In p ps /\ e = fst p /\ on k n e = true /\ (etime (fst p) <= t < etime (snd p))%Z.
Proof.
  intros W Q.
  assert (FI : forall f, In f (upto t evs) <-> In f (flat ps) /\ (etime f <= t)%Z).
  { intros f. unfold upto. rewrite filter_In. split; intros [H1 H2]; (split; [|lia]).
    - apply (Permutation_in _ (Permutation_sym Q)); auto.
    - apply (Permutation_in _ Q); auto. }
  unfold live. rewrite filter_In, FI. rewrite !andb_true_iff, negb_true_iff, ended_false. split.
  - intros [[I T] [[O S1] N]]. apply flat_in in I as [p [P1 P2]].
    destruct (proj2 W p P1) as [W1 [W2 [W3 [W4 [W5 W6]]]]]. destruct P2 as [->| ->]; [|congruence].
    exists p. repeat (split; [now auto|]). destruct (Z.lt_ge_cases t (etime (snd p))); auto.
    exfalso. apply (N (snd p)); auto. apply FI. split; [|lia]. apply flat_in. eauto.
  - intros [p [P1 [-> [O T]]]]. destruct (proj2 W p P1) as [W1 [W2 [W3 [W4 [W5 W6]]]]].
    split; [split; [apply flat_in; eauto|lia]|]. split; [auto|].
    intros f F S1 E. apply FI in F as [F T']. apply flat_in in F as [q [Q1 Q2]].
    destruct (proj2 W q Q1) as [U1 _].
    assert (q = p). { apply (wfps_id ps); auto. destruct Q2; subst; congruence. } subst q.
    destruct Q2; subst; [congruence|lia].
Qed.

(* The flag *)
Lemma last_start_cases k n P :
  last_start k n P = false /\ (forall f, In f P -> on k n f = false) \/
  exists A e B, P = A ++ e :: B /\ on k n e = true /\ last_start k n P = is_start (ety e) /\
    forall f, In f B -> on k n f = false.
Proof.
  induction P as [|x P IH] using rev_ind; [left; split; auto; easy|].
  rewrite last_start_snoc. destruct (on k n x) eqn:O.
  - right. exists P, x, []. repeat (split; [now auto|]). easy.
  - destruct IH as [[IH1 IH2]|[A [e [B [E [O' [L K]]]]]]].
    + left. split; auto. intros f F. apply in_app_or in F as [F|[<-|[]]]; auto.
    + right. exists A, e, (B ++ [x]). rewrite E, <- app_assoc. split; auto. split; auto. split; [now rewrite <- E|].
      intros f F. apply in_app_or in F as [F|[<-|[]]]; auto.
Qed.
Definition disjoint_ps (k : kind) (n : nat) (ps : list (event * event)) : Prop :=
  forall p q, In p ps -> In q ps -> p <> q -> on k n (fst p) = true -> on k n (fst q) = true ->
  (etime (snd p) <= etime (fst q) \/ etime (snd q) <= etime (fst p))%Z.
Lemma flag_live ps evs k n t : wfps ps -> Permutation (flat ps) evs -> ordered evs ->
  last_start k n (upto t evs) = true -> exists e, In e (live k n (upto t evs)).
Proof.
  intros W Q O L. destruct (last_start_cases k n (upto t evs)) as [[X _]|[A [e [B [E [O' [S1 N]]]]]]]; [congruence|].
  rewrite L in S1.
  assert (FI : forall f, In f (upto t evs) <-> In f (flat ps) /\ (etime f <= t)%Z).
  { intros f. unfold upto. rewrite filter_In. split; intros [H1 H2]; (split; [|lia]).
    - apply (Permutation_in _ (Permutation_sym Q)); auto.
    - apply (Permutation_in _ Q); auto. }
  assert (I : In e (upto t evs)) by (rewrite E; apply in_elt).
  destruct (proj1 (FI e) I) as [F T]. apply flat_in in F as [p [P1 P2]].
  destruct (proj2 W p P1) as [W1 [W2 [W3 [W4 [W5 W6]]]]]. destruct P2 as [->| ->]; [|congruence].
  exists (fst p). apply (live_in ps); auto. exists p. repeat (split; [now auto|]).
  destruct (Z.lt_ge_cases t (etime (snd p))); auto. exfalso.
  assert (J : In (snd p) (upto t evs)). { apply FI. split; [apply flat_in; eauto|lia]. }
  assert (O2 : on k n (snd p) = true). { unfold SteEv.on in *. now rewrite W2, W3. }
  rewrite E in J. apply in_app_or in J as [J|[J|J]].
  - destruct (upto_ordered V t evs O) as [R' [E' _]].
    apply in_split in J as [C [D ->]].
    pose proof (O C (snd p) (D ++ fst p :: B ++ R')) as OO.
    rewrite E' in OO at 1. rewrite E in OO.
    specialize (OO ltac:(rewrite <- !app_assoc; reflexivity) (fst p) (in_elt _ _ _)).
    apply cmp_time in OO. lia.
  - rewrite J in *. congruence.
  - rewrite (N _ J) in O2. discriminate.
Qed.
Lemma live_flag ps evs k n t : wfps ps -> Permutation (flat ps) evs -> ordered evs -> disjoint_ps k n ps ->
  (exists e, In e (live k n (upto t evs))) -> last_start k n (upto t evs) = true.
Proof.
  intros W Q O D [e L]. apply (live_in ps) in L as [p [P1 [-> [ON T]]]]; auto.
  destruct (proj2 W p P1) as [W1 [W2 [W3 [W4 [W5 W6]]]]].
  assert (FI : forall f, In f (upto t evs) <-> In f (flat ps) /\ (etime f <= t)%Z).
  { intros f. unfold upto. rewrite filter_In. split; intros [H1 H2]; (split; [|lia]).
    - apply (Permutation_in _ (Permutation_sym Q)); auto.
    - apply (Permutation_in _ Q); auto. }
  assert (I : In (fst p) (upto t evs)). { apply FI. split; [apply flat_in; eauto|lia]. }
  destruct (last_start_cases k n (upto t evs)) as [[_ X]|[A [e [B [E [O' [S1 N]]]]]]];
    [rewrite (X _ I) in ON; discriminate|].
  rewrite S1. destruct (is_start (ety e)) eqn:S2; auto. exfalso.
  assert (J : In e (upto t evs)) by (rewrite E; apply in_elt).
  destruct (proj1 (FI e) J) as [F T']. apply flat_in in F as [q [Q1 Q2]].
  destruct (proj2 W q Q1) as [U1 [U2 [U3 [U4 [U5 U6]]]]]. destruct Q2 as [->| ->]; [congruence|].
  assert (PQ : p <> q) by (intros ->; lia).
  assert (ON' : on k n (fst q) = true). { unfold SteEv.on in *. now rewrite <- U2, <- U3. }
  destruct (D p q P1 Q1 PQ ON ON'); [lia|].
  (* the start of p is at or after the end of q, so before t it comes later in the list *)
  rewrite E in I. apply in_app_or in I as [I|[I|I]].
  - destruct (upto_ordered V t evs O) as [R' [E' _]]. apply in_split in I as [C [Y ->]].
    pose proof (O C (fst p) (Y ++ snd q :: B ++ R')) as OO.
    rewrite E' in OO at 1. rewrite E in OO.
    specialize (OO ltac:(rewrite <- !app_assoc; reflexivity) (snd q) (in_elt _ _ _)).
    pose proof (cmp_time V _ _ OO).
    destruct (on_true V _ _ _ ON) as [K1 K2]. destruct (on_true V _ _ _ O') as [K3 K4].
    pose proof (cmp_type V _ _ OO ltac:(lia) ltac:(congruence)) as C1.
    assert (EK : kind_of (ety (fst p)) = kind_of (ety (snd q))) by congruence.
    clear - C1 EK W4 U5. destruct (ety (fst p)), (ety (snd q)); cbn in *; try discriminate; lia.
  - rewrite <- I in *. congruence.
  - rewrite (N _ I) in ON. discriminate.
Qed.

(* ---------------------------------------------------------------------- *)
(* The pairs of events of the tuples. *)
Definition weak_pair (id : nat) (w : weak_t V) : event * event :=
  (Ev V id start_weak (w_nd V w) (w_from V w) (w_when V w) (w_when V w),
   Ev V id end_weak (w_nd V w) (w_to V w) (w_when V w) (w_when V w)).
Definition cond_pair (s e : SteModel.ety) (id : nat) (k : cond_t V) : event * event :=
  (Ev V id s (k_nd V k) (k_from V k) (cor (cnot (k_when V k)) (k_val V k)) (cor (cnot (k_when V k)) (cnot (k_val V k))),
   Ev V id e (k_nd V k) (k_to V k) cone cone).
Definition trace_pair (id : nat) (r : trace_t) : event * event :=
  (Ev V id start_trace (t_nd r) (t_from r) czero czero,
   Ev V id end_trace (t_nd r) (t_to r) czero czero).
Fixpoint numb {A} (f : nat -> A -> event * event) (id : nat) (l : list A) : list (event * event) :=
  match l with [] => [] | x :: l => f id x :: numb f (S id) l end.
Definition ev_pairs wl ant cons trl : list (event * event) :=
  numb weak_pair 0 wl ++ numb (cond_pair start_ant end_ant) (length wl) ant ++
  numb (cond_pair start_cons end_cons) (length wl + length ant) cons ++
  numb trace_pair (length wl + length ant + length cons) trl.
Lemma flat_app a b : flat (a ++ b) = flat a ++ flat b.
Proof. unfold flat. apply flat_map_app. Qed.
Lemma number_flat {A} f g (l : list A) : (forall id x, g id x = [fst (f id x); snd (f id x)]) ->
  forall id, number V g id l = flat (numb f id l).
Proof. intros E. induction l; intros id; cbn; auto. now rewrite E, IHl. Qed.
Lemma create_flat wl ant cons trl : create_events wl ant cons trl = flat (ev_pairs wl ant cons trl).
Proof.
  unfold SteModel.create_events, ev_pairs. rewrite !flat_app.
  rewrite <- (number_flat weak_pair (weak_events V)) by reflexivity.
  rewrite <- (number_flat (cond_pair start_ant end_ant) (cond_events V cor cnot cone start_ant end_ant)) by reflexivity.
  rewrite <- (number_flat (cond_pair start_cons end_cons) (cond_events V cor cnot cone start_cons end_cons)) by reflexivity.
  rewrite <- (number_flat trace_pair (trace_events V czero)) by reflexivity.
  reflexivity.
Qed.
Lemma numb_in {A} f (l : list A) p : forall id, In p (numb f id l) <-> exists i x, nth_error l i = Some x /\ p = f (id + i) x.
Proof.
  induction l as [|y l IH]; intros id; cbn.
  - split; [easy|]. intros [[|i] [x [E _]]]; discriminate.
  - rewrite IH. split.
    + intros [<-|[i [x [E ->]]]]; [exists 0, y; now rewrite Nat.add_0_r|]. exists (S i), x. now rewrite Nat.add_succ_r.
    + intros [[|i] [x [E ->]]]; cbn in E.
      * injection E as ->. left. now rewrite Nat.add_0_r.
      * right. exists i, x. now rewrite Nat.add_succ_r.
Qed.
Lemma numb_ids {A} f (l : list A) : (forall id x, eid (fst (f id x)) = id) -> forall id,
  map (fun p => eid (fst p)) (numb f id l) = seq id (length l).
Proof. intros E. induction l; intros id; cbn; auto. now rewrite E, IHl. Qed.

(* all tuples have from < to *)
Definition proper (wl : list (weak_t V)) (ant cons : list (cond_t V)) (trl : list trace_t) : Prop :=
  (forall w, In w wl -> (w_from V w < w_to V w)%Z) /\ (forall k, In k ant -> (k_from V k < k_to V k)%Z) /\
  (forall k, In k cons -> (k_from V k < k_to V k)%Z) /\ (forall r, In r trl -> (t_from r < t_to r)%Z).
Lemma ev_pairs_wf wl ant cons trl : proper wl ant cons trl -> wfps (ev_pairs wl ant cons trl).
Proof.
  intros [P1 [P2 [P3 P4]]]. split.
  - unfold ev_pairs. rewrite !map_app, !numb_ids by reflexivity.
    rewrite <- !seq_app. 
    apply seq_NoDup.
  - intros p I. unfold ev_pairs in I. rewrite !in_app_iff, !numb_in in I.
    destruct I as [[i [x [E ->]]]|[[i [x [E ->]]]|[[i [x [E ->]]]|[i [x [E ->]]]]]]; apply nth_error_In in E;
    unfold wfp; cbn; auto 10.
Qed.

(* qsort *)
Definition sorts (srt : list event -> list event) : Prop := forall l,
  Permutation l (srt l) /\ StronglySorted (fun a b => (event_cmp V a b <= 0)%Z) (srt l).
Lemma sorted_split {A} (R : A -> A -> Prop) l : StronglySorted R l ->
  forall a x b, l = a ++ x :: b -> forall y, In y a -> R y x.
Proof.
  induction 1 as [|z l S1 IH F]; intros a x b E y I; [destruct a; discriminate|].
  destruct a as [|z' a]; [destruct I|]. injection E as <- E. destruct I as [<-|I]; [|eauto].
  rewrite Forall_forall in F. apply F. rewrite E. apply in_elt.
Qed.
Lemma sorts_ordered srt l : sorts srt -> ordered (rev (srt l)) /\ Permutation l (rev (srt l)).
Proof.
  intros Q. destruct (Q l) as [Q1 Q2]. split.
  - intros P e R E f F. apply (f_equal (@rev _)) in E. rewrite rev_involutive, rev_app_distr in E. cbn in E.
    rewrite <- app_assoc in E. cbn in E.
    apply (sorted_split _ _ Q2 (rev R) e (rev P) E). now apply in_rev in F.
  - eapply perm_trans; [exact Q1|apply Permutation_rev].
Qed.

(* The events as the main loop processes them, at the times t0, t0 + 1, ... *)
Fixpoint run_events (N : net) (t : Z) (m : nat) (evs : list event) (s : estate) : option (list event * estate) :=
  match m with
  | 0 => Some (evs, s)
  | S m => match process N evs t s with
           | None => None
           | Some (evs, s) => run_events N (t + 1) m evs (clear_chg V s)
           end
  end.
Local Notation inv := (SteEv.inv V cand cone).
Lemma clear_inv P s : inv P s -> inv P (clear_chg V s).
Proof. intros [I1 I2 I3]. split; auto. Qed.
Lemma upto_none t l : (forall f, In f l -> (t < etime f)%Z) -> upto t l = [].
Proof.
  induction l as [|x l IH]; intros K; cbn; auto. pose proof (K x (or_introl eq_refl)).
  destruct (Z.leb_spec (etime x) t); [lia|]. apply IH. intros; apply K; now right.
Qed.
Lemma upto_app t a b : upto t (a ++ b) = upto t a ++ upto t b.
Proof. apply filter_app. Qed.
Lemma upto_all t l : (forall f, In f l -> (etime f <= t)%Z) -> upto t l = l.
Proof.
  induction l as [|x l IH]; intros K; cbn; auto. pose proof (K x (or_introl eq_refl)).
  destruct (Z.leb_spec (etime x) t); [|lia]. f_equal. apply IH. intros; apply K; now right.
Qed.
Lemma run_inv N m : forall t evs Q R s, evs = Q ++ R -> good evs -> ordered evs -> inv Q s ->
  (forall f, In f Q -> (etime f < t)%Z) ->
  exists R' s', run_events N t (S m) R s = Some (R', s') /\
    let t' := (t + Z.of_nat m)%Z in
    evs = upto t' evs ++ R' /\ (forall f, In f R' -> (t' < etime f)%Z) /\ inv (upto t' evs) s'.
Proof.
  induction m as [|m IH]; intros t evs Q R s E G O I L.
  - destruct (process_inv V cand czero cone ceq N t Q R s) as [R' [s' [E1 [E2 [K [I' _]]]]]]; auto;
      [now rewrite <- E|rewrite E in O; eapply ordered_app; eauto|].
    cbn [run_events]. rewrite E1. exists R', (clear_chg V s'). split; auto. cbn zeta.
    rewrite Z.add_0_r. assert (U : upto t evs = Q ++ upto t R).
    { rewrite E, upto_app, (upto_all t Q); auto. intros f F. specialize (L f F). lia. }
    rewrite U. split; [|split; auto]. 2:{ now apply clear_inv. }
    rewrite E, E2 at 1. rewrite <- app_assoc. reflexivity.
  - destruct (process_inv V cand czero cone ceq N t Q R s) as [R' [s' [E1 [E2 [K [I' _]]]]]]; auto;
      [now rewrite <- E|rewrite E in O; eapply ordered_app; eauto|].
    cbn [run_events]. rewrite E1.
    destruct (IH (t + 1)%Z evs (Q ++ upto t R) R' (clear_chg V s')) as [R2 [s2 [F1 F2]]]; auto.
    + rewrite E, E2 at 1. rewrite <- app_assoc. reflexivity.
    + now apply clear_inv.
    + intros f F. apply in_app_or in F as [F|F]; [specialize (L f F); lia|].
      apply filter_In in F as [_ F]. lia.
    + exists R2, s2. cbn [run_events] in F1. split; auto.
      replace (t + Z.of_nat (S m))%Z with (t + 1 + Z.of_nat m)%Z by lia. exact F2.
Qed.
End Force.
