(* rank_order: one rank for each composite, none above the number of ranks. *)
From Coq Require Import String List Arith ZArith Bool Lia.
From Verif Require Import FsmOps SteModel CompModel.
Import ListNotations.

Section Ranks.
Variable s : cst.
Definition bounded (r : list nat * nat) : Prop :=
  length (fst r) = length (s_comps s) /\ 1 <= snd r /\ forall k, In k (fst r) -> k <= snd r.

Lemma set_nth_length' {A} (l : list A) k v : length (set_nth l k v) = length l.
Proof. revert k. induction l; intros [|k]; cbn; auto. Qed.
Lemma set_nth_In' {A} (l : list A) k v x : In x (set_nth l k v) -> x = v \/ In x l.
Proof. revert k. induction l as [|a l IH]; intros [|k]; cbn; intuition. destruct (IH k H0); auto. Qed.

Lemma assign_bounded gas : forall k r, bounded r -> bounded (snd (assign_rank s gas k r)).
Proof.
  induction gas as [|gas IH]; intros k r B; cbn [assign_rank]; [exact B|].
  destruct (negb (rk r k =? 0)); [exact B|].
  assert (G : forall l p, bounded (snd p) ->
    bounded (snd (fold_left (fun '(m, r) j => let '(x, r') := assign_rank s gas j r in (Nat.max x m, r')) l p))).
  { induction l as [|j l IHl]; intros [m q] Bq; cbn [fold_left]; [exact Bq|]. apply IHl.
    pose proof (IH j q Bq) as H. destruct (assign_rank s gas j q). exact H. }
  specialize (G (feeds s k) (1, r) B).
  destruct (fold_left _ (feeds s k) (1, r)) as [m r1]. cbn [snd] in *. destruct G as [L [O M]].
  split; cbn [fst snd]; [now rewrite set_nth_length'|]. split; [lia|].
  intros x H. apply set_nth_In' in H. destruct H as [->|H]; [lia|]. apply M in H. lia.
Qed.

Lemma rank_order_bounded : bounded (rank_order s).
Proof.
  unfold rank_order.
  assert (G : forall l r, bounded r -> bounded (fold_left (fun r k => snd (assign_rank s 1000 k r)) l r)).
  { induction l as [|k l IH]; intros r B; [exact B|]. cbn [fold_left]. apply IH. now apply assign_bounded. }
  apply G. split; [cbn; now rewrite map_length|]. split; [cbn; lia|].
  intros k H. cbn [fst snd] in *. apply in_map_iff in H. destruct H as [c [<- _]]. destruct (c_phase c || no_fanout s c); lia.
Qed.
End Ranks.

Lemma to_net_cmp s k :
  (exists C r, nth_error (s_comps s) k = Some C /\ r <= ranks (to_net s) /\ cmp (to_net s) k = ranked C r) \/
  (length (s_comps s) <= k /\ cmp (to_net s) k = dummy).
Proof.
  destruct (rank_order_bounded s) as [L [_ M]]. unfold cmp, to_net. cbn [comps ranks].
  set (R := rank_order s) in *. clearbody R. destruct R as [r m]. cbn [fst snd] in *.
  generalize (s_comps s) L. clear L s. intros cs L. revert k cs L.
  induction r as [|a r IH]; intros k [|C cs] L; try discriminate L.
  - right. cbn. split; [lia|]. now destruct k.
  - destruct k as [|k].
    + left. exists C, a. cbn. repeat split; auto. apply M. now left.
    + cbn [combine map nth nth_error length]. cbn in L. injection L as L.
      destruct (IH (fun k H => M k (or_intror H)) k cs L) as [H|[H1 H2]]; [now left|]. right. split; [lia|]. exact H2.
Qed.

Lemma to_net_rank s k : k < length (s_comps s) -> c_rank (cmp (to_net s) k) = rk (rank_order s) k.
Proof.
  destruct (rank_order_bounded s) as [L _]. unfold cmp, to_net, rk. cbn [comps].
  set (R := rank_order s) in *. clearbody R. destruct R as [r m]. cbn [fst] in *.
  generalize (s_comps s) L. clear L s. intros cs L. revert k cs L.
  induction r as [|a r IH]; intros k [|C cs] L H; try discriminate L; cbn in H; [lia|].
  destruct k as [|k]; [reflexivity|]. cbn [combine map nth fst snd]. apply IH; [now injection L|lia].
Qed.

(* ---------------------------------------------------------------------- *)
(* Where the composites are at most 1000 deep, a composite has a higher rank than those it
   feeds. *)
Lemma nth_set_nth {A} (l : list A) k v j d : k < length l -> nth j (set_nth l k v) d = if j =? k then v else nth j l d.
Proof.
  revert k j. induction l as [|a l IH]; intros k j H; cbn in H; [lia|].
  destruct k as [|k], j as [|j]; cbn; auto. apply IH. lia.
Qed.

Section Topological.
Variable s : cst.
Variable depth : nat -> nat.
Definition early (k : nat) : bool :=
  let c := nth k (s_comps s) dummy in c_phase c || no_fanout s c.
Hypothesis DEEP : forall k j, early k = false -> In j (feeds s k) -> depth j < depth k.
Hypothesis FED : forall k j, In j (feeds s k) -> j < length (s_comps s).

Definition topo (r : list nat * nat) : Prop :=
  length (fst r) = length (s_comps s) /\
  (forall k, early k = true -> k < length (s_comps s) -> rk r k = 1) /\
  (forall k, early k = false -> rk r k <> 0 -> forall j, In j (feeds s k) -> 0 < rk r j < rk r k).
Definition later (d : nat) (r r' : list nat * nat) : Prop :=
  forall j, rk r' j = rk r j \/ (rk r j = 0 /\ depth j < d).
Lemma later_mono d d' r r' : later d r r' -> d <= d' -> later d' r r'.
Proof. intros H L j. destruct (H j) as [|[]]; auto. right. lia. Qed.

Lemma assign_topo gas : forall k r, topo r -> k < length (s_comps s) -> depth k < gas ->
  let '(x, r') := assign_rank s gas k r in
  topo r' /\ x = rk r' k /\ 0 < x /\ later (S (depth k)) r r'.
Proof.
  induction gas as [|gas IH]; intros k r T Lk Dk; [lia|]. cbn [assign_rank].
  destruct (negb (rk r k =? 0)) eqn:Z.
  - split; [exact T|]. split; [reflexivity|]. apply negb_true_iff, Nat.eqb_neq in Z. split; [lia|]. intros j. now left.
  - apply negb_false_iff, Nat.eqb_eq in Z.
    assert (EK : early k = false).
    { destruct (early k) eqn:E; auto. destruct T as [_ [T _]]. rewrite (T k E Lk) in Z. discriminate. }
    assert (G : forall l p, (forall j, In j l -> In j (feeds s k)) -> topo (snd p) ->
      let '(m, r1) := fold_left (fun '(m, r) j => let '(x, r') := assign_rank s gas j r in (Nat.max x m, r')) l p in
      topo r1 /\ fst p <= m /\ later (depth k) (snd p) r1 /\ forall j, In j l -> 0 < rk r1 j <= m).
    { induction l as [|j l IHl]; intros [m q] H Tq; cbn [fold_left].
      - split; [exact Tq|]. split; [auto|]. split; [intros j; now left|easy].
      - assert (Fj : In j (feeds s k)) by (apply H; now left). pose proof (DEEP k j EK Fj) as Dj.
        pose proof (IH j q Tq (FED k j Fj) ltac:(lia)) as A. destruct (assign_rank s gas j q) as [x q'].
        destruct A as [A1 [A2 [A3 A4]]].
        specialize (IHl (Nat.max x m, q') (fun i Hi => H i (or_intror Hi)) A1).
        destruct (fold_left _ l (Nat.max x m, q')) as [m1 r1]. destruct IHl as [B1 [B2 [B3 B4]]]. cbn [fst snd] in *.
        split; [exact B1|]. split; [lia|]. split.
        + intros i. destruct (B3 i) as [E|[E1 E2]]; [rewrite E; apply (later_mono _ _ _ _ A4); lia|].
          right. split; auto. destruct (A4 i) as [E|[E E']]; lia.
        + intros i [<-|Hi]; [|now apply B4]. destruct (B3 j) as [E|[E1 E2]]; lia. }
    specialize (G (feeds s k) (1, r) (fun _ H => H) T).
    destruct (fold_left _ (feeds s k) (1, r)) as [m r1]. destruct G as [[T1 [T2 T3]] [G2 [G3 G4]]]. cbn [fst snd] in *.
    assert (R : forall j mx, rk (set_nth (fst r1) k (S m), mx) j = if j =? k then S m else rk r1 j).
    { intros j mx. unfold rk. cbn [fst]. apply nth_set_nth. lia. }
    assert (Zk : rk r1 k = 0) by (destruct (G3 k) as [E|[_ E]]; lia).
    split; [|split; [|split]].
    + split; [|split].
      * cbn [fst]. now rewrite set_nth_length'.
      * intros j Ej Lj. rewrite R. destruct (Nat.eqb_spec j k) as [->|_]; [congruence|]. now apply T2.
      * intros j Ej Nj i Hi. rewrite R in Nj. rewrite !R. destruct (Nat.eqb_spec j k) as [->|Njk].
        -- destruct (Nat.eqb_spec i k) as [->|_]; [pose proof (DEEP k k EK Hi); lia|]. specialize (G4 i Hi). lia.
        -- specialize (T3 j Ej Nj i Hi). destruct (Nat.eqb_spec i k) as [->|_]; lia.
    + rewrite R, Nat.eqb_refl. reflexivity.
    + lia.
    + intros j. rewrite R. destruct (Nat.eqb_spec j k) as [->|_]; [right; lia|].
      apply (later_mono _ _ _ _ G3). lia.
Qed.

Hypothesis SHALLOW : forall k, k < length (s_comps s) -> depth k < 1000.
Lemma rank_order_topo k j : k < length (s_comps s) -> c_phase (nth k (s_comps s) dummy) = false -> In j (feeds s k) ->
  rk (rank_order s) j < rk (rank_order s) k.
Proof.
  unfold rank_order. intros Lk Pk Hj.
  set (r0 := (map (fun c => if c_phase c || no_fanout s c then 1 else 0) (s_comps s), 1)).
  assert (R0 : forall i, i < length (s_comps s) -> rk r0 i = if early i then 1 else 0).
  { intros i Hi. unfold r0, rk, early. cbn [fst].
    set (g := fun c => if c_phase c || no_fanout s c then 1 else 0).
    rewrite (nth_indep _ 0 (g dummy)) by (now rewrite map_length). now rewrite map_nth. }
  assert (T0 : topo r0).
  { split; [unfold r0; cbn [fst]; apply map_length|]. split.
    - intros i Ei Li. now rewrite R0, Ei.
    - intros i Ei Ni. exfalso. apply Ni. destruct (Nat.lt_ge_cases i (length (s_comps s))) as [L|L].
      + now rewrite R0, Ei.
      + unfold rk, r0. cbn [fst]. apply nth_overflow. now rewrite map_length. }
  assert (G : forall l r, (forall i, In i l -> i < length (s_comps s)) -> topo r ->
    let r' := fold_left (fun r k => snd (assign_rank s 1000 k r)) l r in
    topo r' /\ (forall i, rk r i <> 0 -> rk r' i <> 0) /\ forall i, In i l -> rk r' i <> 0).
  { induction l as [|i l IH]; intros r HL T; cbn [fold_left]; [split; [exact T|]; split; [auto|easy]|].
    pose proof (assign_topo 1000 i r T (HL i (or_introl eq_refl)) (SHALLOW i (HL i (or_introl eq_refl)))) as A.
    destruct (assign_rank s 1000 i r) as [x r1]. destruct A as [A1 [A2 [A3 A4]]]. cbn [snd].
    destruct (IH r1 (fun i Hi => HL i (or_intror Hi)) A1) as [B1 [B2 B3]]. split; [exact B1|]. split.
    - intros n Hn. apply B2. destruct (A4 n) as [E|[E _]]; congruence.
    - intros n [<-|Hn]; [apply B2; lia|now apply B3]. }
  destruct (G (seq 0 (length (s_comps s))) r0) as [[_ [_ T]] [_ A]]; [intros i Hi; apply in_seq in Hi; lia|exact T0|].
  assert (EK : early k = false).
  { unfold early. rewrite Pk. cbn [orb]. unfold no_fanout. apply not_true_iff_false. intros H. rewrite forallb_forall in H.
    unfold feeds in Hj. apply in_flat_map in Hj. destruct Hj as [n [Hn Hj]]. specialize (H n Hn). now destruct (s_fan s n). }
  apply (T k EK); auto. apply A. apply in_seq. lia.
Qed.
End Topological.
