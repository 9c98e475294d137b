(* Where the operators of FsmOps.v lose no information. *)
From Coq Require Import List Arith NArith ZArith Bool Lia.
From Verif Require Import FsmOps FsmRel FsmBool FsmWord.
Import ListNotations.

(* the two-valued vectors that a vector of rails stands for *)
Definition admit (r : bool * bool) (v : bool) : Prop := (if v then fst r else snd r) = true.
Definition instance (l : list (bool * bool)) (b : list bool) : Prop := Forall2 admit l b.
Definition possible (l : list (bool * bool)) : Prop := Forall (fun r => fst r = true \/ snd r = true) l.
(* each value that output i can have is that for an instance of the inputs *)
Definition exact (o : wop) (n len : nat) : Prop :=
  forall l i v, length l = len -> possible l -> i < length (bop o n l) ->
    admit (nth i (bop o n l) (true, true)) v ->
    exists b, instance l b /\ nth i (bop o n (encv b)) (true, true) = enc v.

Local Notation binp := (inp bool true).

Lemma admit_fst r : fst r = true \/ snd r = true -> admit r (fst r).
Proof. destruct r as [[] []]; cbn; intuition discriminate. Qed.
Lemma from_fun l (g : nat -> bool) : (forall j, j < length l -> admit (nth j l (true, true)) (g j)) ->
  instance l (tab (length l) g).
Proof.
  unfold instance, tab. revert g. induction l as [|r l IH]; intros g H; cbn; constructor.
  - apply (H 0). cbn. lia.
  - rewrite <- seq_shift, map_map. apply IH. intros j L. apply (H (S j)). cbn. lia.
Qed.
Lemma inp_fun m g j : j < m -> binp (encv (tab m g)) j = enc (g j).
Proof.
  intros L. unfold inp, encv, tab. rewrite map_map.
  rewrite (nth_indep _ _ ((fun x => enc (g x)) 0)) by (now rewrite map_length, seq_length).
  rewrite (map_nth (fun x => enc (g x))), seq_nth; auto.
Qed.
Lemma possible_nth l j : possible l -> j < length l -> fst (nth j l (true, true)) = true \/ snd (nth j l (true, true)) = true.
Proof. intros P L. unfold possible in P. rewrite Forall_forall in P. apply P. now apply nth_In. Qed.
Lemma tab_nth' {A} n (f : nat -> A) i d : i < n -> nth i (tab n f) d = f i.
Proof.
  intros L. unfold tab. rewrite (nth_indep _ d (f 0)) by (now rewrite map_length, seq_length). rewrite map_nth, seq_nth; auto.
Qed.

(* ---------------------------------------------------------------------- *)
(* operators that work bit by bit *)
Definition some (r : bool * bool) : Prop := fst r = true \/ snd r = true.

Lemma bits3 (f : bool * bool -> bool * bool -> bool * bool -> bool * bool) (len i0 i1 i2 : nat) l v :
  (forall a b c, some a -> some b -> some c -> admit (f a b c) v ->
     exists x y z, admit a x /\ admit b y /\ admit c z /\ f (enc x) (enc y) (enc z) = enc v) ->
  length l = len -> possible l -> i0 < len -> i1 < len -> i2 < len -> i0 <> i1 -> i0 <> i2 -> i1 <> i2 ->
  admit (f (binp l i0) (binp l i1) (binp l i2)) v ->
  exists b, instance l b /\ length b = len /\ f (binp (encv b) i0) (binp (encv b) i1) (binp (encv b) i2) = enc v.
Proof.
  intros F L P L0 L1 L2 N01 N02 N12 H. subst len.
  apply F in H; [|now apply possible_nth..]. destruct H as [x [y [z [A0 [A1 [A2 E]]]]]].
  set (g := fun j => if j =? i0 then x else if j =? i1 then y else if j =? i2 then z else fst (nth j l (true, true))).
  exists (tab (length l) g). split; [|split].
  - apply from_fun. intros j Lj. unfold g.
    destruct (Nat.eqb_spec j i0) as [->|]; [exact A0|]. destruct (Nat.eqb_spec j i1) as [->|]; [exact A1|].
    destruct (Nat.eqb_spec j i2) as [->|]; [exact A2|]. now apply admit_fst, possible_nth.
  - unfold tab. now rewrite map_length, seq_length.
  - rewrite !inp_fun by assumption. unfold g. rewrite Nat.eqb_refl.
    destruct (Nat.eqb_spec i1 i0); [congruence|]. rewrite Nat.eqb_refl.
    destruct (Nat.eqb_spec i2 i0); [congruence|]. destruct (Nat.eqb_spec i2 i1); [congruence|]. now rewrite Nat.eqb_refl.
Qed.
Lemma bits2 (f : bool * bool -> bool * bool -> bool * bool) (len i0 i1 : nat) l v :
  (forall a b, some a -> some b -> admit (f a b) v ->
     exists x y, admit a x /\ admit b y /\ f (enc x) (enc y) = enc v) ->
  length l = len -> possible l -> i0 < len -> i1 < len -> i0 <> i1 ->
  admit (f (binp l i0) (binp l i1)) v ->
  exists b, instance l b /\ length b = len /\ f (binp (encv b) i0) (binp (encv b) i1) = enc v.
Proof.
  intros F L P L0 L1 N01 H. subst len.
  apply F in H; [|now apply possible_nth..]. destruct H as [x [y [A0 [A1 E]]]].
  set (g := fun j => if j =? i0 then x else if j =? i1 then y else fst (nth j l (true, true))).
  exists (tab (length l) g). split; [|split].
  - apply from_fun. intros j Lj. unfold g.
    destruct (Nat.eqb_spec j i0) as [->|]; [exact A0|]. destruct (Nat.eqb_spec j i1) as [->|]; [exact A1|].
    now apply admit_fst, possible_nth.
  - unfold tab. now rewrite map_length, seq_length.
  - rewrite !inp_fun by assumption. unfold g. rewrite Nat.eqb_refl.
    destruct (Nat.eqb_spec i1 i0); [congruence|]. now rewrite Nat.eqb_refl.
Qed.
Lemma bits1 (f : bool * bool -> bool * bool) (len i0 : nat) l v :
  (forall a, some a -> admit (f a) v -> exists x, admit a x /\ f (enc x) = enc v) ->
  length l = len -> possible l -> i0 < len -> admit (f (binp l i0)) v ->
  exists b, instance l b /\ length b = len /\ f (binp (encv b) i0) = enc v.
Proof.
  intros F L P L0 H. subst len.
  apply F in H; [|now apply possible_nth]. destruct H as [x [A0 E]].
  set (g := fun j => if j =? i0 then x else fst (nth j l (true, true))).
  exists (tab (length l) g). split; [|split].
  - apply from_fun. intros j Lj. unfold g.
    destruct (Nat.eqb_spec j i0) as [->|]; [exact A0|]. now apply admit_fst, possible_nth.
  - unfold tab. now rewrite map_length, seq_length.
  - rewrite !inp_fun by assumption. unfold g. now rewrite Nat.eqb_refl.
Qed.

Lemma not_exact n : exact ONot n n.
Proof.
  intros l i v L P Li H. cbn [eval_op bop] in *. unfold bop in *. cbn [eval_op] in *.
  unfold tab at 1 in Li. rewrite map_length, seq_length in Li. rewrite tab_nth' in H by assumption.
  destruct (bits1 (swap bool) n i l v) as [b [A [B C]]]; auto.
  - intros a SA HA. exists (negb v). destruct a as [[] []], v; cbn in *; auto; discriminate.
  - exists b. split; auto. now rewrite tab_nth'.
Qed.
Lemma pairs_nth n l i : i < n -> nth i (pairs bool true n l) ((true, true), (true, true)) = (binp l i, binp l (i + n)).
Proof. intros L. unfold pairs. now rewrite tab_nth'. Qed.
Lemma pairs_len n l : length (pairs bool true n l) = n.
Proof. unfold pairs, tab. now rewrite map_length, seq_length. Qed.
Lemma and_exact n : exact OAnd n (n + n).
Proof.
  intros l i v L P Li H. unfold bop in *. cbn [eval_op] in *. rewrite map_length, pairs_len in Li.
  set (f := fun ab => and1 bool andb orb (fst ab) (snd ab)) in *.
  assert (Q : forall m, nth i (map f (pairs bool true n m)) (true, true) = and1 bool andb orb (binp m i) (binp m (i + n))).
  { intros m. rewrite (nth_indep _ _ (f ((true, true), (true, true)))) by (now rewrite map_length, pairs_len).
    rewrite map_nth, pairs_nth by assumption. reflexivity. }
  rewrite Q in H. destruct (bits2 (and1 bool andb orb) (n + n) i (i + n) l v) as [b [A [B C]]]; auto; try lia.
  - intros a b SA SB HA. destruct v.
    + exists true, true. destruct a as [[] []], b as [[] []]; cbn in *; auto; discriminate.
    + destruct a as [[] []], b as [[] []]; cbn in *; try discriminate;
      solve [exists false, true; cbn; auto|exists true, false; cbn; auto|exists false, false; cbn; auto|
             unfold some in *; cbn in *; intuition discriminate].
  - exists b. split; auto. now rewrite Q.
Qed.
Lemma or_exact n : exact OOr n (n + n).
Proof.
  intros l i v L P Li H. unfold bop in *. cbn [eval_op] in *. rewrite map_length, pairs_len in Li.
  set (f := fun ab => or1 bool andb orb (fst ab) (snd ab)) in *.
  assert (Q : forall m, nth i (map f (pairs bool true n m)) (true, true) = or1 bool andb orb (binp m i) (binp m (i + n))).
  { intros m. rewrite (nth_indep _ _ (f ((true, true), (true, true)))) by (now rewrite map_length, pairs_len).
    rewrite map_nth, pairs_nth by assumption. reflexivity. }
  rewrite Q in H. destruct (bits2 (or1 bool andb orb) (n + n) i (i + n) l v) as [b [A [B C]]]; auto; try lia.
  - intros a b SA SB HA. destruct v.
    + destruct a as [[] []], b as [[] []]; cbn in *; try discriminate;
      solve [exists false, true; cbn; auto|exists true, false; cbn; auto|exists true, true; cbn; auto|
             unfold some in *; cbn in *; intuition discriminate].
    + exists false, false. destruct a as [[] []], b as [[] []]; cbn in *; auto; discriminate.
  - exists b. split; auto. now rewrite Q.
Qed.
Lemma ite_exact n : exact (OIte true) n (1 + n + n).
Proof.
  intros l i v L P Li H. unfold bop in *. cbn [eval_op] in *. unfold tab at 1 in Li. rewrite map_length, seq_length in Li.
  rewrite tab_nth' in H by assumption.
  destruct (bits3 (ite1 bool andb orb) (1 + n + n) 0 (1 + i) (1 + i + n) l v) as [b [A [B C]]]; auto; try lia.
  - intros c a b SC SA SB HA. destruct c as [[] []], a as [[] []], b as [[] []], v; cbn in HA; try discriminate HA;
    solve [unfold some in *; cbn in *; intuition discriminate
      |exists true, true, true; repeat split|exists true, true, false; repeat split
      |exists true, false, true; repeat split|exists true, false, false; repeat split
      |exists false, true, true; repeat split|exists false, true, false; repeat split
      |exists false, false, true; repeat split|exists false, false, false; repeat split].
  - exists b. split; auto. now rewrite tab_nth'.
Qed.

(* ---------------------------------------------------------------------- *)
(* operators that go over the pairs of bits *)
Definition inst2 (p : (bool * bool) * (bool * bool)) (q : bool * bool) : Prop := admit (fst p) (fst q) /\ admit (snd p) (snd q).
Definition enc2 (q : bool * bool) : (bool * bool) * (bool * bool) := (enc (fst q), enc (snd q)).
Definition some2 (p : (bool * bool) * (bool * bool)) : Prop := some (fst p) /\ some (snd p).

Lemma Forall2_length' {A B} (R : A -> B -> Prop) l m : Forall2 R l m -> length l = length m.
Proof. induction 1; cbn; auto. Qed.
Lemma Forall2_nth' {A B} (R : A -> B -> Prop) l m d e : Forall2 R l m -> forall i, i < length l -> R (nth i l d) (nth i m e).
Proof. induction 1 as [|x y l m H F IH]; cbn; intros i L; [lia|]. destruct i; auto. apply IH. lia. Qed.
Lemma of_pairs n l bs : length l = n + n -> Forall2 inst2 (pairs bool true n l) bs ->
  exists b, instance l b /\ pairs bool true n (encv b) = map enc2 bs.
Proof.
  intros L F.
  assert (LB : length bs = n) by (rewrite <- (Forall2_length' _ _ _ F); apply pairs_len).
  set (g := fun j => if j <? n then fst (nth j bs (false, false)) else snd (nth (j - n) bs (false, false))).
  exists (tab (n + n) g). split.
  - rewrite <- L. apply from_fun. intros j Lj. rewrite L in Lj.
    assert (G : forall i, i < n -> admit (binp l i) (fst (nth i bs (false, false))) /\ admit (binp l (i + n)) (snd (nth i bs (false, false)))).
    { intros i Li. pose proof (Forall2_nth' _ _ _ ((true, true), (true, true)) (false, false) F i) as Q.
      rewrite pairs_len in Q. specialize (Q Li). rewrite pairs_nth in Q by assumption. exact Q. }
    unfold g. destruct (Nat.ltb_spec j n).
    + now apply G.
    + destruct (G (j - n)) as [_ Q]; [lia|]. replace (j - n + n) with j in Q by lia. exact Q.
  - apply (nth_ext _ _ ((true, true), (true, true)) (enc2 (false, false))).
    + now rewrite pairs_len, map_length.
    + intros i Li. rewrite pairs_len in Li. rewrite pairs_nth, map_nth by assumption. rewrite !inp_fun by lia. unfold g, enc2.
      destruct (Nat.ltb_spec i n); [|lia]. destruct (Nat.ltb_spec (i + n) n); [lia|]. now replace (i + n - n) with i by lia.
Qed.
Lemma pairs_some n l : length l = n + n -> possible l -> Forall some2 (pairs bool true n l).
Proof.
  intros L P. apply Forall_forall. intros p H. unfold pairs, tab in H. apply in_map_iff in H. destruct H as [i [<- H]].
  apply in_seq in H. split; cbn [fst snd]; apply possible_nth; auto; lia.
Qed.
Lemma firsts ps : Forall some2 ps -> Forall2 inst2 ps (map (fun p => (fst (fst p), fst (snd p))) ps).
Proof.
  induction 1 as [|p ps [A B] H IH]; cbn; constructor; auto. split; cbn; now apply admit_fst.
Qed.

Ltac find3 := solve [unfold some2, some in *; cbn in *; intuition discriminate
      |exists true, true, true; repeat split|exists true, true, false; repeat split
      |exists true, false, true; repeat split|exists true, false, false; repeat split
      |exists false, true, true; repeat split|exists false, true, false; repeat split
      |exists false, false, true; repeat split|exists false, false, false; repeat split].

Lemma ge_some ps : Forall some2 ps -> some (ge_from bool andb orb (r0 bool false true) ps).
Proof.
  induction 1 as [|p ps [A B] S IH]; [now right|]. cbn [ge_from fold_right].
  fold (ge_from bool andb orb (r0 bool false true) ps). set (g := ge_from bool andb orb (r0 bool false true) ps) in *. clearbody g.
  unfold some in *. destruct p as [[[] []] [[] []]], g as [[] []]; cbn in *; intuition discriminate.
Qed.
Lemma ge_exact ps v : Forall some2 ps -> admit (ge_from bool andb orb (r0 bool false true) ps) v ->
  exists bs, Forall2 inst2 ps bs /\ ge_from bool andb orb (r0 bool false true) (map enc2 bs) = enc v.
Proof.
  intros S. revert v. induction S as [|p ps SP S IH]; intros v H.
  - exists []. split; [constructor|]. destruct v; [discriminate H|reflexivity].
  - cbn [ge_from fold_right] in H. fold (ge_from bool andb orb (r0 bool false true) ps) in H.
    assert (G : some (ge_from bool andb orb (r0 bool false true) ps)) by (now apply ge_some).
    set (g := ge_from bool andb orb (r0 bool false true) ps) in *.
    assert (Q : exists a b c, admit (fst p) a /\ admit (snd p) b /\ admit g c /\ ge_step bool andb orb (enc a, enc b) (enc c) = enc v).
    { clear IH. clearbody g. destruct SP as [SP1 SP2], p as [[[] []] [[] []]], g as [[] []], v; cbn in H; try discriminate H; find3. }
    destruct Q as [a [b [c [Qa [Qb [Qc E]]]]]]. destruct (IH c Qc) as [bs [F1 F2]].
    exists ((a, b) :: bs). split; [constructor; auto; now split|]. cbn [map ge_from fold_right].
    fold (ge_from bool andb orb (r0 bool false true) (map enc2 bs)). now rewrite F2.
Qed.
Lemma gr_exact n : exact (OGr n) 1 (n + n).
Proof.
  intros l i v L P Li H. unfold bop in *. cbn [eval_op op_GR length] in *. destruct i as [|i]; [|lia]. cbn [nth] in H.
  destruct (ge_exact _ v (pairs_some n l L P) H) as [bs [F E]]. destruct (of_pairs n l bs L F) as [b [A B]].
  exists b. split; auto. cbn [op_GR nth]. now rewrite B.
Qed.

Lemma eq_exact ps : forall e v, some e -> Forall some2 ps -> admit (fold_left (eq_step bool andb orb) ps e) v ->
  exists bs c, Forall2 inst2 ps bs /\ admit e c /\ fold_left (eq_step bool andb orb) (map enc2 bs) (enc c) = enc v.
Proof.
  induction ps as [|p ps IH]; intros e v SE S H.
  - exists [], v. split; [constructor|]. split; [exact H|reflexivity].
  - inversion S as [|? ? [S1 S2] S']; subst. cbn [fold_left] in H.
    assert (G : some (eq_step bool andb orb e p)).
    { unfold some in *. destruct p as [[[] []] [[] []]], e as [[] []]; cbn in *; intuition discriminate. }
    destruct (IH _ v G S' H) as [bs [c [F [C E]]]].
    assert (Q : exists a b c', admit (fst p) a /\ admit (snd p) b /\ admit e c' /\ eq_step bool andb orb (enc c') (enc a, enc b) = enc c).
    { clear IH H E G. destruct p as [[[] []] [[] []]], e as [[] []], c; cbn in C; try discriminate C; find3. }
    destruct Q as [a [b [c' [Qa [Qb [Qc Q]]]]]]. exists ((a, b) :: bs), c'. split; [constructor; auto; now split|]. split; auto.
    cbn [map fold_left]. change (enc2 (a, b)) with (enc a, enc b). now rewrite Q.
Qed.
Lemma op_eq_exact n : exact (OEq n) 1 (n + n).
Proof.
  intros l i v L P Li H. unfold bop in *. cbn [eval_op op_EQ length] in *. destruct i as [|i]; [|lia]. cbn [nth] in H.
  destruct (eq_exact (pairs bool true n l) (r1 bool false true) v) as [bs [c [F [C E]]]]; auto; [now left|now apply pairs_some|].
  destruct c; [|discriminate C]. destruct (of_pairs n l bs L F) as [b [A B]].
  exists b. split; auto. cbn [op_EQ nth]. rewrite B. exact E.
Qed.

Local Notation addf := (fold_right (add_step bool andb orb)).
Lemma add_some c ps : Forall some2 ps -> some (fst (addf (enc c, []) ps)).
Proof.
  induction 1 as [|p ps [A B] S IH]; [destruct c; cbv; auto|]. cbn [fold_right].
  set (g := addf (enc c, []) ps) in *. clearbody g. destruct g as [g o]. cbn [fst] in IH.
  unfold some in *. destruct p as [[[] []] [[] []]], g as [[] []]; cbn in *; intuition discriminate.
Qed.
Lemma add_len c ps : length (snd (addf (c, []) ps)) = length ps.
Proof.
  induction ps as [|p ps IH]; auto. cbn [fold_right length]. destruct (addf (c, []) ps) as [[g1 g2] o].
  destruct p as [[aH aL] [bH bL]]. cbn in *. now rewrite IH.
Qed.
Lemma add_carry c ps : Forall some2 ps -> forall v, admit (fst (addf (enc c, []) ps)) v ->
  exists bs, Forall2 inst2 ps bs /\ fst (addf (enc c, []) (map enc2 bs)) = enc v.
Proof.
  induction 1 as [|p ps SP S IH]; intros v H.
  - exists []. split; [constructor|]. destruct c, v; cbn in H |- *; auto; discriminate.
  - pose proof (add_some c ps S) as G. cbn [fold_right] in H.
    assert (Q : exists a b x, admit (fst p) a /\ admit (snd p) b /\ admit (fst (addf (enc c, []) ps)) x /\
      forall o, fst (add_step bool andb orb (enc a, enc b) (enc x, o)) = enc v).
    { destruct SP as [SP1 SP2]. destruct (addf (enc c, []) ps) as [g o]. cbn [fst] in *. clear IH.
      destruct p as [[[] []] [[] []]], g as [[] []], v; cbn in H; try discriminate H; find3. }
    destruct Q as [a [b [x [Qa [Qb [Qx E]]]]]]. destruct (IH x Qx) as [bs [F1 F2]].
    exists ((a, b) :: bs). split; [constructor; auto; now split|]. cbn [map fold_right].
    destruct (addf (enc c, []) (map enc2 bs)) as [g o]. cbn [fst] in F2. subst g. apply E.
Qed.
Lemma add_exact c ps : Forall some2 ps -> forall i v, i < length ps -> admit (nth i (snd (addf (enc c, []) ps)) (true, true)) v ->
  exists bs, Forall2 inst2 ps bs /\ nth i (snd (addf (enc c, []) (map enc2 bs))) (true, true) = enc v.
Proof.
  induction 1 as [|p ps SP SS IH]; intros i v Li H; cbn in Li; [lia|]. destruct i as [|i].
  - pose proof (add_some c ps SS) as G. cbn [fold_right] in H.
    assert (Q : exists a b x, admit (fst p) a /\ admit (snd p) b /\ admit (fst (addf (enc c, []) ps)) x /\
      forall o, nth 0 (snd (add_step bool andb orb (enc a, enc b) (enc x, o))) (true, true) = enc v).
    { destruct SP as [SP1 SP2]. destruct (addf (enc c, []) ps) as [g o]. cbn [fst] in *. clear IH.
      destruct p as [[[] []] [[] []]], g as [[] []], v; cbn in H; try discriminate H; find3. }
    destruct Q as [a [b [x [Qa [Qb [Qx E]]]]]]. destruct (add_carry c ps SS x Qx) as [bs [F1 F2]].
    exists ((a, b) :: bs). split; [constructor; auto; now split|]. cbn [map fold_right].
    destruct (addf (enc c, []) (map enc2 bs)) as [g o]. cbn [fst] in F2. subst g. apply E.
  - assert (T : forall c0 q qs, nth (S i) (snd (addf (c0, []) (q :: qs))) (true, true) = nth i (snd (addf (c0, []) qs)) (true, true)).
    { intros c0 [[aH aL] [bH bL]] qs. cbn [fold_right]. destruct (addf (c0, []) qs) as [[g1 g2] o]. reflexivity. }
    rewrite T in H. destruct (IH i v) as [bs [F E]]; [lia|exact H|].
    exists ((fst (fst p), fst (snd p)) :: bs). split.
    + constructor; auto. destruct SP. split; cbn; now apply admit_fst.
    + cbn [map]. now rewrite T.
Qed.
Lemma op_add_exact n : exact OAdd n (n + n).
Proof.
  intros l i v L P Li H. unfold bop in *. cbn [eval_op] in *. unfold op_ADD, add_from in *.
  change (r0 bool false true) with (enc false) in *. rewrite add_len, pairs_len in Li.
  destruct (add_exact false _ (pairs_some n l L P) i v) as [bs [F E]]; [now rewrite pairs_len|exact H|].
  destruct (of_pairs n l bs L F) as [b [A B]]. exists b. split; auto. now rewrite B.
Qed.
Lemma op_sub_exact n : exact OSub n (n + n).
Proof.
  intros l i v L P Li H. unfold bop in *. cbn [eval_op] in *. unfold op_SUB, sub_list, add_from in *.
  change (r1 bool false true) with (enc true) in *. rewrite add_len, map_length, pairs_len in Li.
  set (sw := fun ab : (bool * bool) * (bool * bool) => (fst ab, swap bool (snd ab))) in *.
  assert (S : Forall some2 (map sw (pairs bool true n l))).
  { generalize (pairs_some n l L P). generalize (pairs bool true n l). induction 1 as [|p ps [A B] SS IH]; cbn; constructor; auto. split; auto.
    destruct p as [p [x y]]. unfold some in *. cbn in *. tauto. }
  destruct (add_exact true _ S i v) as [bs [F E]]; [now rewrite map_length, pairs_len|exact H|].
  set (ng := fun q : bool * bool => (fst q, negb (snd q))).
  destruct (of_pairs n l (map ng bs) L) as [b [A B]].
  - clear - F. remember (map sw (pairs bool true n l)) as m eqn:M. revert M. generalize (pairs bool true n l). revert F. 
    induction 1 as [|p q ps qs [H1 H2] F IH]; intros k M; destruct k as [|r k]; try discriminate M; constructor.
    + cbn in M. injection M as -> ->. split; [exact H1|]. cbn in *. destruct (snd r) as [x y], (snd q); exact H2.
    + apply IH. now injection M.
  - exists b. split; auto. rewrite B. rewrite map_map, map_map. replace (map (fun x => sw (enc2 (ng x))) bs) with (map enc2 bs); [exact E|].
    apply map_ext. intros [x []]; reflexivity.
Qed.
