(** * The collector *)

From Coq Require Import List Bool Arith NArith ZArith Lia Permutation.
Import ListNotations.
From Verif Require Import RcModel RcSpec RcInv RcDec.

(** The calls of [Mark] on [n] that are still to come. *)
Fixpoint pend (w : list item) (n : addr) : nat :=
  match w with
  | [] => 0
  | Mk m :: w => (if m =? n then 1 else 0) + pend w n
  | Sat _ :: w => pend w n
  end.

Lemma pend_app w1 w2 n : pend (w1 ++ w2) n = pend w1 n + pend w2 n.
Proof. induction w1 as [|[m|m] w IH]; cbn; auto. lia. Qed.

Lemma pend_map l n : pend (map Mk l) n = occ l n.
Proof. induction l as [|a l IH]; auto. cbn [map pend]. rewrite occ_cons, IH. reflexivity. Qed.

Lemma pend_sat l n : pend (flat_map (fun a => [Mk a; Sat a]) l) n = occ l n.
Proof. induction l as [|a l IH]; auto. cbn [flat_map app pend]. rewrite occ_cons, IH. reflexivity. Qed.

Definition what (i : item) : addr := match i with Mk n | Sat n => n end.

(** A node is saturated only after it has been marked. *)
Fixpoint ordered (M : list addr) (w : list item) : Prop :=
  match w with
  | [] => True
  | Mk n :: w => ordered (n :: M) w
  | Sat n :: w => In n M /\ ordered M w
  end.

Lemma ordered_mono w : forall M M', incl M M' -> ordered M w -> ordered M' w.
Proof.
  induction w as [|[n|n] w IH]; cbn; intros M M' h; auto.
  - apply IH. intros m [->|hm]; [left; reflexivity|right; auto].
  - intros [h1 h2]. split; auto. eapply IH; eauto.
Qed.

Lemma ordered_app w1 : forall M w2, ordered M w1 -> ordered M w2 -> ordered M (w1 ++ w2).
Proof.
  induction w1 as [|[n|n] w IH]; cbn; intros M w2; auto.
  - intros h1 h2. apply IH; auto. eapply ordered_mono; [|exact h2]. intros m hm. right. exact hm.
  - intros [h1 h2] h3. auto.
Qed.

Lemma ordered_map M l : ordered M (map Mk l).
Proof. revert M. induction l as [|a l IH]; cbn; auto. Qed.

Lemma ordered_sat M l : ordered M (flat_map (fun a => [Mk a; Sat a]) l).
Proof.
  revert M. induction l as [|a l IH]; intros M; cbn; auto.
Qed.

Lemma ordered_below M st n : ordered M (below st n).
Proof.
  unfold below. destruct (cell st n); try apply ordered_map.
  destruct ref; [apply ordered_sat|apply ordered_map].
Qed.

(** The references a node brings in when it is marked. *)
Lemma below_reach st rt n : reach st rt n -> forall i, In i (below st n) -> reach st rt (what i).
Proof.
  intros h i. unfold below.
  assert (hk : forall l, (forall m, In m l -> reach st rt m) -> In i (map Mk l) ->
               reach st rt (what i)).
  { intros l hl hi. apply in_map_iff in hi. destruct hi as (m & <- & hm). cbn. auto. }
  destruct (cell st n) as [| | | | | | | | |b k|] eqn:e; try (apply hk; intros m hm;
    apply (reach_kid _ _ n); [exact h|rewrite e; exact hm]).
  destruct b.
  - intros hi. apply in_flat_map in hi. destruct hi as (m & hm & [<-|[<-|[]]]); cbn;
      eapply reach_tab; eauto.
  - apply hk. intros m hm. eapply reach_tab; eauto.
Qed.

Lemma names_cons st n M k :
  names st (n :: M) k
  = (match cell st n with Tab _ k' => k' =? k | _ => false end || names st M k)%bool.
Proof. reflexivity. Qed.

Lemma tab_refs_cons st n M m :
  occ (tab_refs st (n :: M)) m
  <= occ (tab_refs st M) m
     + match cell st n with Tab _ k => occ (nth k (tabs st) []) m | _ => 0 end.
Proof.
  assert (hx : forall l, NoDup l ->
    occ (flat_map (fun k => if names st (n :: M) k then nth k (tabs st) [] else []) l) m
    <= occ (flat_map (fun k => if names st M k then nth k (tabs st) [] else []) l) m
       + match cell st n with
         | Tab _ k => if in_dec Nat.eq_dec k l then occ (nth k (tabs st) []) m else 0
         | _ => 0 end).
  { induction l as [|k l IH]; intros hn; [cbn; lia|].
    inversion hn as [|? ? h1 h2]; subst. specialize (IH h2).
    cbn [flat_map]. rewrite !occ_app, names_cons.
    destruct (cell st n) as [| | | | | | | | |b k'|] eqn:e; cbn [orb];
      try (destruct (names st M k); [lia|rewrite occ_nil; lia]).
    destruct (k' =? k) eqn:q; cbn [orb].
    - apply Nat.eqb_eq in q. subst.
      destruct (in_dec Nat.eq_dec k (k :: l)) as [_|z]; [|destruct z; left; reflexivity].
      destruct (in_dec Nat.eq_dec k l) as [z|_]; [contradiction|].
      destruct (names st M k); [lia|rewrite occ_nil; lia].
    - apply Nat.eqb_neq in q.
      destruct (in_dec Nat.eq_dec k' (k :: l)) as [z|z];
      destruct (in_dec Nat.eq_dec k' l) as [z'|z'];
      destruct (names st M k); try (rewrite ?occ_nil; lia);
      exfalso; apply z; right; exact z'. }
  unfold tab_refs. specialize (hx _ (seq_NoDup (length (tabs st)) 0)).
  destruct (cell st n); try exact hx.
  destruct (in_dec Nat.eq_dec k _); lia.
Qed.

Lemma pointers_cons st n M rt m :
  pointers st (n :: M) rt m <= pointers st M rt m + pend (below st n) m.
Proof.
  unfold pointers. cbn [flat_map]. rewrite occ_app.
  pose proof (tab_refs_cons st n M m) as t. unfold below.
  destruct (cell st n) as [| | | | | | | | |b k|] eqn:e; cbn [kids] in *;
    rewrite ?pend_map; rewrite ?(occ_nil m) in *; try lia.
  destruct b; rewrite ?pend_sat, ?pend_map; lia.
Qed.

(** ** Marking *)

Record marked (st0 st : store) (rt M : list addr) (w : list item) : Prop := {
  k_cell : cell st = cell st0;
  k_tabs : tabs st = tabs st0;
  k_top : top st = top st0;
  k_gcs : gcs st = gcs st0;
  k_nodup : NoDup M;
  k_in : forall n, In n M <-> rc st n <> 0%N;
  k_rc : forall n, rc st n = 3%N \/
      (rc st n = 0%N /\ pointers st0 M rt n <= pend w n) \/
      (rc st n = 2%N /\ pointers st0 M rt n <= 1 + pend w n);
  k_reach : forall n, In n M -> reach st0 rt n;
  k_work : forall i, In i w -> reach st0 rt (what i);
  k_ord : ordered M w
}.

Definition measure st (w : list item) : nat :=
  length w + list_sum (map (fun n => if N.eqb (rc st n) 0 then length (below st n) else 0)
                           (seq 0 (top st))).

Lemma sum_change (F G : addr -> nat) n l :
  (forall m, m <> n -> F m = G m) -> NoDup l -> In n l ->
  list_sum (map F l) + G n = list_sum (map G l) + F n.
Proof.
  intros h. induction l as [|a l IH]; intros hd hi; [destruct hi|].
  inversion hd as [|? ? h1 h2]; subst. cbn [map list_sum fold_right].
  destruct (Nat.eq_dec a n) as [->|ha].
  - assert (e : map F l = map G l).
    { apply map_ext_in. intros m hm. apply h. intros ->. contradiction. }
    change (fold_right Nat.add 0) with list_sum. rewrite e. lia.
  - destruct hi as [->|hi]; [contradiction|]. specialize (IH h2 hi). rewrite (h a ha).
    change (fold_right Nat.add 0) with list_sum. lia.
Qed.

Lemma sum_same (F G : addr -> nat) l :
  (forall m, F m = G m) -> list_sum (map F l) = list_sum (map G l).
Proof. intros h. f_equal. apply map_ext. exact h. Qed.

Lemma mark_ok f : forall st0 st rt M w,
  (forall n, reach st0 rt n -> n < top st0) ->
  marked st0 st rt M w -> measure st w <= f ->
  exists st' M', mark f st w = Some st' /\ marked st0 st' rt M' [] /\
    (forall n, rc st n = 3%N \/ In (Sat n) w -> rc st' n = 3%N).
Proof.
  induction f as [|f IH]; intros st0 st rt M w hb K hm.
  - destruct w as [|i w]; [|unfold measure in hm; cbn in hm; lia].
    exists st, M. repeat split; auto; try apply K. intros n [h|[]]. exact h.
  - destruct w as [|i w].
    { exists st, M. cbn [mark]. split; auto. split; auto. intros n [h|[]]. exact h. }
    assert (sat : forall n, i = Mk n \/ i = Sat n -> rc st n <> 0%N ->
              marked st0 (set_rc st n 3%N) rt M w /\
              measure (set_rc st n 3%N) w <= f).
    { intros n hi hn. split.
      - destruct K as [k1 k2 k3 k4 k5 k6 k7 k8 k9 k10]. split; auto.
        + intros m. cbn [rc set_rc]. destruct (Nat.eq_dec m n) as [->|q].
          * rewrite upd_same. rewrite k6. intuition discriminate.
          * rewrite upd_other by exact q. apply k6.
        + intros m. cbn [rc set_rc]. destruct (Nat.eq_dec m n) as [->|q].
          * rewrite upd_same. auto.
          * rewrite upd_other by exact q. specialize (k7 m).
            assert (e : pend (i :: w) m = pend w m).
            { destruct hi as [->| ->]; cbn [pend]; auto.
              apply not_eq_sym, Nat.eqb_neq in q. rewrite q. reflexivity. }
            rewrite e in k7. exact k7.
        + intros j hj. apply k9. right. exact hj.
        + destruct hi as [->| ->]; cbn [ordered] in k10.
          * eapply ordered_mono; [|exact k10]. intros m [<-|q]; auto.
            apply k6. exact hn.
          * apply k10.
      - unfold measure in *. cbn [length] in hm. cbn [top set_rc].
        assert (e : list_sum (map (fun m => if N.eqb (rc (set_rc st n 3%N) m) 0
                       then length (below (set_rc st n 3%N) m) else 0) (seq 0 (top st)))
                  = list_sum (map (fun m => if N.eqb (rc st m) 0
                       then length (below st m) else 0) (seq 0 (top st)))).
        { apply sum_same. intros m. cbn [rc set_rc].
          change (below (set_rc st n 3%N) m) with (below st m).
          destruct (Nat.eq_dec m n) as [->|q].
          - rewrite upd_same. apply N.eqb_neq in hn. rewrite hn. reflexivity.
          - rewrite upd_other by exact q. reflexivity. }
        rewrite e. lia. }
    destruct i as [n|n]; cbn [mark].
    + assert (gm : N.leb 1 (get_mark (rc st n)) = negb (N.eqb (rc st n) 0)).
      { destruct (k_rc _ _ _ _ _ K n) as [e|[[e _]|[e _]]]; rewrite e; reflexivity. }
      rewrite gm. destruct (N.eqb (rc st n) 0) eqn:e0; cbn [negb].
      * apply N.eqb_eq in e0. rewrite e0. change (set_mark 0 1) with 2%N.
        assert (hr : reach st0 rt n) by (apply (k_work _ _ _ _ _ K (Mk n)); left; reflexivity).
        assert (hbl : below st n = below st0 n).
        { unfold below. rewrite (k_cell _ _ _ _ _ K), (k_tabs _ _ _ _ _ K). reflexivity. }
        destruct (IH st0 (set_rc st n 2%N) rt (n :: M) (below st n ++ w) hb)
          as (st' & M' & e & K' & hs).
        -- destruct K as [k1 k2 k3 k4 k5 k6 k7 k8 k9 k10].
           assert (hnM : ~ In n M) by (rewrite k6; intros q; apply q; exact e0).
           split; auto.
           ++ constructor; auto.
           ++ intros m. cbn [rc set_rc]. destruct (Nat.eq_dec m n) as [->|q].
              ** rewrite upd_same. split; [discriminate|]. left. reflexivity.
              ** rewrite upd_other by exact q. rewrite <- k6. cbn. intuition. congruence.
           ++ intros m. cbn [rc set_rc].
              pose proof (pointers_cons st0 n M rt m) as hp. rewrite pend_app, hbl.
              specialize (k7 m). cbn [pend] in k7.
              destruct (Nat.eq_dec m n) as [->|q].
              ** rewrite upd_same. rewrite Nat.eqb_refl, e0 in k7.
                 right. right. split; auto.
                 destruct k7 as [z|[[_ z]|[z _]]]; try discriminate. lia.
              ** rewrite upd_other by exact q.
                 apply not_eq_sym, Nat.eqb_neq in q. rewrite q in k7. intuition lia.
           ++ intros m [<-|hm']; auto.
           ++ intros j hj. apply in_app_or in hj. destruct hj as [hj|hj].
              ** rewrite hbl in hj. eapply below_reach; eauto.
              ** apply k9. right. exact hj.
           ++ apply ordered_app; [apply ordered_below|]. exact k10.
        -- unfold measure in *. rewrite app_length. cbn [length] in hm. cbn [top set_rc].
           set (G := fun m => if N.eqb (rc st m) 0 then length (below st m) else 0) in *.
           set (F := fun m => if N.eqb (rc (set_rc st n 2%N) m) 0
                              then length (below (set_rc st n 2%N) m) else 0).
           assert (hc : list_sum (map F (seq 0 (top st))) + G n
                        = list_sum (map G (seq 0 (top st))) + F n).
           { apply sum_change.
             - intros m q. unfold F, G. cbn [rc set_rc]. rewrite upd_other by exact q.
               reflexivity.
             - apply seq_NoDup.
             - apply in_seq. rewrite (k_top _ _ _ _ _ K). specialize (hb n hr). lia. }
           unfold F at 2 in hc. cbn [rc set_rc] in hc. rewrite upd_same in hc.
           unfold G at 1 in hc. rewrite e0 in hc. cbn in hc. lia.
        -- exists st', M'. split; [exact e|]. split; [exact K'|].
           intros m hq. apply hs. cbn [rc set_rc]. destruct hq as [q|[q|q]].
           ++ left. rewrite upd_other; auto. intros ->. congruence.
           ++ discriminate.
           ++ right. apply in_or_app. right. exact q.
      * apply N.eqb_neq in e0. destruct (sat n (or_introl eq_refl) e0) as [K1 m1].
        destruct (IH _ _ _ _ _ hb K1 m1) as (st' & M' & e & K' & hs).
        exists st', M'. split; [exact e|]. split; [exact K'|].
        intros m hq. apply hs. cbn [rc set_rc]. destruct hq as [q|[q|q]].
        -- left. destruct (Nat.eq_dec m n) as [->|z]; [rewrite upd_same; reflexivity|].
           rewrite upd_other; auto.
        -- discriminate.
        -- right. exact q.
    + assert (hn : rc st n <> 0%N).
      { apply (k_in _ _ _ _ _ K). pose proof (k_ord _ _ _ _ _ K) as o. apply o. }
      destruct (sat n (or_intror eq_refl) hn) as [K1 m1].
      destruct (IH _ _ _ _ _ hb K1 m1) as (st' & M' & e & K' & hs).
      exists st', M'. split; [exact e|]. split; [exact K'|].
      intros m hq. apply hs. cbn [rc set_rc].
      destruct (Nat.eq_dec m n) as [->|z]; [left; rewrite upd_same; reflexivity|].
      destruct hq as [q|[q|q]].
      * left. rewrite upd_other; auto.
      * injection q as ->. contradiction.
      * right. exact q.
Qed.

(** ** Sweeping *)

Lemma sweep_fold l : forall st, NoDup l ->
  (forall n, rc st n = 0%N \/ rc st n = 2%N \/ rc st n = 3%N) ->
  let st' := fold_left sweep1 l st in
  top st' = top st /\ tabs st' = tabs st /\ gcs st' = gcs st /\
  (forall n, ~ In n l -> cell st' n = cell st n /\ rc st' n = rc st n) /\
  (forall n, In n l -> rc st n = 0%N -> cell st' n = Dead /\ rc st' n = 0%N) /\
  (forall n, In n l -> rc st n = 2%N -> cell st' n = cell st n /\ rc st' n = 0%N) /\
  (forall n, In n l -> rc st n = 3%N -> cell st' n = cell st n /\ rc st' n = 3%N) /\
  (forall n, In n (free st') <-> In n (free st) \/ (In n l /\ rc st n = 0%N)) /\
  ((forall n, In n l -> ~ In n (free st)) -> NoDup (free st) -> NoDup (free st')).
Proof.
  induction l as [|a l IH]; intros st hd hr; cbn [fold_left].
  - cbn. repeat split; auto; try tauto.
  - inversion hd as [|? ? h1 h2]; subst.
    assert (hs : top (sweep1 st a) = top st /\ tabs (sweep1 st a) = tabs st /\
                 gcs (sweep1 st a) = gcs st /\
                 (forall n, n <> a -> cell (sweep1 st a) n = cell st n /\
                                      rc (sweep1 st a) n = rc st n) /\
                 (rc st a = 0%N -> cell (sweep1 st a) a = Dead /\ rc (sweep1 st a) a = 0%N
                    /\ free (sweep1 st a) = a :: free st) /\
                 (rc st a = 2%N -> cell (sweep1 st a) a = cell st a /\ rc (sweep1 st a) a = 0%N
                    /\ free (sweep1 st a) = free st) /\
                 (rc st a = 3%N -> cell (sweep1 st a) a = cell st a /\ rc (sweep1 st a) a = 3%N
                    /\ free (sweep1 st a) = free st)).
    { unfold sweep1. destruct (hr a) as [e|[e|e]]; rewrite e; cbn.
      - repeat split; auto; try discriminate;
          try (apply upd_other; assumption); apply upd_same.
      - rewrite upd_same. repeat split; auto; try discriminate.
        apply upd_other; auto.
      - repeat split; auto; try discriminate. }
    destruct hs as (s1 & s2 & s3 & s4 & s5 & s6 & s7).
    assert (hr' : forall n, rc (sweep1 st a) n = 0%N \/ rc (sweep1 st a) n = 2%N \/
                            rc (sweep1 st a) n = 3%N).
    { intros n. destruct (Nat.eq_dec n a) as [->|q].
      - destruct (hr a) as [e|[e|e]].
        + left. apply s5; auto. + left. apply s6; auto. + right. right. apply s7; auto.
      - rewrite (proj2 (s4 n q)). apply hr. }
    specialize (IH (sweep1 st a) h2 hr'). cbn zeta in IH.
    destruct IH as (i1 & i2 & i3 & i4 & i5 & i6 & i7 & i8 & i9).
    cbn zeta. split; [congruence|]. split; [congruence|]. split; [congruence|].
    split; [|split; [|split; [|split; [|split]]]].
    + intros n hn. destruct (i4 n) as [q1 q2]; [intros q; apply hn; right; exact q|].
      rewrite q1, q2. apply s4. intros ->. apply hn. left. reflexivity.
    + intros n hn e. destruct (Nat.eq_dec n a) as [->|q].
      * destruct (i4 a h1) as [q1 q2]. rewrite q1, q2. destruct (s5 e) as (x & y & _). auto.
      * destruct hn as [->|hn]; [contradiction|]. apply i5; auto.
        rewrite (proj2 (s4 n q)). exact e.
    + intros n hn e. destruct (Nat.eq_dec n a) as [->|q].
      * destruct (i4 a h1) as [q1 q2]. rewrite q1, q2. destruct (s6 e) as (x & y & _). auto.
      * destruct hn as [->|hn]; [contradiction|]. destruct (s4 n q) as [z1 z2].
        rewrite <- z1. apply i6; auto. rewrite z2. exact e.
    + intros n hn e. destruct (Nat.eq_dec n a) as [->|q].
      * destruct (i4 a h1) as [q1 q2]. rewrite q1, q2. destruct (s7 e) as (x & y & _). auto.
      * destruct hn as [->|hn]; [contradiction|]. destruct (s4 n q) as [z1 z2].
        rewrite <- z1. apply i7; auto. rewrite z2. exact e.
    + intros n. rewrite i8.
      destruct (Nat.eq_dec n a) as [->|q].
      * destruct (hr a) as [e|[e|e]].
        -- destruct (s5 e) as (_ & _ & ->). cbn. intuition.
        -- destruct (s6 e) as (_ & _ & ->). cbn. rewrite e. intuition discriminate.
        -- destruct (s7 e) as (_ & _ & ->). cbn. rewrite e. intuition discriminate.
      * rewrite (proj2 (s4 n q)).
        assert (ef : In n (free (sweep1 st a)) <-> In n (free st)).
        { destruct (hr a) as [e|[e|e]].
          - destruct (s5 e) as (_ & _ & ->). cbn. intuition. congruence.
          - destruct (s6 e) as (_ & _ & ->). tauto.
          - destruct (s7 e) as (_ & _ & ->). tauto. }
        rewrite ef. cbn. intuition. congruence.
    + intros hf hn. apply i9.
      * intros n hl. destruct (hr a) as [e|[e|e]].
        -- destruct (s5 e) as (_ & _ & ->). intros [<-|q]; [contradiction|].
           apply (hf n); auto. right. exact hl.
        -- destruct (s6 e) as (_ & _ & ->). apply hf. right. exact hl.
        -- destruct (s7 e) as (_ & _ & ->). apply hf. right. exact hl.
      * destruct (hr a) as [e|[e|e]].
        -- destruct (s5 e) as (_ & _ & ->). constructor; auto. apply hf. left. reflexivity.
        -- destruct (s6 e) as (_ & _ & ->). auto.
        -- destruct (s7 e) as (_ & _ & ->). auto.
Qed.

(** ** The whole collection *)

Definition rts (R : list (addr * bool)) : list addr := map fst R.

Lemma pend_roots R n : pend (root_items R) n = occ (rts R) n.
Proof.
  induction R as [|[a b] R IH]; auto. unfold root_items. cbn [flat_map].
  rewrite pend_app. change (flat_map _ R) with (root_items R). rewrite IH.
  change (rts ((a, b) :: R)) with (a :: rts R). rewrite occ_cons.
  destruct b; cbn [pend fst snd]; lia.
Qed.

Lemma roots_in R i : In i (root_items R) -> In (what i) (rts R).
Proof.
  unfold root_items, rts. rewrite in_flat_map. intros ([a b] & h & hi).
  apply in_map_iff. exists (a, b). split; auto.
  destruct b; cbn in hi; [destruct hi as [<-|[<-|[]]]|destruct hi as [<-|[]]]; auto.
Qed.

Lemma roots_ordered R M : ordered M (root_items R).
Proof.
  revert M. induction R as [|[a b] R IH]; intros M; [exact I|].
  unfold root_items. cbn [flat_map]. change (flat_map _ R) with (root_items R).
  destruct b; cbn; auto.
Qed.

Record closed (st : store) (rt : list addr) : Prop := {
  cl_lt : forall n, reach st rt n -> n < top st;
  cl_node : forall n, reach st rt n -> cell st n <> Dead;
  cl_tab : forall n b k, reach st rt n -> cell st n = Tab b k -> k < length (tabs st)
}.

Lemma inv_closed st L lb rt db : inv st L lb rt db -> closed st rt.
Proof.
  intros H. split.
  - intros n h. eapply inv_lt; eauto. eapply inv_reach; eauto.
  - intros n h. eapply i_node; eauto. eapply inv_reach; eauto.
  - intros n b k h. eapply i_tab; eauto. eapply inv_reach; eauto.
Qed.

Lemma collect_ok st R :
  closed st (rts R) ->
  exists st' L, collect R st = Some st' /\ inv st' L [] (rts R) [] /\
    (forall n, In n L <-> reach st (rts R) n) /\
    (forall n, In n L -> cell st' n = cell st n) /\
    tabs st' = tabs st /\ gcs st' = gcs st /\ top st' = top st /\
    (forall n, In (n, true) R -> rc st' n = 3%N).
Proof.
  intros [hlt hnode htab].
  assert (K0 : marked st (clear_rc st) (rts R) [] (root_items R)).
  { split; auto; try (intros n []).
    - constructor.
    - intros n. cbn. intuition.
    - intros n. right. left. split; auto. rewrite pend_roots. unfold pointers. cbn [flat_map].
      rewrite occ_nil.
      assert (t : tab_refs st [] = []).
      { unfold tab_refs. cbn [names existsb]. induction (seq 0 (length (tabs st))); auto. }
      rewrite t, occ_nil. lia.
    - intros i h. apply reach_root. apply roots_in. exact h.
    - apply roots_ordered. }
  assert (hm : measure (clear_rc st) (root_items R) <= work st (root_items R)).
  { unfold measure, work. apply Nat.eq_le_incl. f_equal. }
  destruct (mark_ok _ _ _ _ _ _ hlt K0 hm) as (st1 & M & e1 & K & hs).
  unfold collect. rewrite e1. exists (sweep st1), M. split; auto.
  destruct K as [k1 k2 k3 k4 k5 k6 k7 k8 k9 k10].
  assert (hr : forall n, rc (set_free st1 []) n = 0%N \/ rc (set_free st1 []) n = 2%N \/
                         rc (set_free st1 []) n = 3%N).
  { intros n. cbn. destruct (k7 n) as [e|[[e _]|[e _]]]; auto. }
  pose proof (sweep_fold (seq 0 (top st1)) (set_free st1 []) (seq_NoDup _ _) hr) as s.
  cbn zeta in s. change (fold_left sweep1 (seq 0 (top st1)) (set_free st1 [])) with (sweep st1) in s.
  cbn [top tabs gcs cell rc free set_free] in s.
  destruct s as (s1 & s2 & s3 & s4 & s5 & s6 & s7 & s8 & s9).
  assert (hMlt : forall n, In n M -> In n (seq 0 (top st1))).
  { intros n h. apply in_seq. rewrite k3. specialize (hlt n (k8 n h)). lia. }
  assert (hcell : forall n, In n M -> cell (sweep st1) n = cell st n).
  { intros n h. rewrite <- k1. pose proof (proj1 (k6 n) h) as h0.
    destruct (k7 n) as [e|[[e _]|[e _]]].
    - apply s7; auto.
    - contradiction.
    - apply s6; auto. }
  assert (hp : forall n, pointers (sweep st1) M (rts R) n = pointers st M (rts R) n).
  { intros n. unfold pointers. rewrite (flat_ext _ _ _ hcell).
    assert (t : occ (tab_refs (sweep st1) M) n = occ (tab_refs st M) n).
    { apply tab_eq; [congruence|]. intros k _.
      destruct (names st M k) eqn:e.
      - apply names_true in e. destruct e as (x & b & hx & ex).
        apply names_true. exists x, b. rewrite hcell; auto.
      - destruct (names (sweep st1) M k) eqn:e'; auto. apply names_true in e'.
        destruct e' as (x & b & hx & ex). rewrite hcell in ex by auto.
        assert (q : names st M k = true) by (apply names_true; eauto). congruence. }
    lia. }
  assert (hlive : forall n, 0 < pointers st M (rts R) n -> In n M).
  { intros n h. apply k6. intros e. destruct (k7 n) as [q|[[_ q]|[q _]]]; [congruence| |congruence].
    cbn in q. lia. }
  assert (hreach : forall n, In n M <-> reach st (rts R) n).
  { intros n. split; [apply k8|]. induction 1.
    - apply hlive. unfold pointers. apply occ_in in H. lia.
    - apply hlive. unfold pointers.
      assert (h' : In n (flat_map (fun m => kids (cell st m)) M)) by (apply in_flat_map; eauto).
      apply occ_in in h'. lia.
    - apply hlive. unfold pointers.
      assert (h' : In n (tab_refs st M)).
      { eapply tab_in; eauto. apply names_true. eauto. }
      apply occ_in in h'. lia. }
  split; [split|].
  - cbn [app]. rewrite s1. apply NoDup_Permutation.
    + assert (hN : NoDup (free (sweep st1))) by (apply s9; [auto|constructor]).
      clear - k5 hN s8 k6. induction M as [|a M IH]; auto.
      assert (hg : forall M, NoDup M -> (forall n, In n M -> ~ In n (free (sweep st1))) ->
                   NoDup (M ++ free (sweep st1))).
      { induction M0 as [|b M0 IH0]; intros h1 h2; auto. cbn.
        inversion h1; subst. constructor.
        - intros q. apply in_app_or in q. destruct q as [q|q]; [contradiction|].
          apply (h2 b); auto. left. reflexivity.
        - apply IH0; auto. intros n hn. apply h2. right. exact hn. }
      apply hg; auto. intros n hn q. apply s8 in q. destruct q as [[]|[_ q]].
      apply k6 in hn. contradiction.
    + apply seq_NoDup.
    + intros n. rewrite in_app_iff, s8. split.
      * intros [h|[[]|[h _]]]; auto.
      * intros h. destruct (N.eq_dec (rc st1 n) 0) as [e|e].
        -- right. right. auto.
        -- left. apply k6. exact e.
  - intros n h. rewrite hp in h. auto.
  - intros n h. rewrite hp, occ_nil. pose proof (proj1 (k6 n) h) as h0.
    destruct (k7 n) as [e|[[e _]|[e q]]].
    + left. apply s7; auto.
    + contradiction.
    + right. left. split; [apply s6; auto|]. cbn in q. lia.
  - intros n h. rewrite hcell by auto. apply hnode. apply hreach. exact h.
  - intros n b k h. rewrite hcell by auto. rewrite s2, k2. intros e.
    apply (htab n b k); auto.
  - split; [exact hreach|]. split; [exact hcell|]. split; [congruence|].
    split; [congruence|]. split; [congruence|].
    intros n h.
    assert (h3 : rc st1 n = 3%N).
    { apply hs. right. unfold root_items. apply in_flat_map. exists (n, true).
      split; auto. cbn. auto. }
    apply s7; auto. apply hMlt. apply k6. rewrite h3. discriminate.
Qed.
