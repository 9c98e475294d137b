(** * The invariant of the store, and what the basic operations do to it *)

From Coq Require Import List Bool Arith NArith ZArith Lia Permutation.
Import ListNotations.
From Verif Require Import RcModel RcSpec.

(** While [dec] works, the nodes [lb] have lost their last reference but are
    not on the free list yet.  The pointers [db] have been stored but not
    counted yet. *)
Record inv (st : store) (L lb rt db : list addr) : Prop := {
  i_part : Permutation (L ++ lb ++ free st) (seq 0 (top st));
  i_live : forall n, 0 < pointers st L rt n -> In n L;
  i_cov : forall n, In n L ->
    rc st n = 3%N \/
    (rc st n = 0%N /\ pointers st L rt n <= 1 + occ db n) \/
    (rc st n = 1%N /\ pointers st L rt n <= 2 + occ db n);
  i_node : forall n, In n L -> cell st n <> Dead;
  i_tab : forall n b k, In n L -> cell st n = Tab b k -> k < length (tabs st)
}.

(** ** Counting *)

Lemma occ_app l1 l2 n : occ (l1 ++ l2) n = occ l1 n + occ l2 n.
Proof. apply count_occ_app. Qed.

Lemma occ_cons a l n : occ (a :: l) n = (if a =? n then 1 else 0) + occ l n.
Proof.
  unfold occ. cbn [count_occ].
  destruct (Nat.eq_dec a n) as [->|h].
  - rewrite Nat.eqb_refl. reflexivity.
  - apply Nat.eqb_neq in h. rewrite h. reflexivity.
Qed.

Lemma occ_nil n : occ [] n = 0.
Proof. reflexivity. Qed.

Lemma occ_in l n : 0 < occ l n <-> In n l.
Proof. unfold occ. symmetry. apply count_occ_In. Qed.

Lemma occ_perm l1 l2 n : Permutation l1 l2 -> occ l1 n = occ l2 n.
Proof. intros h. apply (Permutation_count_occ Nat.eq_dec); exact h. Qed.

Lemma occ_not_in l n : ~ In n l -> occ l n = 0.
Proof. intros h. pose proof (occ_in l n). destruct (occ l n); auto. exfalso. apply h, H. lia. Qed.

Lemma upd_same {T} (f : addr -> T) n v : upd f n v n = v.
Proof. unfold upd. rewrite Nat.eqb_refl. reflexivity. Qed.

Lemma upd_other {T} (f : addr -> T) n v m : m <> n -> upd f n v m = f m.
Proof. intros h. unfold upd. apply Nat.eqb_neq in h. rewrite h. reflexivity. Qed.

Lemma flat_upd (F : addr -> node) L m c n :
  NoDup L -> In m L ->
  occ (flat_map (fun x => kids (upd F m c x)) L) n + occ (kids (F m)) n
  = occ (flat_map (fun x => kids (F x)) L) n + occ (kids c) n.
Proof.
  induction L as [|x L IH]; intros hn hi; [destruct hi|].
  inversion hn as [|? ? h1 h2]; subst. cbn [flat_map]. rewrite !occ_app.
  destruct (Nat.eq_dec x m) as [->|hx].
  - rewrite upd_same.
    assert (e : flat_map (fun x => kids (upd F m c x)) L
                = flat_map (fun x => kids (F x)) L).
    { clear IH hi h2 hn. induction L as [|y L IH]; auto. cbn [flat_map].
      rewrite upd_other by (intros ->; apply h1; left; reflexivity).
      rewrite IH by (intros h; apply h1; right; exact h). reflexivity. }
    rewrite e. lia.
  - rewrite upd_other by exact hx. destruct hi as [e|hi]; [contradiction|].
    specialize (IH h2 hi). lia.
Qed.

Lemma flat_ext (F G : addr -> node) L :
  (forall x, In x L -> F x = G x) ->
  flat_map (fun x => kids (F x)) L = flat_map (fun x => kids (G x)) L.
Proof.
  induction L as [|x L IH]; intros h; auto. cbn [flat_map].
  rewrite (h x (or_introl eq_refl)), IH; auto. intros y hy. apply h. right. exact hy.
Qed.

Lemma names_true st L k :
  names st L k = true <-> exists m b, In m L /\ cell st m = Tab b k.
Proof.
  unfold names. rewrite existsb_exists. split.
  - intros (m & hm & h). destruct (cell st m) as [| | | | | | | | |b k'|] eqn:e; try discriminate.
    apply Nat.eqb_eq in h. subst. eauto.
  - intros (m & b & hm & h). exists m. split; [exact hm|]. rewrite h. apply Nat.eqb_refl.
Qed.

Lemma tab_le st st' L L' n :
  tabs st' = tabs st ->
  (forall k, k < length (tabs st) -> names st' L' k = true -> names st L k = true) ->
  occ (tab_refs st' L') n <= occ (tab_refs st L) n.
Proof.
  intros e h. unfold tab_refs. rewrite e.
  assert (hk : forall k, In k (seq 0 (length (tabs st))) ->
               names st' L' k = true -> names st L k = true).
  { intros k hk. apply in_seq in hk. apply h. lia. }
  clear h. induction (seq 0 (length (tabs st))) as [|k l IH]; auto.
  cbn [flat_map]. rewrite !occ_app.
  assert (IH' := IH (fun k hk' => hk k (or_intror hk'))).
  destruct (names st' L' k) eqn:e1.
  - rewrite (hk k (or_introl eq_refl) e1). lia.
  - rewrite occ_nil. lia.
Qed.

Lemma tab_eq st st' L L' n :
  tabs st' = tabs st ->
  (forall k, k < length (tabs st) -> names st' L' k = names st L k) ->
  occ (tab_refs st' L') n = occ (tab_refs st L) n.
Proof.
  intros e h. apply Nat.le_antisymm.
  - apply tab_le; auto. intros k hk h1. rewrite <- h; auto.
  - apply tab_le; [congruence|]. intros k hk h1. rewrite e in hk. rewrite h; auto.
Qed.

Lemma tab_in st L n k :
  k < length (tabs st) -> names st L k = true -> In n (nth k (tabs st) []) ->
  In n (tab_refs st L).
Proof.
  intros h1 h2 h3. unfold tab_refs. apply in_flat_map. exists k. split.
  - apply in_seq. lia.
  - rewrite h2. exact h3.
Qed.

(** ** Basic facts *)

Lemma nodup_split (l1 l2 : list addr) :
  NoDup (l1 ++ l2) -> NoDup l1 /\ forall n, In n l1 -> In n l2 -> False.
Proof.
  induction l1 as [|a l1 IH]; cbn; intros h.
  - split; [constructor|]. intros n [].
  - inversion h as [|? ? h1 h2]; subst. destruct (IH h2) as [i1 i2]. split.
    + constructor; auto. intros q. apply h1. apply in_or_app. auto.
    + intros n [<-|hi] q; eauto. apply h1. apply in_or_app. auto.
Qed.

Section Facts.
Variables (st : store) (L lb rt db : list addr).
Hypothesis H : inv st L lb rt db.

Lemma inv_nodup : NoDup (L ++ lb ++ free st).
Proof.
  eapply Permutation_NoDup; [apply Permutation_sym; apply (i_part _ _ _ _ _ H)|].
  apply seq_NoDup.
Qed.

Lemma inv_nodup_L : NoDup L.
Proof. pose proof inv_nodup as h. apply nodup_split in h. apply h. Qed.

Lemma inv_root n : In n rt -> In n L.
Proof.
  intros h. apply (i_live _ _ _ _ _ H). unfold pointers.
  apply occ_in in h. lia.
Qed.

Lemma inv_kid m n : In m L -> In n (kids (cell st m)) -> In n L.
Proof.
  intros hm h. apply (i_live _ _ _ _ _ H). unfold pointers.
  assert (h' : In n (flat_map (fun m => kids (cell st m)) L)).
  { apply in_flat_map. eauto. }
  apply occ_in in h'. lia.
Qed.

Lemma inv_tabc m b k n :
  In m L -> cell st m = Tab b k -> In n (nth k (tabs st) []) -> In n L.
Proof.
  intros hm e h. apply (i_live _ _ _ _ _ H). unfold pointers.
  assert (h' : In n (tab_refs st L)).
  { eapply tab_in; eauto.
    - eapply i_tab; eauto.
    - apply names_true. eauto. }
  apply occ_in in h'. lia.
Qed.

Lemma inv_reach n : reach st rt n -> In n L.
Proof.
  induction 1.
  - apply inv_root; auto.
  - eapply inv_kid; eauto.
  - eapply inv_tabc; eauto.
Qed.

Lemma inv_lt n : In n L -> n < top st.
Proof.
  intros h. assert (h1 : In n (seq 0 (top st))).
  { eapply Permutation_in; [apply (i_part _ _ _ _ _ H)|]. apply in_or_app. auto. }
  apply in_seq in h1. lia.
Qed.

Lemma inv_not_free n : In n L -> ~ In n (free st).
Proof.
  intros h1 h2. pose proof inv_nodup as h.
  apply nodup_split in h. apply (proj2 h n); auto. apply in_or_app. auto.
Qed.

Lemma inv_not_lb n : In n L -> ~ In n lb.
Proof.
  intros h1 h2. pose proof inv_nodup as h.
  apply nodup_split in h. apply (proj2 h n); auto. apply in_or_app. auto.
Qed.

End Facts.

Lemma reach_mono st st' L rt n :
  (forall m, In m L -> cell st' m = cell st m) ->
  tabs st' = tabs st ->
  (forall n, reach st rt n -> In n L) ->
  reach st rt n -> reach st' rt n.
Proof.
  intros hc ht hL. induction 1.
  - apply reach_root; auto.
  - eapply reach_kid; eauto. rewrite hc; auto.
  - eapply reach_tab; eauto. rewrite hc; eauto. rewrite ht. exact H1.
Qed.

Lemma inv_sound st L rt : inv st L [] rt [] <-> sound st L rt.
Proof.
  split.
  - intros H. split.
    + split; [exact (inv_nodup _ _ _ _ _ H)|].
      intros n. pose proof (i_part _ _ _ _ _ H) as p. cbn in p. split; intros h.
      * apply (Permutation_in _ p) in h. apply in_seq in h. lia.
      * eapply Permutation_in; [apply Permutation_sym; exact p|]. apply in_seq. lia.
    + apply (i_live _ _ _ _ _ H).
    + intros n h. pose proof (i_cov _ _ _ _ _ H n h) as c. unfold covers.
      rewrite occ_nil in c. intuition lia.
    + apply (i_node _ _ _ _ _ H).
    + apply (i_tab _ _ _ _ _ H).
  - intros [[h1 h2] h3 h4 h5 h6]. split; auto.
    cbn. apply NoDup_Permutation; auto; [apply seq_NoDup|].
    intros n. rewrite h2, in_seq. lia.
Qed.

(** ** Bookkeeping on the roots and the debts *)

Lemma inv_perm st L lb rt rt' db db' :
  Permutation rt rt' -> Permutation db db' ->
  inv st L lb rt db -> inv st L lb rt' db'.
Proof.
  intros p1 p2 [h1 h2 h3 h4 h5].
  assert (e : forall n, pointers st L rt' n = pointers st L rt n).
  { intros n. unfold pointers. rewrite (occ_perm _ _ n p1). reflexivity. }
  split; auto.
  - intros n h. apply h2. rewrite <- e. exact h.
  - intros n h. rewrite e, <- (occ_perm _ _ n p2). apply h3; auto.
Qed.

Lemma inv_weaken st L lb a rt db : inv st L lb (a ++ rt) db -> inv st L lb rt db.
Proof.
  intros [h1 h2 h3 h4 h5].
  assert (e : forall n, pointers st L rt n <= pointers st L (a ++ rt) n).
  { intros n. unfold pointers. rewrite occ_app. lia. }
  split; auto.
  - intros n h. apply h2. specialize (e n). lia.
  - intros n h. specialize (e n). specialize (h3 n h). intuition lia.
Qed.

Lemma inv_cancel st L lb v rt db :
  inv st L lb (v ++ rt) (v ++ db) -> inv st L lb rt db.
Proof.
  intros [h1 h2 h3 h4 h5].
  assert (e : forall n, pointers st L (v ++ rt) n = pointers st L rt n + occ v n).
  { intros n. unfold pointers. rewrite occ_app. lia. }
  split; auto.
  - intros n h. apply h2. rewrite e. lia.
  - intros n h. specialize (h3 n h). rewrite e, occ_app in h3. intuition lia.
Qed.

Lemma inv_sat st L lb v rt db :
  rc st v = 3%N -> inv st L lb rt (v :: db) -> inv st L lb rt db.
Proof.
  intros hv [h1 h2 h3 h4 h5]. split; auto.
  intros n h. specialize (h3 n h). rewrite occ_cons in h3.
  destruct (v =? n) eqn:e; [apply Nat.eqb_eq in e; subst; auto|]. intuition lia.
Qed.

Lemma inv_sat_root st L lb v rt db :
  rc st v = 3%N -> In v L -> inv st L lb rt db -> inv st L lb (v :: rt) db.
Proof.
  intros hv hL [h1 h2 h3 h4 h5].
  assert (e : forall n, pointers st L (v :: rt) n
              = pointers st L rt n + (if v =? n then 1 else 0)).
  { intros n. unfold pointers. rewrite occ_cons. lia. }
  split; auto.
  - intros n h. rewrite e in h. destruct (v =? n) eqn:q.
    + apply Nat.eqb_eq in q. subst. exact hL.
    + apply h2. lia.
  - intros n h. specialize (h3 n h). rewrite e.
    destruct (v =? n) eqn:q; [apply Nat.eqb_eq in q; subst; auto|]. intuition lia.
Qed.

(** ** Counting up *)

Lemma pointers_rc st n v L rt m : pointers (set_rc st n v) L rt m = pointers st L rt m.
Proof. reflexivity. Qed.

Lemma inv_incr st L lb v rt db :
  inv st L lb rt (v :: db) -> inv (incr st v) L lb rt db.
Proof.
  intros [h1 h2 h3 h4 h5]. split; auto.
  intros n h. specialize (h3 n h). rewrite occ_cons in h3.
  change (rc (incr st v)) with (upd (rc st) v (inc_bits (rc st v))).
  change (pointers (incr st v) L rt n) with (pointers st L rt n).
  destruct (Nat.eq_dec n v) as [->|hn].
  - rewrite upd_same, Nat.eqb_refl in *.
    destruct h3 as [e|[[e q]|[e q]]]; rewrite e.
    + left. reflexivity.
    + right. right. split; [reflexivity|lia].
    + left. reflexivity.
  - rewrite upd_other by exact hn.
    apply not_eq_sym, Nat.eqb_neq in hn. rewrite hn in h3. intuition lia.
Qed.

Lemma inv_incr_leak st L lb v rt db :
  inv st L lb rt db -> inv (incr st v) L lb rt db.
Proof.
  intros [h1 h2 h3 h4 h5]. split; auto.
  intros n h. specialize (h3 n h).
  change (rc (incr st v)) with (upd (rc st) v (inc_bits (rc st v))).
  change (pointers (incr st v) L rt n) with (pointers st L rt n).
  destruct (Nat.eq_dec n v) as [->|hn].
  - rewrite upd_same.
    destruct h3 as [e|[[e q]|[e q]]]; rewrite e.
    + left. reflexivity.
    + right. right. split; [reflexivity|lia].
    + left. reflexivity.
  - rewrite upd_other by exact hn. intuition lia.
Qed.

Lemma inv_incr_all st L lb l rt db :
  inv st L lb rt (l ++ db) -> inv (incr_all st l) L lb rt db.
Proof.
  revert st. induction l as [|v l IH]; intros st H; auto.
  cbn [incr_all]. apply IH. apply inv_incr. exact H.
Qed.

Lemma incr_all_cell st l : cell (incr_all st l) = cell st.
Proof. revert st. induction l as [|v l IH]; intros st; auto. cbn [incr_all]. rewrite IH. reflexivity. Qed.
Lemma incr_all_tabs st l : tabs (incr_all st l) = tabs st.
Proof. revert st. induction l as [|v l IH]; intros st; auto. cbn [incr_all]. rewrite IH. reflexivity. Qed.
Lemma incr_all_top st l : top (incr_all st l) = top st.
Proof. revert st. induction l as [|v l IH]; intros st; auto. cbn [incr_all]. rewrite IH. reflexivity. Qed.
Lemma incr_all_gcs st l : gcs (incr_all st l) = gcs st.
Proof. revert st. induction l as [|v l IH]; intros st; auto. cbn [incr_all]. rewrite IH. reflexivity. Qed.

Lemma incr_all_sat st l v : rc st v = 3%N -> rc (incr_all st l) v = 3%N.
Proof.
  revert st. induction l as [|a l IH]; intros st h; auto. cbn [incr_all]. apply IH.
  unfold incr. cbn [rc set_rc]. unfold upd. destruct (v =? a) eqn:e; auto.
  apply Nat.eqb_eq in e. subst. rewrite h. reflexivity.
Qed.

(** ** Storing *)

Lemma inv_set st L lb rt db m c :
  inv st L lb rt db -> In m L -> c <> Dead ->
  (forall n, In n (kids c) -> In n L) ->
  (forall b k, c = Tab b k -> k < length (tabs st) /\ names st L k = true) ->
  inv (set_cell st m c) L lb (kids (cell st m) ++ rt) (kids c ++ db).
Proof.
  intros H hm hd hk ht. pose proof (inv_nodup_L _ _ _ _ _ H) as hn.
  destruct H as [h1 h2 h3 h4 h5].
  assert (e : forall n, pointers (set_cell st m c) L (kids (cell st m) ++ rt) n
              <= pointers st L rt n + occ (kids c) n).
  { intros n. unfold pointers. rewrite occ_app. cbn [cell set_cell].
    pose proof (flat_upd (cell st) L m c n hn hm) as q.
    assert (t : occ (tab_refs (set_cell st m c) L) n <= occ (tab_refs st L) n).
    { apply tab_le; auto. intros k hk' h. apply names_true in h.
      destruct h as (x & b & hx & ex). cbn [cell set_cell] in ex.
      destruct (Nat.eq_dec x m) as [->|hxm].
      - rewrite upd_same in ex. apply (ht b k ex).
      - rewrite upd_other in ex by exact hxm. apply names_true. eauto. }
    lia. }
  split; auto.
  - intros n h. specialize (e n). destruct (Nat.eq_dec (occ (kids c) n) 0) as [z|z].
    + apply h2. lia.
    + apply hk. apply occ_in. lia.
  - intros n h. specialize (e n). specialize (h3 n h). rewrite occ_app.
    cbn [rc set_cell]. intuition lia.
  - intros n h. cbn [cell set_cell]. destruct (Nat.eq_dec n m) as [->|hnm].
    + rewrite upd_same. exact hd.
    + rewrite upd_other by exact hnm. auto.
  - intros n b k h. cbn [cell set_cell tabs]. destruct (Nat.eq_dec n m) as [->|hnm].
    + rewrite upd_same. intros ->. apply (ht b k eq_refl).
    + rewrite upd_other by exact hnm. eauto.
Qed.

(** A new table becomes known when the first node that names it is stored. *)
Lemma inv_new_tab st L lb rt db m a b :
  inv st L lb rt db -> In m L -> In a L ->
  inv (set_cell (set_tabs st (tabs st ++ [[a]])) m (Tab b (length (tabs st)))) L lb
      (kids (cell st m) ++ rt) (a :: db).
Proof.
  intros H hm ha. pose proof (inv_nodup_L _ _ _ _ _ H) as hn.
  destruct H as [h1 h2 h3 h4 h5].
  set (st' := set_cell _ _ _).
  assert (e : forall n, pointers st' L (kids (cell st m) ++ rt) n
              <= pointers st L rt n + occ [a] n).
  { intros n. unfold pointers. rewrite occ_app.
    change (cell st') with (upd (cell st) m (Tab b (length (tabs st)))).
    pose proof (flat_upd (cell st) L m (Tab b (length (tabs st))) n hn hm) as q.
    cbn [kids] in q. rewrite (occ_nil n) in q.
    assert (t : occ (tab_refs st' L) n <= occ (tab_refs st L) n + occ [a] n).
    { unfold tab_refs at 1. unfold st'. cbn [tabs set_cell set_tabs].
      rewrite app_length. cbn [length]. rewrite Nat.add_1_r, seq_S.
      rewrite flat_map_app, occ_app. cbn [flat_map Nat.add]. rewrite app_nil_r.
      apply Nat.add_le_mono.
      - unfold tab_refs.
        assert (hs : forall k, In k (seq 0 (length (tabs st))) -> k < length (tabs st)).
        { intros k hk. apply in_seq in hk. lia. }
        induction (seq 0 (length (tabs st))) as [|k l IH]; auto.
        cbn [flat_map]. rewrite !occ_app.
        assert (IH' := IH (fun k hk => hs k (or_intror hk))).
        assert (hk := hs k (or_introl eq_refl)).
        rewrite app_nth1 by exact hk.
        match goal with |- occ (if ?c then _ else _) _ + _ <= _ => destruct c eqn:e1 end.
        + assert (e2 : names st L k = true).
          { apply names_true in e1. destruct e1 as (x & b' & hx & ex).
            cbn [cell set_cell set_tabs] in ex.
            destruct (Nat.eq_dec x m) as [->|hxm].
            - rewrite upd_same in ex. injection ex as _ ex. lia.
            - rewrite upd_other in ex by exact hxm. apply names_true. eauto. }
          rewrite e2. lia.
        + rewrite occ_nil. lia.
      - rewrite app_nth2 by lia. rewrite Nat.sub_diag. cbn [nth].
        match goal with |- occ (if ?c then _ else _) _ <= _ => destruct c end.
        + auto.
        + rewrite occ_nil. lia. }
    lia. }
  split; auto.
  - intros n h. specialize (e n). destruct (Nat.eq_dec (occ [a] n) 0) as [z|z].
    + apply h2. lia.
    + assert (hi : In n [a]) by (apply occ_in; lia). destruct hi as [<-|[]]. exact ha.
  - intros n h. specialize (e n). specialize (h3 n h). rewrite occ_cons.
    rewrite occ_cons, occ_nil in e. cbn [rc set_cell set_tabs st']. unfold st' in *.
    cbn [rc set_cell set_tabs] in *. intuition lia.
  - intros n h. unfold st'. cbn [cell set_cell set_tabs].
    destruct (Nat.eq_dec n m) as [->|hnm].
    + rewrite upd_same. discriminate.
    + rewrite upd_other by exact hnm. auto.
  - intros n b' k h. unfold st'. cbn [cell set_cell tabs set_tabs]. rewrite app_length. cbn [length].
    destruct (Nat.eq_dec n m) as [->|hnm].
    + rewrite upd_same. intros e'. injection e' as _ <-. lia.
    + rewrite upd_other by exact hnm. intros e'. specialize (h5 n b' k h e'). lia.
Qed.

Lemma put_length {T} i (v : T) l : i < length l -> length (put i v l) = length l.
Proof.
  intros h. unfold put. rewrite app_length. cbn [length].
  rewrite firstn_length, skipn_length. lia.
Qed.

Lemma put_same {T} i (v : T) l d : i < length l -> nth i (put i v l) d = v.
Proof.
  intros h. unfold put. rewrite app_nth2; rewrite firstn_length.
  - replace (i - Nat.min i (length l)) with 0 by lia. reflexivity.
  - lia.
Qed.

Lemma put_other {T} i (v : T) l d j : i < length l -> j <> i -> nth j (put i v l) d = nth j l d.
Proof.
  revert i j. induction l as [|a l IH]; intros [|i] [|j] h hj; cbn in h; try lia; auto.
  unfold put. cbn [firstn skipn app nth]. apply (IH i j); lia.
Qed.

Lemma put_id {T} i (v : T) l d : i < length l -> nth i l d = v -> put i v l = l.
Proof.
  revert i. induction l as [|a l IH]; intros [|i] h e; cbn in h, e; try lia.
  - subst. reflexivity.
  - unfold put. cbn [firstn skipn app]. f_equal. apply IH; auto. lia.
Qed.

Lemma put_end {T} (v : T) l : put (length l) v l = l ++ [v].
Proof. unfold put. rewrite firstn_all. rewrite skipn_all2 by lia. reflexivity. Qed.

Lemma inv_set_tab st L lb rt db k a :
  inv st L lb rt db -> In a L -> k < length (tabs st) ->
  inv (set_tabs st (put k [a] (tabs st))) L lb rt (a :: db).
Proof.
  intros H ha hk. destruct H as [h1 h2 h3 h4 h5].
  set (st' := set_tabs _ _).
  assert (e : forall n, pointers st' L rt n <= pointers st L rt n + occ [a] n).
  { intros n. unfold pointers.
    assert (t : occ (tab_refs st' L) n <= occ (tab_refs st L) n + occ [a] n).
    { unfold tab_refs. unfold st' at 2 3. cbn [tabs set_tabs].
      rewrite put_length by exact hk.
      assert (hs : NoDup (seq 0 (length (tabs st)))) by apply seq_NoDup.
      assert (hz : forall l, NoDup l -> 
        occ (flat_map (fun j => if names st' L j then nth j (put k [a] (tabs st)) [] else []) l) n
        <= occ (flat_map (fun j => if names st L j then nth j (tabs st) [] else []) l) n
           + (if in_dec Nat.eq_dec k l then occ [a] n else 0)).
      { induction l as [|j l IH]; intros hl; [cbn; lia|].
        inversion hl as [|? ? hj hl']; subst. specialize (IH hl').
        cbn [flat_map]. rewrite !occ_app.
        change (names st' L j) with (names st L j).
        destruct (Nat.eq_dec j k) as [->|hjk].
        - rewrite put_same by exact hk.
          destruct (in_dec Nat.eq_dec k (k :: l)) as [_|q]; [|destruct q; left; reflexivity].
          destruct (in_dec Nat.eq_dec k l) as [q|_]; [contradiction|].
          destruct (names st L k); [lia|rewrite occ_nil; lia].
        - rewrite put_other by auto.
          destruct (in_dec Nat.eq_dec k (j :: l)) as [q|q];
          destruct (in_dec Nat.eq_dec k l) as [q'|q'];
            destruct (names st L j); try lia. 
          + exfalso. apply q. right. exact q'.
          + exfalso. apply q. right. exact q'. }
      specialize (hz _ hs). destruct (in_dec Nat.eq_dec k _); lia. }
    change (cell st') with (cell st). lia. }
  split; auto.
  - intros n h. specialize (e n). destruct (Nat.eq_dec (occ [a] n) 0) as [z|z].
    + apply h2. lia.
    + assert (hi : In n [a]) by (apply occ_in; lia). destruct hi as [<-|[]]. exact ha.
  - intros n h. specialize (e n). specialize (h3 n h). rewrite occ_cons.
    rewrite occ_cons, occ_nil in e. change (rc st') with (rc st). intuition lia.
  - intros n b j h e'. unfold st'. cbn [tabs set_tabs]. rewrite put_length by exact hk. eauto.
Qed.

(** ** New nodes *)

Lemma inv_alloc st L lb rt db c n st' :
  inv st L lb rt db -> c <> Dead ->
  (forall x, In x (kids c) -> In x L) -> (forall b k, c <> Tab b k) ->
  alloc st c = (n, st') ->
  inv st' (n :: L) lb (n :: rt) (kids c ++ db) /\ ~ In n L /\
  cell st' = upd (cell st) n c /\ tabs st' = tabs st /\ gcs st' = gcs st /\
  (forall m, m <> n -> rc st' m = rc st m).
Proof.
  intros H hd hk ht he.
  assert (hn : ~ In n L /\ Permutation ((n :: L) ++ lb ++ free st') (seq 0 (top st')) /\
               cell st' = upd (cell st) n c /\ rc st' = upd (rc st) n 0%N /\
               tabs st' = tabs st /\ gcs st' = gcs st).
  { unfold alloc in he. pose proof (i_part _ _ _ _ _ H) as p.
    destruct (free st) as [|m l] eqn:ef; injection he as <- <-; cbn.
    - split; [|split; [|auto]].
      + intros h. pose proof (inv_lt _ _ _ _ _ H _ h). lia.
      + change (0 :: seq 1 (top st)) with (seq 0 (S (top st))).
        rewrite seq_S. cbn [Nat.add].
        apply Permutation_trans with ((L ++ lb ++ []) ++ [top st]);
          [apply Permutation_cons_append|]. apply Permutation_app; auto.
    - split; [|split; [|auto]].
      + intros h. apply (inv_not_free _ _ _ _ _ H _ h). rewrite ef. left. reflexivity.
      + eapply Permutation_trans; [|exact p]. rewrite !app_assoc.
        apply Permutation_middle. }
  destruct hn as (hn & hp & hc & hr & hta & hg).
  assert (h0 : pointers st L rt n = 0).
  { pose proof (i_live _ _ _ _ _ H n). destruct (pointers st L rt n); auto.
    exfalso. apply hn, H0. lia. }
  destruct H as [h1 h2 h3 h4 h5].
  assert (ef : flat_map (fun m => kids (cell st' m)) L = flat_map (fun m => kids (cell st m)) L).
  { rewrite hc. apply flat_ext. intros x hx. apply upd_other. intros ->. contradiction. }
  assert (ecn : cell st' n = c) by (rewrite hc; apply upd_same).
  assert (e : forall m, pointers st' (n :: L) (n :: rt) m
              = pointers st L rt m + (if n =? m then 1 else 0) + occ (kids c) m).
  { intros m. unfold pointers. cbn [flat_map]. rewrite occ_cons, occ_app, ef.
    rewrite ecn.
    assert (t : occ (tab_refs st' (n :: L)) m = occ (tab_refs st L) m).
    { apply tab_eq; auto. intros k hk'. unfold names. cbn [existsb].
      rewrite ecn.
      assert (ec : match c with Tab _ k' => k' =? k | _ => false end = false).
      { destruct c; auto. exfalso. eapply ht. reflexivity. }
      rewrite ec. cbn [orb].
      assert (hx : forall l, ~ In n l ->
        existsb (fun m => match cell st' m with Tab _ k' => k' =? k | _ => false end) l
        = existsb (fun m => match cell st m with Tab _ k' => k' =? k | _ => false end) l).
      { induction l as [|x l IH]; intros hl; auto. cbn [existsb]. rewrite IH.
        - rewrite hc, upd_other; auto. intros ->. apply hl. left. reflexivity.
        - intros q. apply hl. right. exact q. }
      apply hx. exact hn. }
    lia. }
  split; [split|].
  - exact hp.
  - intros m h. rewrite e in h. destruct (n =? m) eqn:q.
    + apply Nat.eqb_eq in q. subst. left. reflexivity.
    + right. destruct (Nat.eq_dec (occ (kids c) m) 0) as [z|z].
      * apply h2. lia.
      * apply hk. apply occ_in. lia.
  - intros m h. rewrite e, occ_app, hr.
    destruct (Nat.eq_dec m n) as [->|hm].
    + rewrite upd_same, Nat.eqb_refl. right. left. split; auto. lia.
    + rewrite upd_other by exact hm. destruct h as [->|h]; [contradiction|].
      specialize (h3 m h). apply not_eq_sym, Nat.eqb_neq in hm. rewrite hm. intuition lia.
  - intros m h. rewrite hc. destruct (Nat.eq_dec m n) as [->|hm].
    + rewrite upd_same. exact hd.
    + rewrite upd_other by exact hm. destruct h as [->|h]; [contradiction|]. auto.
  - intros m b k h. rewrite hc, hta. destruct (Nat.eq_dec m n) as [->|hm].
    + rewrite upd_same. intros ->. exfalso. eapply ht. reflexivity.
    + rewrite upd_other by exact hm. destruct h as [->|h]; [contradiction|]. eauto.
  - repeat split; auto. intros m hm. rewrite hr. apply upd_other. exact hm.
Qed.
