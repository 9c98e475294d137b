(** * Counting down *)

From Coq Require Import List Bool Arith NArith ZArith Lia Permutation.
Import ListNotations.
From Verif Require Import RcModel RcSpec RcInv.

(** What an operation that only gives nodes back may do. *)
Record shrink (st st' : store) (L L' lb : list addr) : Prop := {
  s_incl : incl L' L;
  s_cell : forall m, In m L' -> cell st' m = cell st m;
  s_lb : forall m, In m lb -> cell st' m = cell st m;
  s_tabs : tabs st' = tabs st;
  s_gcs : gcs st' = gcs st;
  s_top : top st' = top st;
  s_sat : forall m, In m L -> rc st m = 3%N -> In m L' /\ rc st' m = 3%N
}.

Lemma shrink_refl st L lb : shrink st st L L lb.
Proof. split; auto. apply incl_refl. Qed.

Lemma shrink_trans st1 st2 st3 L1 L2 L3 lb :
  shrink st1 st2 L1 L2 lb -> shrink st2 st3 L2 L3 lb -> shrink st1 st3 L1 L3 lb.
Proof.
  intros [a1 a2 a3 a4 a5 a6 a7] [b1 b2 b3 b4 b5 b6 b7]. split; try congruence.
  - eapply incl_tran; eauto.
  - intros m h. rewrite b2, a2; auto.
  - intros m h. rewrite b3, a3; auto.
  - intros m h e. destruct (a7 m h e) as [h' e']. apply b7; auto.
Qed.

Lemma shrink_lb st st' L L' a lb : shrink st st' L L' (a :: lb) -> shrink st st' L L' lb.
Proof. intros [a1 a2 a3 a4 a5 a6 a7]. split; auto. intros m h. apply a3. right. exact h. Qed.

Lemma in_split_perm (n : addr) L : In n L -> exists L0, Permutation L (n :: L0).
Proof.
  intros h. apply in_split in h. destruct h as (l1 & l2 & ->). exists (l1 ++ l2).
  apply Permutation_sym, Permutation_middle.
Qed.

Lemma names_perm st L L' k : Permutation L L' -> names st L k = names st L' k.
Proof.
  intros p. destruct (names st L k) eqn:e; symmetry.
  - apply names_true in e. destruct e as (m & b & h & e). apply names_true.
    exists m, b. split; auto. eapply Permutation_in; eauto.
  - destruct (names st L' k) eqn:e'; auto. apply names_true in e'.
    destruct e' as (m & b & h & e'). assert (q : names st L k = true); [|congruence].
    apply names_true. exists m, b. split; auto.
    eapply Permutation_in; [apply Permutation_sym|]; eauto.
Qed.

Lemma flat_perm (F : addr -> list addr) L L' n :
  Permutation L L' -> occ (flat_map F L) n = occ (flat_map F L') n.
Proof.
  intros p. apply occ_perm. clear n. induction p; cbn; auto.
  - apply Permutation_app_head; auto.
  - rewrite !app_assoc. apply Permutation_app_tail, Permutation_app_comm.
  - eapply Permutation_trans; eauto.
Qed.

(** The node whose last reference goes takes its own references along: they
    are now held by the caller. *)
Lemma inv_limbo st L lb n rt :
  inv st L lb (n :: rt) [] -> rc st n = 0%N ->
  exists L0, Permutation L (n :: L0) /\
             inv st L0 (n :: lb) (kids (cell st n) ++ rt) [].
Proof.
  intros H e.
  assert (hn : In n L) by (apply (inv_root _ _ _ _ _ H); left; reflexivity).
  destruct (in_split_perm n L hn) as (L0 & p). exists L0. split; auto.
  pose proof (inv_nodup_L _ _ _ _ _ H) as hd.
  assert (hd0 : NoDup (n :: L0)) by (eapply Permutation_NoDup; eauto).
  destruct H as [h1 h2 h3 h4 h5].
  assert (hp : forall m, pointers st L0 (kids (cell st n) ++ rt) m
                         + (if n =? m then 1 else 0) <= pointers st L (n :: rt) m).
  { intros m. unfold pointers. rewrite occ_app, occ_cons.
    rewrite (flat_perm _ _ _ m p). cbn [flat_map]. rewrite occ_app.
    assert (t : occ (tab_refs st L0) m <= occ (tab_refs st L) m).
    { apply tab_le; auto. intros k _ hk. apply names_true in hk.
      destruct hk as (x & b & hx & ex). apply names_true. exists x, b. split; auto.
      eapply Permutation_in; [apply Permutation_sym; exact p|]. right. exact hx. }
    lia. }
  assert (hz : pointers st L0 (kids (cell st n) ++ rt) n = 0).
  { specialize (hp n). rewrite Nat.eqb_refl in hp.
    pose proof (h3 n hn) as q. rewrite e, occ_nil in q.
    destruct q as [q|[[_ q]|[q _]]]; try discriminate. lia. }
  assert (hin : forall m, In m L0 -> In m L).
  { intros m hm. eapply Permutation_in; [apply Permutation_sym; exact p|]. right. exact hm. }
  split.
  - eapply Permutation_trans; [|exact h1].
    apply Permutation_trans with ((n :: L0) ++ lb ++ free st).
    + cbn. apply Permutation_sym, Permutation_middle.
    + apply Permutation_app_tail, Permutation_sym; exact p.
  - intros m hm. destruct (Nat.eq_dec m n) as [->|hmn]; [lia|].
    assert (q : In m L). { apply h2. specialize (hp m). lia. }
    apply (Permutation_in _ p) in q. destruct q as [<-|q]; auto. contradiction.
  - intros m hm. specialize (hp m). specialize (h3 m (hin m hm)).
    rewrite occ_nil in *. intuition lia.
  - auto.
  - eauto.
Qed.

Lemma inv_free st L n lb rt db :
  inv st L (n :: lb) rt db -> inv (free_nd st n) L lb rt db.
Proof.
  intros H.
  assert (hn : ~ In n L).
  { intros h. apply (inv_not_lb _ _ _ _ _ H _ h). left. reflexivity. }
  destruct H as [h1 h2 h3 h4 h5].
  assert (hc : forall m, In m L -> cell (free_nd st n) m = cell st m).
  { intros m h. cbn. apply upd_other. intros ->. contradiction. }
  assert (hp : forall m, pointers (free_nd st n) L rt m = pointers st L rt m).
  { intros m. unfold pointers. rewrite (flat_ext _ _ _ hc).
    assert (t : occ (tab_refs (free_nd st n) L) m = occ (tab_refs st L) m).
    { apply tab_eq; auto. intros k _.
      destruct (names st L k) eqn:e.
      - apply names_true in e. destruct e as (x & b & hx & ex).
        apply names_true. exists x, b. rewrite hc; auto.
      - destruct (names (free_nd st n) L k) eqn:e'; auto. apply names_true in e'.
        destruct e' as (x & b & hx & ex). rewrite hc in ex by auto.
        assert (q : names st L k = true) by (apply names_true; eauto). congruence. }
    lia. }
  split.
  - cbn [free free_nd set_free set_cell top]. eapply Permutation_trans; [|exact h1].
    apply Permutation_app_head. cbn. apply Permutation_sym, Permutation_middle.
  - intros m h. apply h2. rewrite <- hp. exact h.
  - intros m h. rewrite hp. cbn [rc free_nd set_free set_cell]. auto.
  - intros m h. rewrite hc; auto.
  - intros m b k h. rewrite hc by auto. cbn. eauto.
Qed.

Lemma shrink_free st L n lb :
  ~ In n L -> ~ In n lb -> shrink st (free_nd st n) L L lb.
Proof.
  intros h1 h2. split; cbn; auto.
  - apply incl_refl.
  - intros m h. apply upd_other. intros ->. contradiction.
  - intros m h. apply upd_other. intros ->. contradiction.
Qed.

Lemma dec_ok f : forall st L lb n rt,
  inv st L lb (n :: rt) [] -> length L < f ->
  exists st' L', dec f st n = Some st' /\ inv st' L' lb rt [] /\ shrink st st' L L' lb.
Proof.
  induction f as [|f IH]; intros st L lb n rt H hf; [lia|].
  assert (hn : In n L) by (apply (inv_root _ _ _ _ _ H); left; reflexivity).
  cbn [dec]. pose proof (i_cov _ _ _ _ _ H n hn) as hc.
  destruct hc as [e|[[e q]|[e q]]]; rewrite e.
  - exists st, L. split; auto. split.
    + apply (inv_weaken _ _ _ [n]). exact H.
    + apply shrink_refl.
  - (* the last reference *)
    destruct (inv_limbo _ _ _ _ _ H e) as (L0 & p & H0).
    assert (hl : length L = S (length L0)) by (rewrite (Permutation_length p); reflexivity).
    assert (hin : incl L0 L).
    { intros m hm. eapply Permutation_in; [apply Permutation_sym; exact p|]. right. exact hm. }
    assert (hnl : ~ In n lb) by (apply (inv_not_lb _ _ _ _ _ H); auto).
    assert (s0 : shrink st st L L0 lb).
    { split; auto. intros m hm em. split; auto.
      apply (Permutation_in _ p) in hm. destruct hm as [<-|hm]; auto. congruence. }
    assert (leaf : kids (cell st n) = [] -> exists st' L',
               Some (free_nd st n) = Some st' /\ inv st' L' lb rt [] /\
               shrink st st' L L' lb).
    { intros ek. rewrite ek in H0. exists (free_nd st n), L0. split; auto. split.
      - apply inv_free. exact H0.
      - eapply shrink_trans; [exact s0|]. apply shrink_free; auto.
        intros h. apply (inv_not_lb _ _ _ _ _ H0 _ h). left. reflexivity. }
    assert (two : forall a b, kids (cell st n) = [a; b] ->
               exists st1 st2 L2, dec f st a = Some st1 /\ cell st1 n = cell st n /\
                 dec f st1 b = Some st2 /\ inv (free_nd st2 n) L2 lb rt [] /\
                 shrink st (free_nd st2 n) L L2 lb).
    { intros a b ek. rewrite ek in H0. cbn [app] in H0.
      destruct (IH _ _ _ _ _ H0) as (st1 & L1 & e1 & H1 & s1); [lia|].
      assert (l1 : length L1 <= length L0).
      { apply NoDup_incl_length; [apply (inv_nodup_L _ _ _ _ _ H1)|apply s1]. }
      destruct (IH _ _ _ _ _ H1) as (st2 & L2 & e2 & H2 & s2); [lia|].
      exists st1, st2, L2. split; [exact e1|]. split; [|split; [exact e2|split]].
      - apply (s_lb _ _ _ _ _ s1). left. reflexivity.
      - apply inv_free. exact H2.
      - eapply shrink_trans; [exact s0|].
        eapply shrink_trans; [eapply shrink_lb; exact s1|].
        eapply shrink_trans; [eapply shrink_lb; exact s2|].
        apply shrink_free; auto.
        intros h. apply (inv_not_lb _ _ _ _ _ H2 _ h). left. reflexivity. }
    destruct (cell st n) as [l r|h t| | | | | | | | |] eqn:ec; try (apply leaf; reflexivity).
    + destruct (two l r eq_refl) as (st1 & st2 & L2 & e1 & e2 & e3 & hi & hs).
      rewrite e1, e2, e3. eauto.
    + destruct (two h t eq_refl) as (st1 & st2 & L2 & e1 & e2 & e3 & hi & hs).
      rewrite e1, e2, e3. eauto.
    + exfalso. apply (i_node _ _ _ _ _ H n hn). exact ec.
  - (* two references *)
    exists (set_rc st n 0%N), L. split; auto. split.
    + assert (hp : forall m, pointers st L (n :: rt) m
                = pointers st L rt m + (if n =? m then 1 else 0)).
      { intros m. unfold pointers. rewrite occ_cons. lia. }
      destruct H as [h1 h2 h3 h4 h5]. split; auto.
      * intros m h. apply h2. rewrite hp. change (pointers (set_rc st n 0%N) L rt m)
          with (pointers st L rt m) in h. lia.
      * intros m h. change (pointers (set_rc st n 0%N) L rt m) with (pointers st L rt m).
        cbn [rc set_rc]. specialize (h3 m h). rewrite hp in h3. rewrite occ_nil in *.
        destruct (Nat.eq_dec m n) as [->|hm].
        -- rewrite upd_same. rewrite Nat.eqb_refl, e in h3. right. left.
           split; auto. destruct h3 as [q'|[[q' _]|[_ q']]]; try discriminate. lia.
        -- rewrite upd_other by exact hm. intuition lia.
    + split; cbn; auto.
      * apply incl_refl.
      * intros m h em. split; auto. rewrite upd_other; auto. intros ->. congruence.
Qed.

(** Everything that can still be got at is untouched. *)
Lemma shrink_reach st st' L L' lb rt n :
  inv st' L' lb rt [] -> shrink st st' L L' lb -> (reach st rt n <-> reach st' rt n).
Proof.
  intros H s. split.
  - induction 1.
    + apply reach_root; auto.
    + eapply reach_kid; [exact IHreach|].
      rewrite (s_cell _ _ _ _ _ s); auto. apply (inv_reach _ _ _ _ _ H). auto.
    + eapply reach_tab; [exact IHreach| |].
      * rewrite (s_cell _ _ _ _ _ s); eauto. apply (inv_reach _ _ _ _ _ H). auto.
      * rewrite (s_tabs _ _ _ _ _ s). exact H2.
  - apply reach_mono with (L := L').
    + intros m h. symmetry. apply (s_cell _ _ _ _ _ s). exact h.
    + symmetry. apply (s_tabs _ _ _ _ _ s).
    + intros m h. apply (inv_reach _ _ _ _ _ H). exact h.
Qed.
