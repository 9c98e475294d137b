(** * An evaluation that needs its own result does not end *)

From Coq Require Import List Bool Arith NArith ZArith Lia Permutation Relations.
Import ListNotations.
From Verif Require Import RcModel RcSpec RcInv RcDec RcGc RcWalk RcFire.

Section Machine.
Variable mm : bool.
Variable R : list (addr * bool).
Variable vd : addr.
Hypothesis hvd : In (vd, true) R.

Notation rt := (rts R).

Lemma vd_root : In vd rt.
Proof. unfold rts. apply in_map_iff. exists (vd, true). auto. Qed.

Definition vdok st : Prop := rc st vd = 3%N /\ cell st vd = Void.
Definition good st : Prop := (exists L, inv st L [] rt []) /\ vdok st.

Lemma inv_set_gcs st L lb r db l : inv st L lb r db -> inv (set_gcs st l) L lb r db.
Proof. intros [h1 h2 h3 h4 h5]. split; auto. Qed.

Lemma tick_ok st : good st ->
  exists st', tick mm R st = Some st' /\ good st' /\ keeps rt st st' /\ gcs st' = tl (gcs st).
Proof.
  intros [(L & H) [h1 h2]]. unfold tick. destruct (gcs st) as [|b l] eqn:e.
  - exists st. repeat split; eauto.
  - assert (H' : inv (set_gcs st l) L [] rt []) by (apply inv_set_gcs; exact H).
    assert (hk : keeps rt st (set_gcs st l)) by (split; reflexivity).
    destruct (b && mm).
    + destruct (collect_ok (set_gcs st l) R (inv_closed _ _ _ _ _ H'))
        as (st' & L' & q1 & q2 & q3 & q4 & q5 & q6 & q7 & q8).
      exists st'. split; auto. split.
      * split; eauto. split; auto. rewrite q4; auto. apply q3. apply reach_root. apply vd_root.
      * split; [|exact q6]. apply keeps_trans with (set_gcs st l); auto.
        split; auto. intros n hn. apply q4. apply q3. exact hn.
    + exists (set_gcs st l). split; auto. split; [split; [eauto|split; auto]|]. auto.
Qed.

Lemma reach_more st a r n : reach st r n -> reach st (a ++ r) n.
Proof.
  induction 1.
  - apply reach_root. apply in_or_app. auto.
  - eapply reach_kid; eauto.
  - eapply reach_tab; eauto.
Qed.

Lemma down_all_ok l : forall st L,
  inv st L [] (l ++ rt) [] -> vdok st ->
  exists st', down_all mm st l = Some st' /\ good st' /\ keeps rt st st' /\ gcs st' = gcs st.
Proof.
  induction l as [|n l IH]; intros st L H [v1 v2]; cbn [down_all].
  - exists st. split; auto. split; [split; [eauto|split; auto]|]. split; auto. apply keeps_refl.
  - unfold down. destruct mm.
    + assert (hl : length L < S (top st)).
      { pose proof (i_part _ _ _ _ _ H) as p. apply Permutation_length in p.
        rewrite app_length, seq_length in p. lia. }
      destruct (dec_ok _ _ _ _ _ _ H hl) as (st1 & L1 & e & H1 & s). rewrite e.
      assert (hv : In vd L).
      { apply (inv_root _ _ _ _ _ H). right. apply in_or_app. right. apply vd_root. }
      destruct (s_sat _ _ _ _ _ s vd hv v1) as [w1 w2].
      assert (hk : keeps rt st st1).
      { split; [apply (s_tabs _ _ _ _ _ s)|]. intros m hm. apply (s_cell _ _ _ _ _ s).
        apply (inv_reach _ _ _ _ _ H1). apply (shrink_reach _ _ _ _ _ (l ++ rt) m H1 s).
        apply reach_more. exact hm. }
      destruct (IH st1 L1 H1) as (st' & e' & g & k & hg).
      { split; auto. rewrite (s_cell _ _ _ _ _ s); auto. }
      exists st'. split; auto. split; auto. split; [eapply keeps_trans; eauto|].
      rewrite hg. apply (s_gcs _ _ _ _ _ s).
    + apply (IH st L); [|split; auto]. apply (inv_weaken _ _ _ [n]). exact H.
Qed.

Lemma good_lt st n : good st -> reach st rt n -> exists L, inv st L [] rt [] /\ In n L.
Proof. intros [(L & H) _] h. exists L. split; auto. eapply inv_reach; eauto. Qed.

(** ** Walking down a spine *)

Lemma go_walk sp : forall f st x root sp0 res,
  good st -> reach st rt x -> lnk st root sp x ->
  go mm R vd f st x sp0 = Some res ->
  exists f' st', f' <= f /\ good st' /\ keeps rt st st' /\
                 go mm R vd f' st' root (sp ++ sp0) = Some res.
Proof.
  induction sp as [|s sp IH] using rev_ind; intros f st x root sp0 res g hr h e.
  - cbn in h. subst. exists f, st. split; auto. split; auto. split; auto. apply keeps_refl.
  - apply lnk_snoc in h. destruct h as (-> & l & a & ec & h).
    destruct f as [|f]; [discriminate|]. cbn [go] in e.
    destruct (tick_ok st g) as (st1 & e1 & g1 & k1 & _). rewrite e1 in e.
    rewrite (proj2 k1 x hr), ec in e.
    assert (hrl : reach st rt l).
    { eapply reach_kid; eauto. rewrite ec. left. reflexivity. }
    destruct (IH f st1 l root (x :: sp0) res g1 (keeps_reach _ _ _ _ k1 hrl)
                (proj1 (keeps_path _ _ _ _ _ _ k1 h hrl)) e) as (f' & st' & q1 & q2 & q3 & q4).
    exists f', st'. split; [lia|]. split; auto. split; [eapply keeps_trans; eauto|].
    rewrite <- app_assoc. exact q4.
Qed.

Lemma whnf_go f st n y st' :
  good st -> reach st rt n -> whnf st n -> go mm R vd f st n [] = Some (y, st') ->
  y = n /\ good st' /\ keeps rt st st'.
Proof.
  intros g hr (root & sp & h & w) e.
  destruct (go_walk _ _ _ _ _ _ _ g hr h e) as (f' & st1 & _ & g1 & k1 & e1).
  rewrite app_nil_r in e1. destruct f' as [|f']; [discriminate|]. cbn [go] in e1.
  destruct (tick_ok st1 g1) as (st2 & e2 & g2 & k2 & _). rewrite e2 in e1.
  assert (k : keeps rt st st2) by (eapply keeps_trans; eauto).
  destruct (reach_lnk _ _ _ _ _ h hr) as [hroot _].
  rewrite (proj2 k root hroot) in e1. pose proof (lnk_last _ _ _ _ h) as hl.
  destruct (cell st root) eqn:ec; cbn in w; try contradiction;
    try (subst sp; cbn in hl; injection e1 as <- <-; subst; auto).
  apply Nat.ltb_lt in w. rewrite w in e1. injection e1 as <- <-. auto.
Qed.

(** ** Waiting

    Evaluating [x] comes to the application [r], and this needs [z] first. *)

Inductive waits (st : store) (x r z : addr) : Prop :=
| w0 p root sp rest i :
    lnk st root sp r -> lnk st r rest x -> cell st root = Prim p -> length sp = arity p ->
    want0 p = Some i -> z = nth i (rights st sp) 0 -> waits st x r z
| w1 p root sp rest i j :
    lnk st root sp r -> lnk st r rest x -> cell st root = Prim p -> length sp = arity p ->
    want0 p = Some i -> whnf st (nth i (rights st sp) 0) ->
    (p = pCOND -> nth 2 (rights st sp) 0 = vd /\ cell st (nth 0 (rights st sp) 0) = Bool true) ->
    want1 p (decide p st (rights st sp)) st (rights st sp) = Some (j, z) -> waits st x r z
| wst rest : cell st r = App vd z -> lnk st r rest x -> waits st x r z.

Lemma want0_lt p i : want0 p = Some i -> i < arity p.
Proof. destruct p; cbn; intros h; try discriminate; injection h as <-; lia. Qed.

(** What the second demand is: an argument, or a part of the first one. *)
Lemma want1_arg p d st (args : list addr) j (z : addr) : want1 p d st args = Some (j, z) ->
  (want0 p = Some 0 /\ z = nth j args 0 /\ j < arity p /\ j <> 0) \/
  ((p = pHEAD \/ p = pTAIL) /\ want0 p = Some 0 /\ j = 1 /\ In z (kids (cell st (nth 0 args 0)))
   /\ exists h t, cell st (nth 0 args 0) = Cons h t).
Proof.
  destruct p; cbn [want1]; try discriminate;
    try (destruct d as [[|]|]; try discriminate; intros hh; injection hh as <- <-;
         left; cbn; repeat split; lia);
    destruct (cell st (nth 0 args 0)) as [| | | | | | | |b|b ?|] eqn:e; cbn [is_fail];
    try discriminate; try (destruct b; try discriminate); intros hh; injection hh as <- <-;
    try (left; cbn; repeat split; lia);
    right; cbn; repeat split; eauto.
Qed.

Lemma want1_ext p d st st' (args : list addr) :
  cell st' (nth 0 args 0) = cell st (nth 0 args 0) -> want1 p d st' args = want1 p d st args.
Proof. intros h. unfold want1. rewrite h. reflexivity. Qed.

Lemma decide_ext p st st' (args : list addr) :
  cell st' (nth 0 args 0) = cell st (nth 0 args 0) -> decide p st' args = decide p st args.
Proof. intros h. unfold decide. rewrite h. reflexivity. Qed.

Lemma nth_rights st sp i (d : addr) : i < length sp -> In (nth i (rights st sp) d) (rights st sp).
Proof. intros h. apply nth_In. rewrite rights_length. exact h. Qed.

Lemma waits_reach st x r z : waits st x r z -> reach st rt x -> reach st rt z.
Proof.
  intros w hr.
  assert (hx : forall rest, lnk st r rest x -> reach st rt r).
  { intros rest h. exact (proj1 (reach_lnk _ _ _ _ _ h hr)). }
  destruct w as [p root sp rest i h1 h2 e1 e2 e3 ->
                |p root sp rest i j h1 h2 e1 e2 e3 hw hc e4|rest e h2].
  - eapply reach_right; [exact h1|eapply hx; exact h2|]. apply nth_rights. apply want0_lt in e3. lia.
  - apply want1_arg in e4. destruct e4 as [(_ & -> & q & _)|(_ & e5 & _ & q & _)].
    + eapply reach_right; [exact h1|eapply hx; exact h2|]. apply nth_rights. lia.
    + rewrite e5 in e3. injection e3 as <-. eapply reach_kid; [|exact q].
      eapply reach_right; [exact h1|eapply hx; exact h2|]. apply nth_rights. pose proof (arity_pos p). lia.
  - eapply reach_kid; [apply (hx _ h2)|]. rewrite e. right. left. reflexivity.
Qed.

Lemma waits_keeps st st' x r z :
  keeps rt st st' -> reach st rt x -> waits st x r z -> waits st' x r z.
Proof.
  intros k hr w. destruct w as [p root sp rest i h1 h2 e1 e2 e3 ->
                |p root sp rest i j h1 h2 e1 e2 e3 hw hc e4|rest e h2].
  - destruct (reach_lnk _ _ _ _ _ h2 hr) as [hrr _].
    destruct (keeps_path _ _ _ _ _ _ k h1 hrr) as (k1 & k2 & k3).
    destruct (keeps_path _ _ _ _ _ _ k h2 hr) as (k4 & _ & _).
    eapply w0; eauto; congruence.
  - destruct (reach_lnk _ _ _ _ _ h2 hr) as [hrr _].
    destruct (keeps_path _ _ _ _ _ _ k h1 hrr) as (k1 & k2 & k3).
    destruct (keeps_path _ _ _ _ _ _ k h2 hr) as (k4 & _ & _).
    assert (ha : forall i, i < arity p -> reach st rt (nth i (rights st sp) 0)).
    { intros m hm. eapply reach_right; [exact h1|exact hrr|]. apply nth_rights. lia. }
    pose proof (arity_pos p) as ap.
    assert (hc0 : cell st' (nth 0 (rights st sp) 0) = cell st (nth 0 (rights st sp) 0)).
    { apply k. apply ha. lia. }
    eapply w1; eauto; try rewrite k3; try congruence.
    + eapply whnf_keeps; eauto. apply ha. apply want0_lt. exact e3.
    + rewrite hc0. exact hc.
    + rewrite <- e4, (decide_ext p st st' _ hc0). apply want1_ext. exact hc0.
  - destruct (reach_lnk _ _ _ _ _ h2 hr) as [hrr _].
    destruct (keeps_path _ _ _ _ _ _ k h2 hr) as (k4 & k5 & _).
    eapply wst; eauto. congruence.
Qed.

(** ** Going round in circles *)

Lemma set_same_ok st r l a : good st -> reach st rt r -> cell st r = App l a ->
  good (set_cell st r (App l a)) /\ keeps rt st (set_cell st r (App l a)).
Proof.
  intros [(L & H) [v1 v2]] hr e.
  assert (hc : forall m, cell (set_cell st r (App l a)) m = cell st m).
  { intros m. cbn. unfold upd. destruct (m =? r) eqn:q; auto. apply Nat.eqb_eq in q. congruence. }
  split; [split|].
  - exists L. apply (inv_cancel _ _ _ [l; a]).
    assert (hL : In r L) by (eapply inv_reach; eauto).
    pose proof (inv_set _ _ _ _ _ r (App l a) H hL) as q. rewrite e in q. apply q.
    + discriminate.
    + intros n hn. eapply inv_kid; eauto. rewrite e. exact hn.
    + intros b k z. discriminate.
  - split; auto. rewrite hc. exact v2.
  - split; auto.
Qed.

Lemma prune_other p d st sp args : p <> pCOND -> prune mm vd p d st sp args = Some (st, (sp, args)).
Proof. intros h. destruct p; try reflexivity. contradiction. Qed.

Lemma lnk_between st spm : forall root sp m y,
  lnk st root sp y -> is_app (cell st root) = false -> lnk st m spm y ->
  exists sp', lnk st root sp' m /\ sp = sp' ++ spm.
Proof.
  induction spm as [|s spm IH] using rev_ind; intros root sp m y h n h'.
  - cbn in h'. subst. exists sp. rewrite app_nil_r. auto.
  - apply lnk_snoc in h'. destruct h' as (-> & l & a & e & h').
    destruct sp as [|s sp _] using rev_ind.
    + cbn in h. subst. rewrite e in n. discriminate.
    + apply lnk_snoc in h. destruct h as (-> & l' & a' & e' & h).
      rewrite e in e'. injection e' as <- <-.
      destruct (IH _ _ _ _ h n h') as (sp' & q1 & ->). exists sp'. split; auto.
      rewrite app_assoc. reflexivity.
Qed.

Lemma loop_none f : forall f0 st (Y : addr -> Prop) y m0 spm sp0 res,
  f0 <= f -> good st -> (forall y, Y y -> reach st rt y) ->
  (forall y, Y y -> exists r z, waits st y r z /\ Y z) ->
  Y y -> lnk st m0 spm y -> go mm R vd f0 st m0 (spm ++ sp0) = Some res -> False.
Proof.
  induction f as [|f IH]; intros f0 st Y y m0 spm sp0 res hf g hY hw hy hm0 e.
  { destruct f0; [discriminate|lia]. }
  destruct (hw y hy) as (r & z & w & hz). pose proof (hY y hy) as hr.
  assert (hkeep : forall st', keeps rt st st' ->
    (forall y, Y y -> reach st' rt y) /\ (forall y, Y y -> exists r z, waits st' y r z /\ Y z)).
  { intros st' k. split.
    - intros m hm. eapply keeps_reach; eauto.
    - intros m hm. destruct (hw m hm) as (r' & z' & w' & hz'). exists r', z'. split; auto.
      eapply waits_keeps; eauto. }
  assert (hrt : exists p root sp rest i,
    lnk st root sp r /\ lnk st r rest y /\ cell st root = Prim p /\ length sp = arity p /\
    want0 p = Some i /\
    (z = nth i (rights st sp) 0 \/
     (whnf st (nth i (rights st sp) 0) /\
      (p = pCOND -> nth 2 (rights st sp) 0 = vd /\ cell st (nth 0 (rights st sp) 0) = Bool true) /\
      exists j, want1 p (decide p st (rights st sp)) st (rights st sp) = Some (j, z)))).
  { destruct w as [p root sp rest i h1 h2 e1 e2 e3 e4
                  |p root sp rest i j h1 h2 e1 e2 e3 hh hc e4|rest e1 h2].
    - exists p, root, sp, rest, i. repeat split; auto.
    - exists p, root, sp, rest, i. repeat split; auto. right. repeat split; eauto.
      + apply hc; auto. + apply hc; auto.
    - exfalso. assert (h3 : lnk st vd (r :: rest) y) by (cbn; eauto).
      assert (nv : is_app (cell st vd) = false) by (destruct g as [_ [_ v2]]; rewrite v2; reflexivity).
      destruct (lnk_between _ _ _ _ _ _ h3 nv hm0) as (sp' & h4 & h5).
      destruct (go_walk _ _ _ _ _ _ _ g (proj1 (reach_lnk _ _ _ _ _ hm0 hr)) h4 e)
        as (f' & st1 & _ & g1 & k1 & e2).
      destruct f' as [|f']; [discriminate|]. cbn [go] in e2.
      destruct (tick_ok st1 g1) as (st2 & e3 & g2 & k2 & _). rewrite e3 in e2.
      destruct g2 as [_ [_ v2]]. rewrite v2, app_assoc, <- h5 in e2. discriminate. }
  clear w. destruct hrt as (p & root & sp & rest & i & h1 & h2 & e1 & e2 & e3 & hs).
  assert (h3 : lnk st root (sp ++ rest) y) by (apply lnk_app; eauto).
  assert (nv : is_app (cell st root) = false) by (rewrite e1; reflexivity).
  destruct (lnk_between _ _ _ _ _ _ h3 nv hm0) as (sp' & h4 & h5).
  destruct (go_walk _ _ _ _ _ _ _ g (proj1 (reach_lnk _ _ _ _ _ hm0 hr)) h4 e)
    as (f' & st1 & hf' & g1 & k1 & e4). clear e.
  rewrite app_assoc, <- h5 in e4. clear h4 h5.
  destruct f' as [|f']; [discriminate|]. cbn [go] in e4.
  destruct (tick_ok st1 g1) as (st2 & e5 & g2 & k2' & _). rewrite e5 in e4.
  assert (k2 : keeps rt st st2) by (eapply keeps_trans; eauto). clear k2' e5 g1 k1 st1.
  destruct (reach_lnk _ _ _ _ _ h2 hr) as [hrr _].
  destruct (keeps_path _ _ _ _ _ _ k2 h1 hrr) as (l1 & l2 & l3).
  rewrite l2, e1 in e4.
  assert (hlt : length ((sp ++ rest) ++ sp0) <? arity p = false).
  { apply Nat.ltb_ge. rewrite !app_length. lia. }
  rewrite hlt in e4. rewrite e3 in e4.
  assert (hfn : firstn (arity p) ((sp ++ rest) ++ sp0) = sp).
  { rewrite <- e2, <- app_assoc, firstn_app, Nat.sub_diag, firstn_all, firstn_O. apply app_nil_r. }
  rewrite hfn, l3 in e4.
  set (args := rights st sp) in *.
  assert (hal : length args = arity p) by (unfold args; rewrite rights_length; exact e2).
  assert (har : forall m, m < arity p -> reach st rt (nth m args 0)).
  { intros m hm. eapply reach_right; [exact h1|exact hrr|]. apply nth_rights. rewrite e2. exact hm. }
  destruct (go mm R vd f' st2 (nth i args 0) []) as [[a st3]|] eqn:eg; [|discriminate].
  destruct hs as [->|(hwh & hco & j & e6)].
  - destruct (hkeep _ k2) as [c1 c2].
    apply (IH f' st2 Y (nth i args 0) (nth i args 0) [] [] (a, st3)); auto; [lia|reflexivity].
  - pose proof (want0_lt _ _ e3) as hi.
    destruct (whnf_go _ _ _ _ _ g2 (keeps_reach _ _ _ _ k2 (har i hi))
                (whnf_keeps _ _ _ _ k2 (har i hi) hwh) eg) as (-> & g3 & k3').
    assert (k3 : keeps rt st st3) by (eapply keeps_trans; eauto). clear k3'.
    destruct (keeps_path _ _ _ _ _ _ k3 h1 hrr) as (m1 & m2 & m3).
    rewrite m3 in e4. fold args in e4.
    assert (eif : (if late p then args else args) = args) by (destruct (late p); reflexivity).
    rewrite eif in e4. assert (hil : i < length args) by (rewrite hal; exact hi).
    rewrite (put_id i _ args 0 hil eq_refl) in e4.
    assert (hpr : exists st4 sp1, prune mm vd p (decide p st3 args) st3 ((sp ++ rest) ++ sp0) args
                                  = Some (st4, (sp1, args)) /\ good st4 /\ keeps rt st3 st4).
    { destruct (match p with pCOND => true | _ => false end) eqn:ep.
      - destruct p; try discriminate. destruct (hco eq_refl) as [c1 c2]. unfold prune.
        assert (c3 : cell st3 (nth 0 args 0) = Bool true).
        { rewrite (proj2 k3); auto. apply har. cbn. lia. }
        unfold decide. rewrite c3.
        assert (hn2 : nth 2 ((sp ++ rest) ++ sp0) 0 = r).
        { destruct sp as [|s0 [|s1 [|s2 [|? ?]]]]; try discriminate. cbn. cbn in h1. tauto. }
        rewrite hn2.
        assert (hcr : exists l, cell st3 r = App l vd).
        { rewrite (proj2 k3 r hrr).
          destruct sp as [|s0 [|s1 [|s2 [|? ?]]]]; try discriminate.
          destruct h1 as (_ & _ & (b & hb) & hr2). cbn in hr2. subst s2.
          exists s1. rewrite hb. unfold args in c1. cbn in c1. rewrite hb in c1. cbn in c1.
          subst. reflexivity. }
        destruct hcr as (l & hcr). rewrite hcr. cbn [left_of].
        destruct (set_same_ok st3 r l vd g3 (keeps_reach _ _ _ _ k3 hrr) hcr) as [g4 k4].
        assert (hd : down mm (set_cell st3 r (App l vd)) (nth 2 args 0)
                     = Some (set_cell st3 r (App l vd))).
        { unfold down. destruct mm; auto. cbn [dec]. rewrite c1.
          destruct g4 as [_ [v1 _]]. rewrite v1. reflexivity. }
        rewrite hd. rewrite (put_id 2 vd args 0) by (auto; cbn in hal; lia). eauto.
      - exists st3, ((sp ++ rest) ++ sp0). rewrite prune_other.
        + split; auto. split; auto. apply keeps_refl.
        + intros ->. discriminate. }
    destruct hpr as (st4 & sp1 & ep & g4 & k4'). rewrite ep in e4.
    assert (k4 : keeps rt st st4) by (eapply keeps_trans; eauto).
    pose proof (arity_pos p) as ap.
    rewrite (want1_ext p _ st st4 args) in e4 by (apply k4; apply har; lia).
    rewrite (decide_ext p st st3 args) in e4 by (apply k3; apply har; lia).
    rewrite e6 in e4.
    destruct (go mm R vd f' st4 z []) as [[b st5]|] eqn:eg2; [|discriminate].
    destruct (hkeep _ k4) as [c1 c2].
    apply (IH f' st4 Y z z [] [] (b, st5)); auto; [lia|reflexivity].
Qed.

(** ** The evaluations that wait for the current one *)

Inductive frames (st : store) : addr -> list addr -> Prop :=
| fr_nil x : In x rt -> frames st x []
| fr_cons x r z C : frames st x C -> waits st x r z -> frames st z (r :: C).

(** The spine of a waiting evaluation is safe. *)
Lemma last_nth (l : list addr) d : l <> [] -> nth (length l - 1) l d = last l d.
Proof.
  induction l as [|a l IH]; intros h; [contradiction|].
  destruct l as [|b l]; auto. change (last (a :: b :: l) d) with (last (b :: l) d).
  rewrite <- IH by discriminate. cbn [length]. rewrite !Nat.sub_1_r. reflexivity.
Qed.

Lemma redex_nth st root sp r n d : lnk st root sp r -> length sp = n -> 1 <= n -> nth (n - 1) sp d = r.
Proof.
  intros h e hn. subst. rewrite last_nth by (destruct sp; [cbn in hn; lia|discriminate]).
  destruct sp as [|s sp]; [cbn in hn; lia|].
  rewrite (last_any d root). eapply lnk_last; eauto.
Qed.

Lemma waits_sreach st C x r z :
  vdok st -> waits st x r z -> sreach rt st (r :: C) x -> sreach rt st (r :: C) z.
Proof.
  intros [v1 v2] w hs.
  assert (hp : forall p root sp rest, lnk st root sp r -> lnk st r rest x ->
    cell st root = Prim p -> length sp = arity p ->
    forall i, i < arity p -> sreach rt st (r :: C) (nth i (rights st sp) 0)).
  { intros p root sp rest h1 h2 e1 e2 i hi. pose proof (arity_pos p) as ap.
    assert (h3 : lnk st root (sp ++ rest) x) by (apply lnk_app; eauto).
    assert (ok : okhead (r :: C) (cell st root) (sp ++ rest)).
    { rewrite e1. right. rewrite app_nth1 by lia. left. symmetry.
      eapply redex_nth; eauto. }
    destruct (safe_path _ _ _ _ _ _ h3 ok hs) as (_ & _ & h4).
    destruct (rights_kid _ _ _ _ _ h1 (nth_rights st sp i 0 ltac:(lia))) as (s & hi' & hk).
    destruct (h4 s) as [h5 h6]; [apply in_or_app; auto|]. eapply sr_kid; eauto. }
  destruct w as [p root sp rest i h1 h2 e1 e2 e3 ->
                |p root sp rest i j h1 h2 e1 e2 e3 hw hc e4|rest e h2].
  - eapply hp; eauto. apply want0_lt. exact e3.
  - apply want1_arg in e4. destruct e4 as [(_ & -> & q & _)|(_ & e5 & _ & q & _)].
    + eapply hp; eauto.
    + rewrite e5 in e3. injection e3 as <-. eapply sr_kid; [| |exact q].
      * eapply hp; eauto. pose proof (arity_pos p). lia.
      * apply whnf_safe. exact hw.
  - assert (h3 : lnk st vd (r :: rest) x) by (cbn; eauto).
    assert (ok : okhead (r :: C) (cell st vd) (r :: rest)).
    { rewrite v2. right. left. reflexivity. }
    destruct (safe_path _ _ _ _ _ _ h3 ok hs) as (_ & _ & h4).
    destruct (h4 r) as [h5 h6]; [left; reflexivity|].
    eapply sr_kid; eauto. rewrite e. right. left. reflexivity.
Qed.

Lemma frames_sreach st x C : vdok st -> frames st x C -> sreach rt st C x.
Proof.
  intros v. induction 1.
  - apply sr_root; auto.
  - eapply waits_sreach; eauto. eapply sreach_mono; [|exact IHframes].
    intros m hm. right. exact hm.
Qed.

Lemma frames_reach st x C : vdok st -> frames st x C -> reach st rt x.
Proof. intros v h. eapply sreach_reach. eapply frames_sreach; eauto. Qed.

Lemma waits_pres st st' C x r z :
  vdok st -> waits st x r z -> sreach rt st (r :: C) x -> pres rt (r :: C) st st' ->
  waits st' x r z.
Proof.
  intros [v1 v2] w hs ps.
  assert (hp : forall p root sp rest, lnk st root sp r -> lnk st r rest x ->
    cell st root = Prim p -> length sp = arity p ->
    lnk st' root sp r /\ lnk st' r rest x /\ cell st' root = Prim p /\
    rights st' sp = rights st sp).
  { intros p root sp rest h1 h2 e1 e2. pose proof (arity_pos p) as ap.
    assert (h3 : lnk st root (sp ++ rest) x) by (apply lnk_app; eauto).
    assert (ok : okhead (r :: C) (cell st root) (sp ++ rest)).
    { rewrite e1. right. rewrite app_nth1 by lia. left. symmetry.
      eapply redex_nth; eauto. }
    destruct (safe_path _ _ _ _ _ _ h3 ok hs) as (a1 & a2 & a3).
    assert (he : forall s, In s (sp ++ rest) -> cell st' s = cell st s).
    { intros s hi. destruct (a3 s hi). apply ps; auto. }
    split; [|split; [|split]].
    - eapply lnk_ext; [|exact h1]. intros s hi. apply he, in_or_app. auto.
    - eapply lnk_ext; [|exact h2]. intros s hi. apply he, in_or_app. auto.
    - rewrite ps; auto.
    - apply rights_ext. intros s hi. apply he, in_or_app. auto. }
  assert (hz : forall p root sp rest i, lnk st root sp r -> lnk st r rest x ->
    cell st root = Prim p -> length sp = arity p -> want0 p = Some i ->
    sreach rt st (r :: C) (nth i (rights st sp) 0)).
  { intros p root sp rest i h1 h2 e1 e2 e3. apply (waits_sreach st C x r); auto.
    - split; auto.
    - eapply w0; eauto. }
  destruct w as [p root sp rest i h1 h2 e1 e2 e3 ->
                |p root sp rest i j h1 h2 e1 e2 e3 hw hc e4|rest e h2].
  - destruct (hp _ _ _ _ h1 h2 e1 e2) as (b1 & b2 & b3 & b4).
    eapply w0; eauto. rewrite b4. reflexivity.
  - destruct (hp _ _ _ _ h1 h2 e1 e2) as (b1 & b2 & b3 & b4).
    pose proof (hz _ _ _ _ _ h1 h2 e1 e2 e3) as hq.
    assert (hw' : whnf st' (nth i (rights st sp) 0)) by (eapply whnf_pres; eauto).
    assert (h0 : i = 0).
    { apply want1_arg in e4. destruct e4 as [(q & _)|(_ & q & _)]; congruence. }
    subst i.
    assert (hc0 : cell st' (nth 0 (rights st sp) 0) = cell st (nth 0 (rights st sp) 0)).
    { apply ps; auto. apply whnf_safe. exact hw. }
    eapply w1; eauto; rewrite b4; auto.
    + rewrite hc0. exact hc.
    + rewrite <- e4, (decide_ext p st st' _ hc0). apply want1_ext. exact hc0.
  - assert (h3 : lnk st vd (r :: rest) x) by (cbn; eauto).
    assert (ok : okhead (r :: C) (cell st vd) (r :: rest)).
    { rewrite v2. right. left. reflexivity. }
    destruct (safe_path _ _ _ _ _ _ h3 ok hs) as (_ & _ & h4).
    assert (he : forall s, In s (r :: rest) -> cell st' s = cell st s).
    { intros s hi. destruct (h4 s hi). apply ps; auto. }
    eapply wst with (rest := rest).
    + rewrite he; auto. left. reflexivity.
    + eapply lnk_ext; [|exact h2]. intros s hi. apply he. right. exact hi.
Qed.

Lemma frames_pres st st' x C :
  vdok st -> frames st x C -> pres rt C st st' -> frames st' x C.
Proof.
  intros v h. revert st'. induction h as [x hx|x r z C h IH w]; intros st' p.
  - apply fr_nil; auto.
  - eapply fr_cons.
    + apply IH. eapply pres_mono; [|exact p]. intros m hm. right. exact hm.
    + eapply waits_pres; eauto. eapply sreach_mono; [|eapply frames_sreach; eauto].
      intros m hm. right. exact hm.
Qed.

(** ** No re-entry *)

Definition step st (a b : addr) : Prop := exists r, waits st a r b.

Lemma frames_path st x C r :
  frames st x C -> In r C ->
  exists x' y, waits st x' r y /\ clos_refl_trans_1n _ (step st) y x.
Proof.
  induction 1 as [x hx|x r' z C h IH w]; intros hi; [destruct hi|].
  destruct hi as [->|hi].
  - exists x, z. split; auto. constructor.
  - destruct (IH hi) as (x' & y & h1 & h2). exists x', y. split; auto.
    clear - h2 w. induction h2.
    + econstructor; [|constructor]. exists r'. exact w.
    + econstructor; eauto.
Qed.

Lemma waits_move st x x' r y root sp rest p :
  vdok st -> lnk st root sp r -> cell st root = Prim p -> length sp = arity p ->
  lnk st r rest x -> waits st x' r y -> waits st x r y.
Proof.
  intros [_ v2] h e1 e2 h2 w. assert (n : is_app (cell st root) = false) by (rewrite e1; reflexivity).
  destruct w as [p' root' sp' rest' i g1 g2 f1 f2 f3 ->
                |p' root' sp' rest' i j g1 g2 f1 f2 f3 hw hc f4|rest' f g2].
  - eapply w0; eauto.
  - eapply w1; eauto.
  - eapply wst; eauto.
Qed.

Lemma no_reentry st x C r root sp rest p f m spm res :
  good st -> frames st x C ->
  lnk st root sp r -> cell st root = Prim p -> length sp = arity p -> lnk st r rest x ->
  lnk st m spm x -> go mm R vd f st m spm = Some res -> ~ In r C.
Proof.
  intros g fr h e1 e2 h2 hm e hi. rewrite <- (app_nil_r spm) in e. destruct (frames_path _ _ _ _ fr hi) as (x' & y & w & path).
  assert (v : vdok st) by apply g.
  pose proof (waits_move _ _ _ _ _ _ _ _ _ v h e1 e2 h2 w) as w'.
  pose proof (frames_reach _ _ _ v fr) as hr.
  refine (loop_none f f st (fun a => reach st rt a /\ clos_refl_trans_1n _ (step st) a x)
            x m spm [] res (le_n _) g _ _ _ hm e).
  - intros a [q _]. exact q.
  - intros a [q1 q2]. inversion q2 as [|b c (r' & wb) q3]; subst.
    + exists r, y. split; auto. split; auto. eapply waits_reach; eauto.
    + exists r', b. split; auto. split; auto. eapply waits_reach; eauto.
  - split; auto. constructor.
Qed.

End Machine.
