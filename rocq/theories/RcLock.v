(** * Memory management cannot be noticed *)

From Coq Require Import List Bool Arith NArith ZArith Lia Permutation.
Import ListNotations.
From Verif Require Import RcModel RcSpec RcInv RcDec RcGc RcWalk RcFire RcLoop RcMain RcSim.

Section Machine.
Variables m1 m2 : bool.
Variable R : list (addr * bool).
Variable vd : addr.
Hypothesis hvd : In (vd, true) R.

Notation rt := (rts R).
Notation good := (good R vd).
Notation vdok := (vdok vd).
Notation waits := (waits vd).
Notation frames := (frames R vd).
Notation rel := (rel rt).
Notation spot := (spot R vd).
Notation ready := (ready R vd).

Lemma rel_vd q ns a b : rel q ns a b -> q vd = vd.
Proof. intros h. apply (r_root _ _ _ _ _ h). apply vd_root. exact hvd. Qed.

Lemma waits_rel q a b x r z : vdok a -> rel q [] a b -> reach a rt x -> waits a x r z -> waits b (q x) (q r) (q z).
Proof.
  intros [_ v2] H hx w.
  assert (cr : forall n, reach a rt n -> cell b (q n) = mapn q (cell a n)) by apply H.
  destruct w as [p root sp rest i h1 h2 e1 e2 e3 ->
                |p root sp rest i j h1 h2 e1 e2 e3 hw hc e4|rest e h2].
  - destruct (reach_lnk _ _ _ _ _ h2 hx) as [hr _].
    destruct (lnk_rel _ _ _ _ _ _ _ H hr h1) as [l1 l2].
    destruct (lnk_rel _ _ _ _ _ _ _ H hx h2) as [l3 _].
    eapply w0; eauto.
    + rewrite cr, e1; [reflexivity|]. exact (proj1 (reach_lnk _ _ _ _ _ h1 hr)).
    + rewrite map_length. exact e2.
    + rewrite l2, nth_map; auto. rewrite rights_length, e2. apply want0_lt. exact e3.
  - destruct (reach_lnk _ _ _ _ _ h2 hx) as [hr _].
    destruct (lnk_rel _ _ _ _ _ _ _ H hr h1) as [l1 l2].
    destruct (lnk_rel _ _ _ _ _ _ _ H hx h2) as [l3 _].
    pose proof (arity_pos p) as ap. pose proof (want0_lt _ _ e3) as hi.
    assert (hlen : length (rights a sp) = arity p) by (rewrite rights_length; exact e2).
    assert (ha : forall i, i < arity p -> reach a rt (nth i (rights a sp) 0)).
    { intros m hm. eapply reach_right; [exact h1|exact hr|]. apply nth_rights. lia. }
    eapply w1 with (j := j); eauto; rewrite ?l2.
    + rewrite cr, e1; [reflexivity|]. exact (proj1 (reach_lnk _ _ _ _ _ h1 hr)).
    + rewrite map_length. exact e2.
    + rewrite nth_map by lia. eapply whnf_rel; eauto.
    + intros ->. cbn [arity] in *. destruct (hc eq_refl) as [c1 c2].
      rewrite !nth_map by lia. rewrite c1, cr, c2; [|apply ha; lia]. split; auto.
      eapply rel_vd; eauto.
    + erewrite decide_rel; [|exact H|lia|apply ha; lia].
      erewrite want1_rel; [|exact H|lia|apply ha; lia]. rewrite e4. reflexivity.
  - destruct (reach_lnk _ _ _ _ _ h2 hx) as [hr _].
    destruct (lnk_rel _ _ _ _ _ _ _ H hx h2) as [l3 _].
    eapply wst; eauto. rewrite cr, e by exact hr. cbn [mapn]. rewrite (rel_vd _ _ _ _ H). reflexivity.
Qed.

Lemma frames_rel q a b x C : vdok a -> rel q [] a b -> frames a x C -> frames b (q x) (map q C).
Proof.
  intros v H. induction 1 as [x hx|x r z C h IH w].
  - rewrite (r_root _ _ _ _ _ H x hx). apply fr_nil. exact hx.
  - cbn [map]. eapply fr_cons; [exact IH|]. eapply waits_rel; eauto. eapply frames_reach; eauto.
Qed.

Lemma frames_in a x C r : vdok a -> frames a x C -> In r C -> reach a rt r.
Proof.
  intros v. induction 1 as [x hx|x r' z C h IH w]; intros hi; [destruct hi|].
  destruct hi as [->|hi]; auto. pose proof (frames_reach _ _ _ _ _ v h) as hx.
  destruct w as [p root sp rest i h1 h2 e1 e2 e3 e4
                |p root sp rest i j h1 h2 e1 e2 e3 hw hc e4|rest e h2];
    exact (proj1 (reach_lnk _ _ _ _ _ h2 hx)).
Qed.

Lemma spot_rel q a b x C p root sp rest r : rel q [] a b -> good b ->
  spot a x C p root sp rest r -> spot b (q x) (map q C) p (q root) (map q sp) (map q rest) (q r).
Proof.
  intros H g S0. pose proof (spot_reach_x _ _ _ _ _ _ _ _ _ _ S0) as hx.
  pose proof (spot_reach_r _ _ _ _ _ _ _ _ _ _ S0) as hr.
  pose proof S0 as [h1 h2 h3 h4 h5 h6 h7]. assert (v : vdok a) by apply h1. split; auto.
  - eapply frames_rel; eauto.
  - apply (lnk_rel _ _ _ _ _ _ _ H hr h3).
  - apply (lnk_rel _ _ _ _ _ _ _ H hx h4).
  - rewrite (r_cell _ _ _ _ _ H root), h5; [reflexivity|].
    exact (proj1 (reach_lnk _ _ _ _ _ h3 hr)).
  - rewrite map_length. exact h6.
  - rewrite in_map_iff. intros (c & e & hc).
    apply (r_inj _ _ _ _ _ H) in e; [subst; contradiction| |exact hr].
    exact (frames_in _ _ _ _ v h2 hc).
Qed.

Definition agree C a (q q' : addr -> addr) : Prop := forall n, sreach rt a C n -> q' n = q n.

Lemma agree_map C a q q' l : agree C a q q' -> (forall n, In n l -> sreach rt a C n) -> map q' l = map q l.
Proof. intros h hl. apply map_ext_in. intros n hn. apply h. auto. Qed.

Definition lock (f : nat) : Prop := forall q a b root sp x C,
  good a -> good b -> rel q [] a b -> frames a x C -> lnk a root sp x ->
  match go m1 R vd f a root sp, go m2 R vd f b (q root) (map q sp) with
  | None, None => True
  | Some (_, a'), Some (_, b') => exists q', rel q' [] a' b' /\ agree C a q q'
  | _, _ => False
  end.

(** The nodes that a waiting evaluation uses. *)
Lemma spot_sreach a x C p root sp rest r : spot a x C p root sp rest r ->
  (forall s, In s (root :: sp ++ rest) -> sreach rt a (r :: C) s) /\
  sreach rt a (r :: C) x /\ sreach rt a (r :: C) r /\
  forall s, In s (rights a sp) -> sreach rt a (r :: C) s.
Proof.
  intros S0. pose proof S0 as [h1 h2 h3 h4 h5 h6 h7].
  assert (v : vdok a) by apply h1.
  assert (hs : sreach rt a (r :: C) x).
  { eapply sreach_mono; [apply incl_skip|eapply frames_sreach; eauto]. }
  assert (hl : lnk a root (sp ++ rest) x) by (apply lnk_app; eauto).
  assert (ok : okhead (r :: C) (cell a root) (sp ++ rest)).
  { rewrite h5. right. left. rewrite (spot_nth _ _ _ _ _ _ _ _ _ _ S0). reflexivity. }
  destruct (safe_path _ _ _ _ _ _ hl ok hs) as (a1 & a2 & a3).
  split; [|split; [exact hs|split]].
  - intros s [<-|hi]; auto. apply a3. exact hi.
  - assert (hi : In r sp).
    { rewrite <- (spot_nth _ _ _ _ _ _ _ _ _ _ S0 []), app_nil_r. apply nth_In.
      pose proof (arity_pos p). lia. }
    apply a3. apply in_or_app. auto.
  - intros s hi. destruct (rights_kid _ _ _ _ _ h3 hi) as (t & ht & hk).
    destruct (a3 t) as [g1 g2]; [apply in_or_app; auto|]. eapply sr_kid; eauto.
Qed.

Lemma stage0_rel f q a b x C p root sp rest r :
  lock f -> rel q [] a b -> good b -> spot a x C p root sp rest r ->
  match stage0 m1 R vd f p a sp (rights a sp),
        stage0 m2 R vd f p b (map q sp) (rights b (map q sp)) with
  | None, None => True
  | Some (a1, _), Some (b1, _) => exists q1, rel q1 [] a1 b1 /\ good b1 /\ agree (r :: C) a q q1
  | _, _ => False
  end.
Proof.
  intros IH H gb S0. pose proof (spot_rel _ _ _ _ _ _ _ _ _ _ H gb S0) as S1.
  pose proof (spot_reach_r _ _ _ _ _ _ _ _ _ _ S0) as hr.
  unfold stage0. destruct (want0 p) as [i|] eqn:ew.
  2:{ exists q. split; auto. split; auto. intros n _. reflexivity. }
  destruct (lnk_rel _ _ _ _ _ _ _ H hr (p_in _ _ _ _ _ _ _ _ _ _ S0)) as [_ l2]. rewrite l2.
  assert (hi : i < length (rights a sp)).
  { rewrite rights_length, (p_len _ _ _ _ _ _ _ _ _ _ S0). apply want0_lt. exact ew. }
  rewrite nth_map by exact hi.
  pose proof (spot_wait0 _ _ _ _ _ _ _ _ _ _ S0 i ew) as fr.
  pose proof (spot_wait0 _ _ _ _ _ _ _ _ _ _ S1 i ew) as frb.
  rewrite l2, nth_map in frb by exact hi.
  specialize (IH q a b (nth i (rights a sp) 0) [] _ (r :: C) (p_good _ _ _ _ _ _ _ _ _ _ S0) gb H fr eq_refl).
  cbn [map] in IH.
  destruct (go m1 R vd f a (nth i (rights a sp) 0) []) as [[y a1]|] eqn:ea,
           (go m2 R vd f b (q (nth i (rights a sp) 0)) []) as [[y' b1]|] eqn:eb; auto.
  destruct IH as (q1 & H1 & ag). exists q1. split; auto. split; auto.
  apply (go_ok m2 R vd hvd f b _ [] _ _ _ _ gb frb eq_refl eb).
Qed.

(** ** Cutting a branch off *)

Lemma prune_rel q a b x C p root sp rest r :
  rel q [] a b -> good b -> spot a x C p root sp rest r ->
  let d := decide p a (rights a sp) in
  exists a2 sp2 args2 b2 spb,
    prune m1 vd p d a (sp ++ rest) (rights a sp) = Some (a2, (sp2, args2)) /\
    prune m2 vd p d b (map q (sp ++ rest)) (map q (rights a sp)) = Some (b2, (spb, map q args2)) /\
    rel q [] a2 b2 /\ good a2 /\ good b2 /\ length args2 = arity p /\
    (forall n, n = r \/ In n rest \/ n = x -> sreach rt a2 (r :: C) n) /\
    (forall n, In n args2 -> reach a2 rt n) /\
    (forall n, In n args2 -> sreach rt a2 (r :: C) n \/ want1 p d a2 args2 = Some (2, n)).
Proof.
  intros H gb S0 d. pose proof (spot_rel _ _ _ _ _ _ _ _ _ _ H gb S0) as S1.
  pose proof (spot_reach_r _ _ _ _ _ _ _ _ _ _ S0) as hr.
  pose proof (spot_reach_x _ _ _ _ _ _ _ _ _ _ S0) as hx.
  pose proof (spot_sreach _ _ _ _ _ _ _ _ S0) as (t1 & t2 & t3 & t4).
  assert (hlen : length (rights a sp) = arity p)
    by (rewrite rights_length; apply (p_len _ _ _ _ _ _ _ _ _ _ S0)).
  assert (idc : prune m1 vd p d a (sp ++ rest) (rights a sp) = Some (a, (sp ++ rest, rights a sp)) ->
    prune m2 vd p d b (map q (sp ++ rest)) (map q (rights a sp))
      = Some (b, (map q (sp ++ rest), map q (rights a sp))) ->
    exists a2 sp2 args2 b2 spb,
    prune m1 vd p d a (sp ++ rest) (rights a sp) = Some (a2, (sp2, args2)) /\
    prune m2 vd p d b (map q (sp ++ rest)) (map q (rights a sp)) = Some (b2, (spb, map q args2)) /\
    rel q [] a2 b2 /\ good a2 /\ good b2 /\ length args2 = arity p /\
    (forall n, n = r \/ In n rest \/ n = x -> sreach rt a2 (r :: C) n) /\
    (forall n, In n args2 -> reach a2 rt n) /\
    (forall n, In n args2 -> sreach rt a2 (r :: C) n \/ want1 p d a2 args2 = Some (2, n))).
  { intros e1 e2. exists a, (sp ++ rest), (rights a sp), b, (map q (sp ++ rest)).
    split; [exact e1|]. split; [exact e2|]. split; auto. split; [apply S0|]. split; auto. split; auto.
    split; [|split].
    - intros n [->|[hn| ->]]; auto. apply t1. right. apply in_or_app. auto.
    - intros n hn. apply (spot_args _ _ _ _ _ _ _ _ _ _ S0). exact hn.
    - intros n hn. left. auto. }
  destruct (match p with pCOND => true | _ => false end) eqn:ep.
  2:{ assert (hp : p <> pCOND) by (intros ->; discriminate). apply idc; apply prune_other; exact hp. }
  destruct p; try discriminate. clear ep.
  destruct d as [t|] eqn:ed; [|apply idc; reflexivity]. clear idc.
  pose proof (spot_nth _ _ _ _ _ _ _ _ _ _ S0 rest) as hn. cbn [arity] in hn. change (3 - 1) with 2 in hn.
  pose proof S0 as [h1 h2 h3 h4 h5 h6 h7]. cbn [arity] in h6, hlen.
  pose proof S1 as [j1 j2 j3 j4 j5 j6 j7].
  destruct sp as [|s0 [|s1 [|s2 [|? ?]]]]; try discriminate.
  cbn [app nth] in hn. subst s2.
  destruct h3 as ((a0 & c0) & (a1 & c1) & (a2 & c2) & _).
  assert (er : rights a [s0; s1; r] = [a0; a1; a2]).
  { unfold rights. cbn [map]. rewrite c0, c1, c2. reflexivity. }
  rewrite er in *.
  pose proof (spot_unsafe _ _ _ _ _ _ _ _ _ _ S0) as us. pose proof (spot_fresh _ _ _ _ _ _ _ _ _ _ S0) as nf.
  pose proof (spot_unsafe _ _ _ _ _ _ _ _ _ _ S1) as usb. pose proof (spot_fresh _ _ _ _ _ _ _ _ _ _ S1) as nfb.
  assert (c2b : cell b (q r) = App (q s1) (q a2)).
  { rewrite (r_cell _ _ _ _ _ H r hr), c2. reflexivity. }
  pose proof (rel_vd _ _ _ _ H) as qv.
  assert (hvr : reach a rt vd) by (apply reach_root; apply vd_root; exact hvd).
  assert (hk : forall k, In k [s1; a2] -> reach a rt k).
  { intros k hk. eapply reach_kid; [exact hr|]. rewrite c2. exact hk. }
  destruct t.
  - destruct (cut_ok m1 R vd hvd a x C r rest (App s1 vd) a2 h1 h2 h4 us nf)
      as (a' & ea & ga & fa & la & pa & ca & ka & xa).
    { exists s1, a2. split; auto. }
    destruct (cut_ok m2 R vd hvd b (q x) (map q C) (q r) (map q rest) (App (q s1) vd) (q a2) j1 j2 j4 usb nfb)
      as (b' & eb & g' & fb & lb & pb & cb & kb & xb).
    { exists (q s1), (q a2). split; auto. }
    exists a', ([s0; s1; r] ++ rest), [a0; a1; vd], b', (map q ([s0; s1; r] ++ rest)).
    split.
    { unfold prune. cbn [app nth put firstn skipn]. rewrite c2. cbn [left_of]. rewrite ea. reflexivity. }
    split.
    { unfold prune. cbn [app map nth put firstn skipn]. rewrite c2b. cbn [left_of]. rewrite eb, qv. reflexivity. }
    assert (Hs : rel q [] (set_cell a r (App s1 vd)) (set_cell b (q r) (App (q s1) vd))).
    { rewrite <- qv at 2. apply (rel_set rt q [] a b r (App s1 vd) H hr).
      - intros k [<-|[<-|[]]]; auto. apply hk. left. reflexivity.
      - discriminate. }
    split; [eapply rel_keeps; eauto|]. split; auto. split; auto. split; auto.
    destruct (prune_ok m1 R vd hvd a x C pCOND root [s0; s1; r] rest r a' ([s0; s1; r] ++ rest) [a0; a1; vd] S0)
      as (_ & _ & _ & _ & _ & _ & q7).
    { cbn [want0]. intros i e. injection e as <-. rewrite er. cbn [nth].
      assert (cc : cell a a0 = Bool true).
      { unfold d, decide in ed. rewrite er in ed. cbn [nth] in ed. destruct (cell a a0); try discriminate. congruence. }
      exists a0, []. rewrite cc. cbn. auto. }
    { fold d. rewrite ed, er. unfold prune. cbn [app nth put firstn skipn]. rewrite c2.
      cbn [left_of]. rewrite ea. reflexivity. }
    fold d in q7. rewrite ed in q7.
    destruct q7 as (S2 & ea2 & _); [intros [_ z]; discriminate|].
    pose proof (spot_sreach _ _ _ _ _ _ _ _ S2) as (u1 & u2 & u3 & u4).
    split; [|split].
    + intros n [->|[hn| ->]]; auto. apply u1. right. apply in_or_app. auto.
    + rewrite ea2. intros n hn. apply (spot_args _ _ _ _ _ _ _ _ _ _ S2). exact hn.
    + intros n hn. left. apply u4. rewrite <- ea2. exact hn.
  - destruct (cut_ok m1 R vd hvd a x C r rest (App vd a2) s1 h1 h2 h4 us nf)
      as (a' & ea & ga & fa & la & pa & ca & ka & xa).
    { exists s1, a2. split; auto. }
    destruct (cut_ok m2 R vd hvd b (q x) (map q C) (q r) (map q rest) (App vd (q a2)) (q s1) j1 j2 j4 usb nfb)
      as (b' & eb & g' & fb & lb & pb & cb & kb & xb).
    { exists (q s1), (q a2). split; auto. }
    exists a', (s0 :: vd :: r :: rest), [vd; vd; a2], b', (map q (s0 :: vd :: r :: rest)).
    split.
    { unfold prune. cbn [app nth put firstn skipn]. rewrite c2. cbn [right_of]. rewrite ea. reflexivity. }
    split.
    { unfold prune. cbn [app map nth put firstn skipn]. rewrite c2b. cbn [right_of]. rewrite eb, qv. reflexivity. }
    assert (Hs : rel q [] (set_cell a r (App vd a2)) (set_cell b (q r) (App vd (q a2)))).
    { rewrite <- qv at 2. apply (rel_set rt q [] a b r (App vd a2) H hr).
      - intros k [<-|[<-|[]]]; auto. apply hk. right. left. reflexivity.
      - discriminate. }
    split; [eapply rel_keeps; eauto|]. split; auto. split; auto. split; auto.
    assert (v2 : vdok a') by apply ga.
    assert (hs : sreach rt a' (r :: C) x).
    { eapply sreach_mono; [apply incl_skip|]. eapply frames_sreach; eauto. }
    assert (hl : lnk a' vd (r :: rest) x) by (cbn; eauto).
    assert (okh : okhead (r :: C) (cell a' vd) (r :: rest)).
    { destruct v2 as [_ v2]. rewrite v2. right. left. reflexivity. }
    destruct (safe_path _ _ _ _ _ _ hl okh hs) as (_ & _ & w3).
    assert (sv : sreach rt a' (r :: C) vd) by (apply sr_root; apply vd_root; exact hvd).
    split; [|split].
    + intros n [->|[hn| ->]]; auto; apply w3; [left; reflexivity|right; exact hn].
    + intros n [<-|[<-|[<-|[]]]]; try (eapply sreach_reach; exact sv).
      eapply reach_kid; [eapply sreach_reach; apply w3; left; reflexivity|]. rewrite ca. right. left. reflexivity.
    + intros n [<-|[<-|[<-|[]]]]; auto.
Qed.

(** ** The redex is overwritten *)

Lemma fire_rel q a b p d root (sp args : list addr) rootb (spb : list addr) r :
  rel q [] a b -> good a -> good b -> reach a rt r ->
  r = nth (arity p - 1) sp 0 -> q r = nth (arity p - 1) spb 0 ->
  (forall n, In n args -> reach a rt n) -> arity p <= length args ->
  (forall h t, p = pHEAD \/ p = pTAIL -> cell a (nth 0 args 0) = Cons h t -> 2 <= length args) ->
  (rule p <> None -> length args = arity p) ->
  match fire vd p d a root sp args, fire vd p d b rootb spb (map q args) with
  | None, None => True
  | Some (a', _), Some (b', _) => exists q', rel q' [] a' b' /\ forall m, reach a rt m -> q' m = q m
  | _, _ => False
  end.
Proof.
  intros H ga gb hr er erb ha hl hc hrl.
  pose proof ga as [(La & Ia) _]. pose proof gb as [(Lb & Ib) _].
  assert (hnth : forall i, i < length args -> reach a rt (nth i args 0)).
  { intros i hi. apply ha. apply nth_In. exact hi. }
  assert (ow : forall np, reach a rt np ->
    exists q', rel q' [] (overwrite a r np) (overwrite b (q r) (q np)) /\ forall m, reach a rt m -> q' m = q m).
  { intros np hn. exists q. split; auto. apply rel_overwrite; auto. }
  assert (bd : forall B, rule p = Some B ->
    exists q', rel q' [] (build_redex a args r B) (build_redex b (map q args) (q r) B) /\
      forall m, reach a rt m -> q' m = q m).
  { intros B eB. eapply build_rel; eauto. rewrite hrl by congruence. apply rules_fine. exact eB. }
  assert (lf : forall c, kids c = [] -> (forall t k, c <> Tab t k) ->
    exists q', rel q' [] (set_cell a r c) (set_cell b (q r) c) /\ forall m, reach a rt m -> q' m = q m).
  { intros c h1 h2. exists q. split; auto. apply rel_leaf; auto. }
  pose proof (arity_pos p) as ap.
  assert (i0 : reach a rt (nth 0 args 0)) by (apply hnth; lia).
  assert (cr : forall n, reach a rt n -> cell b (q n) = mapn q (cell a n)) by apply H.
  unfold fire. cbn zeta. rewrite <- er, <- erb. rewrite (nth_map q args 0 0) by lia. rewrite (cr _ i0), is_fail_map.
  destruct p; cbn [arity Nat.sub] in *;
    try (destruct (rule _) as [B|] eqn:eB; [apply bd; reflexivity|exact Logic.I]).
  - (* K *) apply ow. exact i0.
  - (* NSEQ *) rewrite nth_map by lia. apply ow. apply hnth. lia.
  - (* SEQ *) destruct (is_fail _); [apply ow; exact i0|]. rewrite nth_map by lia. apply ow. apply hnth. lia.
  - (* I *) apply ow. exact i0.
  - (* THEN *) destruct (is_fail _); [apply ow; exact i0|].
    destruct (rule pTHEN) as [B|] eqn:eB; [apply bd; reflexivity|exact Logic.I].
  - (* HEAD *) destruct (cell a (nth 0 args 0)) eqn:e0; cbn [mapn]; try exact Logic.I.
    + specialize (hc _ _ (or_introl eq_refl) eq_refl). rewrite nth_map by lia. apply ow. apply hnth. lia.
    + apply lf; [reflexivity|discriminate].
    + apply ow. exact i0.
  - (* TAIL *) destruct (cell a (nth 0 args 0)) eqn:e0; cbn [mapn]; try exact Logic.I.
    + specialize (hc _ _ (or_intror eq_refl) eq_refl). rewrite nth_map by lia. apply ow. apply hnth. lia.
    + apply lf; [reflexivity|discriminate].
    + apply ow. exact i0.
  - (* PCATCH *) rewrite nth_map by lia.
    destruct (cell a (nth 0 args 0)) eqn:e0; cbn [mapn]; apply ow; auto; apply hnth; lia.
  - (* PLUS *) rewrite nth_map by lia. assert (i1 : reach a rt (nth 1 args 0)) by (apply hnth; lia).
    rewrite (cr _ i1), is_fail_map.
    destruct (is_fail _); [apply ow; exact i0|]. destruct (is_fail _); [apply ow; exact i1|].
    destruct (cell a (nth 0 args 0)); cbn [mapn]; try exact Logic.I.
    destruct (cell a (nth 1 args 0)); cbn [mapn]; try exact Logic.I.
    apply lf; [reflexivity|discriminate].
  - (* COND *) rewrite !nth_map by lia. destruct d as [[|]|]; [apply ow; apply hnth; lia..|].
    destruct (is_fail _); [apply ow; exact i0|exact Logic.I].
  - (* MKREF *) exists q. split; auto.
    eapply rel_same; [| | | |exact (rel_newtab rt q a b La (nth 0 args 0) r H Ia i0 hr)]; reflexivity.
  - (* DEREF *) destruct (cell a (nth 0 args 0)) as [| | | | | | | | |t k|] eqn:e0; cbn [mapn]; try exact Logic.I.
    + exists q. split; auto. apply rel_overwrite; auto.
      * eapply rel_same; [| | | |exact H]; reflexivity.
      * eapply reach_ext; [| |exact hr]; reflexivity.
      * eapply reach_ext; [| |exact i0]; reflexivity.
    + destruct t; [|exact Logic.I]. rewrite (r_tab _ _ _ _ _ H _ _ _ i0 e0).
      destruct (nth k (tabs a) []) as [|v [|? ?]] eqn:ek; cbn [map]; try exact Logic.I.
      assert (hv : reach a rt v).
      { eapply reach_tab; [exact i0|exact e0|]. rewrite ek. left. reflexivity. }
      exists q. split; auto. apply rel_overwrite; auto.
      * eapply rel_same; [| | | |exact H]; reflexivity.
      * eapply reach_ext; [| |exact hr]; reflexivity.
      * eapply reach_ext; [| |exact hv]; reflexivity.
  - (* UPDATE *) rewrite nth_map by lia. assert (i1 : reach a rt (nth 1 args 0)) by (apply hnth; lia).
    destruct (cell a (nth 0 args 0)) as [| | | | | | | | |t k|] eqn:e0; cbn [mapn]; try exact Logic.I.
    destruct t; [|exact Logic.I]. exists q. split; auto.
    assert (hk : k < length (tabs a)).
    { eapply (i_tab _ _ _ _ _ Ia); [eapply inv_reach; [exact Ia|exact i0]|exact e0]. }
    assert (hva : cell a vd = Void) by apply ga. assert (hvb : cell b vd = Void) by apply gb.
    unfold overwrite. cbn [cell incr set_rc set_tabs]. rewrite hva, hvb. cbn [kids incr_all].
    assert (H1 : rel q [] (set_cell (set_tabs a (put k [nth 1 args 0] (tabs a))) r Void)
                          (set_cell (set_tabs b (put k [q (nth 1 args 0)] (tabs b))) (q r) Void)).
    { apply rel_update; auto. discriminate. }
    eapply rel_same; [| | | |exact H1]; reflexivity.
Qed.

Lemma map_last (q : addr -> addr) (sp : list addr) root : last (map q sp) (q root) = q (last sp root).
Proof.
  revert root. induction sp as [|s sp IH]; intros root; auto.
  cbn [map]. rewrite !last_cons. apply IH.
Qed.

Lemma map_put (q : addr -> addr) (l : list addr) i v : map q (put i v l) = put i (q v) (map q l).
Proof. unfold put. rewrite map_app. cbn [map]. rewrite firstn_map, skipn_map. reflexivity. Qed.

Lemma put_In {A} i (v : A) l n : In n (put i v l) -> n = v \/ In n l.
Proof.
  unfold put. intros h. apply in_app_or in h. destruct h as [h|[h|h]]; auto.
  - right. rewrite <- (firstn_skipn i l). apply in_or_app. auto.
  - right. rewrite <- (firstn_skipn (S i) l). apply in_or_app. auto.
Qed.

Lemma stage1_rel f q a b x C p root sp rest r a2 sp2 args2 b2 spb d :
  lock f -> rel q [] a2 b2 -> good a2 -> good b2 -> spot a x C p root sp rest r ->
  (forall i, want0 p = Some i -> whnf a (nth i (rights a sp) 0)) ->
  d = decide p a (rights a sp) ->
  prune m1 vd p d a (sp ++ rest) (rights a sp) = Some (a2, (sp2, args2)) ->
  prune m2 vd p d b (map q (sp ++ rest)) (map q (rights a sp)) = Some (b2, (spb, map q args2)) ->
  length args2 = arity p -> (forall n, In n args2 -> reach a2 rt n) ->
  (forall n, In n args2 -> sreach rt a2 (r :: C) n \/ want1 p d a2 args2 = Some (2, n)) ->
  match stage1 m1 R vd f p d a2 args2, stage1 m2 R vd f p d b2 (map q args2) with
  | None, None => True
  | Some (a3, args3), Some (b3, argsb) =>
      exists q', rel q' [] a3 b3 /\ agree (r :: C) a2 q q' /\ argsb = map q' args3
  | _, _ => False
  end.
Proof.
  intros IH H ga gb S0 hw -> ea eb hlen har hsr. unfold stage1.
  destruct (prune_ok m1 R vd hvd _ _ _ _ _ _ _ _ _ _ _ S0 hw ea) as (_ & _ & q3 & _).
  set (d := decide p a (rights a sp)) in *. pose proof (arity_pos p) as ap.
  erewrite want1_rel; [|exact H|lia|apply har; apply nth_In; lia].
  destruct (want1 p d a2 args2) as [[j z]|] eqn:ew.
  2:{ exists q. split; auto. split; auto. intros n _. reflexivity. }
  pose proof (q3 _ _ eq_refl) as fr.
  assert (v : vdok a2) by apply ga.
  pose proof (frames_rel _ _ _ _ _ v H fr) as frb.
  specialize (IH q a2 b2 z [] z (r :: C) ga gb H fr eq_refl). cbn [map] in IH.
  destruct (go m1 R vd f a2 z []) as [[y a3]|] eqn:g1, (go m2 R vd f b2 (q z) []) as [[y' b3]|] eqn:g2; auto.
  destruct IH as (q' & H' & ag).
  destruct (go_ok m1 R vd hvd f _ _ [] _ _ _ _ ga fr eq_refl g1) as (-> & _).
  destruct (go_ok m2 R vd hvd f _ _ [] _ _ _ _ gb frb eq_refl g2) as (-> & _).
  exists q'. split; auto. split; auto.
  assert (hz : sreach rt a2 (r :: C) z) by (eapply frames_sreach; eauto).
  rewrite <- map_put. symmetry. apply (agree_map _ _ _ _ _ ag).
  intros n hn. apply put_In in hn. destruct hn as [->|hn]; auto.
  destruct (hsr n hn) as [q0|q0]; auto. congruence.
Qed.

Lemma agree_mono C C' a q q' : incl C C' -> agree C' a q q' -> agree C a q q'.
Proof. intros h ag n hn. apply ag. eapply sreach_mono; eauto. Qed.

Theorem lock_all f : lock f.
Proof.
  induction f as [|f IH]; intros q a b root sp x C ga gb H fr hl; [exact Logic.I|].
  assert (va : vdok a) by apply ga.
  pose proof (frames_reach _ _ _ _ _ va fr) as hrx.
  destruct (lnk_rel _ _ _ _ _ _ _ H hrx hl) as [hlb _].
  pose proof (frames_rel _ _ _ _ _ va H fr) as frb.
  destruct (tick_ok m1 R vd hvd a ga) as (a1 & ta & ga1 & ka & _).
  destruct (tick_ok m2 R vd hvd b gb) as (b1 & tb & gb1 & kb & _).
  pose proof (rel_keeps _ _ _ _ _ _ H ka kb) as H1.
  destruct (keeps_path _ _ _ _ _ _ ka hl hrx) as (hl1 & hc1 & hr1).
  assert (ps1 : pres rt C a a1) by (apply keeps_pres; exact ka).
  assert (fr1 : frames a1 x C) by (eapply frames_pres; eauto).
  assert (va1 : vdok a1) by apply ga1.
  pose proof (frames_reach _ _ _ _ _ va1 fr1) as hrx1.
  destruct (reach_lnk _ _ _ _ _ hl1 hrx1) as [hroot1 hsp1].
  pose proof (r_cell _ _ _ _ _ H1 root hroot1) as hcb.
  assert (back : forall q', agree C a1 q q' -> agree C a q q').
  { intros q' ag n hn. apply ag. eapply pres_sreach; eauto. }
  assert (same : exists q', rel q' [] a1 b1 /\ agree C a q q').
  { exists q. split; auto. intros n _. reflexivity. }
  pose proof (go_S m1 R vd f a root sp) as GA. pose proof (go_S m2 R vd f b (q root) (map q sp)) as GB.
  rewrite ta in GA. rewrite tb in GB. cbn beta iota in GA, GB. rewrite hcb in GB.
  destruct (cell a1 root) as [l0 a0|h t| |p| | | |z|t|t k|] eqn:ec; cbn [mapn] in GB;
    try (rewrite GA, GB; destruct sp; cbn [map]; [exact same|exact Logic.I]).
  - (* an application *)
    rewrite GA, GB.
    assert (hl2 : lnk a1 l0 (root :: sp) x) by (cbn [lnk]; eauto).
    specialize (IH q a1 b1 l0 (root :: sp) x C ga1 gb1 H1 fr1 hl2). cbn [map] in IH.
    destruct (go m1 R vd f a1 l0 (root :: sp)) as [[y a']|],
             (go m2 R vd f b1 (q l0) (q root :: map q sp)) as [[y' b']|]; auto.
    destruct IH as (q' & H' & ag). exists q'. auto.
  - (* a primitive *)
    rewrite map_length in GB.
    destruct (length sp <? arity p) eqn:elt; [rewrite GA, GB; exact same|].
    apply Nat.ltb_ge in elt.
    pose proof hl as hl'. rewrite <- (firstn_skipn (arity p) sp) in hl'. apply lnk_app in hl'.
    destruct hl' as (r & l1 & l2).
    set (sp1 := firstn (arity p) sp) in *. set (rest := skipn (arity p) sp) in *.
    assert (hsplit : sp = sp1 ++ rest) by (symmetry; apply firstn_skipn).
    assert (hfl : length sp1 = arity p) by (apply firstn_length_le; exact elt).
    pose proof (arity_pos p) as ap.
    assert (hnr : nth (arity p - 1) sp 0 = r).
    { rewrite hsplit, app_nth1 by lia. eapply redex_nth; [exact l1|exact hfl|exact ap]. }
    destruct (reach_lnk _ _ _ _ _ l2 hrx) as [hrr _].
    destruct (in_dec Nat.eq_dec r C) as [hin|hnin].
    { (* the redex is being evaluated already *)
      destruct (go m1 R vd (S f) a root sp) as [res|] eqn:ra.
      { exfalso. exact (no_reentry m1 R vd hvd a x C r root sp1 rest p (S f) root sp res
                   ga fr l1 (eq_sym hc1) hfl l2 hl ra hin). }
      destruct (go m2 R vd (S f) b (q root) (map q sp)) as [res|] eqn:rb; auto. exfalso.
      destruct (lnk_rel _ _ _ _ _ _ _ H hrr l1) as [j1 _].
      destruct (lnk_rel _ _ _ _ _ _ _ H hrx l2) as [j2 _].
      refine (no_reentry m2 R vd hvd b (q x) (map q C) (q r) (q root) (map q sp1) (map q rest) p
                (S f) (q root) (map q sp) res gb frb j1 _ _ j2 hlb rb _).
      - rewrite (r_cell _ _ _ _ _ H root), <- hc1; [reflexivity|].
        exact (proj1 (reach_lnk _ _ _ _ _ l1 hrr)).
      - rewrite map_length. exact hfl.
      - apply in_map. exact hin. }
    assert (S0 : spot a x C p root sp1 rest r) by (split; auto).
    destruct (spot_pres _ _ _ _ _ _ _ _ _ _ S0 a1 ga1) as [S1 er1].
    { apply keeps_pres. exact ka. }
    rewrite GA, GB. unfold apply_prim. fold sp1 rest. rewrite !firstn_map, !skipn_map. fold sp1 rest.
    pose proof (spot_rel _ _ _ _ _ _ _ _ _ _ H1 gb1 S1) as S1b.
    pose proof (stage0_rel f q a1 b1 x C p root sp1 rest r IH H1 gb1 S1) as HS0.
    destruct (stage0 m1 R vd f p a1 sp1 (rights a1 sp1)) as [[a2 args2]|] eqn:e0,
             (stage0 m2 R vd f p b1 (map q sp1) (rights b1 (map q sp1))) as [[b2 argsb2]|] eqn:e0b;
      [|destruct HS0|destruct HS0|exact Logic.I].
    destruct HS0 as (q1 & H2 & gb2 & ag1).
    destruct (stage0_ok m1 R vd _ _ _ _ _ _ _ _ _ _ _ (go_ok m1 R vd hvd f) S1 e0) as (S2 & -> & ps2 & w2).
    destruct (stage0_ok m2 R vd _ _ _ _ _ _ _ _ _ _ _ (go_ok m2 R vd hvd f) S1b e0b)
      as (S2b & -> & _ & w2b).
    pose proof (spot_sreach _ _ _ _ _ _ _ _ S1) as (t1 & t2 & t3 & t4).
    assert (mp1 : map q sp1 = map q1 sp1).
    { symmetry. apply (agree_map _ _ _ _ _ ag1). intros n hn. apply t1. right. apply in_or_app. auto. }
    assert (mp2 : map q rest = map q1 rest).
    { symmetry. apply (agree_map _ _ _ _ _ ag1). intros n hn. apply t1. right. apply in_or_app. auto. }
    assert (qr : q r = q1 r) by (symmetry; apply ag1; exact t3).
    pose proof (spot_reach_r _ _ _ _ _ _ _ _ _ _ S2) as hr2.
    destruct (lnk_rel _ _ _ _ _ _ _ H2 hr2 (p_in _ _ _ _ _ _ _ _ _ _ S2)) as [_ el2].
    assert (eargs : rights b2 (map q sp1) = map q1 (rights a2 sp1)) by (rewrite mp1; exact el2).
    rewrite eargs.
    assert (hl2' : length (rights a2 sp1) = arity p) by (rewrite rights_length; exact hfl).
    assert (edec : decide p b2 (map q1 (rights a2 sp1)) = decide p a2 (rights a2 sp1)).
    { eapply decide_rel; [exact H2|lia|]. apply (spot_args _ _ _ _ _ _ _ _ _ _ S2). apply nth_In. lia. }
    rewrite edec. set (d := decide p a2 (rights a2 sp1)).
    assert (emsp : map q sp = map q1 (sp1 ++ rest)) by (rewrite hsplit, !map_app, mp1, mp2; reflexivity).
    pose proof (prune_rel q1 a2 b2 x C p root sp1 rest r H2 gb2 S2) as HP. fold d in HP.
    destruct HP as (a3 & sp3 & args3 & b3 & spb & pa & pb & H3 & ga3 & gb3 & hlen3 & hs3 & har3 & hsr3).
    rewrite hsplit in *. rewrite <- hsplit in hnr.
    rewrite emsp, pa, pb. 
    pose proof (stage1_rel f q1 a2 b2 x C p root sp1 rest r a3 sp3 args3 b3 spb d
                  IH H3 ga3 gb3 S2 w2 eq_refl pa pb hlen3 har3 hsr3) as HS1.
    assert (pb' : prune m2 vd p (decide p b2 (rights b2 (map q sp1))) b2 (map q sp1 ++ map q rest)
                    (rights b2 (map q sp1)) = Some (b3, (spb, map q1 args3))).
    { rewrite eargs, edec, mp1, mp2, <- map_app. exact pb. }
    destruct (stage1 m1 R vd f p d a3 args3) as [[a4 args4]|] eqn:e1,
             (stage1 m2 R vd f p d b3 (map q1 args3)) as [[b4 argsb4]|] eqn:e1b;
      [|destruct HS1|destruct HS1|exact Logic.I].
    destruct HS1 as (q2 & H4 & ag2 & ->).
    destruct (prune_ok m1 R vd hvd _ _ _ _ _ _ _ _ _ _ _ S2 w2 pa) as (ps3 & _).
    destruct (stage1_ok m1 R vd hvd _ _ _ _ _ _ _ _ _ _ _ _ _ _ (go_ok m1 R vd hvd f) S2 w2 pa e1)
      as (ps4 & rd).
    assert (e1b' : stage1 m2 R vd f p (decide p b2 (rights b2 (map q sp1))) b3 (map q1 args3)
                   = Some (b4, map q2 args4)).
    { rewrite eargs, edec. exact e1b. }
    destruct (stage1_ok m2 R vd hvd _ _ _ _ _ _ _ _ _ _ _ _ _ _ (go_ok m2 R vd hvd f) S2b w2b pb' e1b')
      as (_ & rdb).
    assert (qr2 : q2 r = q1 r) by (apply ag2; apply hs3; auto).
    assert (mr2 : map q2 rest = map q1 rest).
    { apply (agree_map _ _ _ _ _ ag2). intros n hn. apply hs3. auto. }
    pose proof rd as [d1 d2 d3 d4 d5 d6 d7 d8 d9 d10 d11].
    pose proof rdb as [f1 f2 f3 f4 f5 f6 f7 f8 f9 f10 f11].
    assert (hrx4 : reach a4 rt x) by (eapply frames_reach; [apply d1|exact d2]).
    destruct (reach_lnk _ _ _ _ _ d3 hrx4) as [hr4 hrest4].
    assert (f4' : q2 r = nth (arity p - 1) spb 0) by (rewrite qr2, <- qr; exact f4).
    pose proof (fire_rel q2 a4 b4 p d root sp3 args4 (q root) spb r H4 d1 f1 hr4 d4 f4' d6 d7 d8 d9) as HF.
    destruct (fire vd p d a4 root sp3 args4) as [[a5 l5]|] eqn:ef,
             (fire vd p d b4 (q root) spb (map q2 args4)) as [[b5 l5b]|] eqn:efb;
      [|destruct HF|destruct HF|exact Logic.I].
    destruct HF as (q3 & H5 & ag3).
    destruct (fire_step m1 R vd hvd _ _ _ _ _ _ _ _ _ _ _ _ rd ef)
      as (a6 & da & ga6 & fr6 & hl6 & ps6 & k6 & _).
    destruct (fire_step m2 R vd hvd _ _ _ _ _ _ _ _ _ _ _ _ rdb efb)
      as (b6 & db & gb6 & _ & _ & _ & k6b & _).
    rewrite da, db. pose proof (rel_keeps _ _ _ _ _ _ H5 k6 k6b) as H6.
    rewrite hsplit in hnr. rewrite hnr.
    assert (hnb : nth (arity p - 1) (map q1 (sp1 ++ rest)) 0 = q3 r).
    { rewrite nth_map by (rewrite app_length; lia). rewrite hnr, <- qr2. symmetry. apply ag3. exact hr4. }
    rewrite hnb.
    assert (mr3 : map q rest = map q3 rest).
    { rewrite mp2, <- mr2. symmetry. apply map_ext_in. intros n hn. apply ag3. apply hrest4. exact hn. }
    rewrite mr3.
    specialize (IH q3 a6 b6 r rest x C ga6 gb6 H6 fr6 hl6).
    destruct (go m1 R vd f a6 r rest) as [[y a7]|], (go m2 R vd f b6 (q3 r) (map q3 rest)) as [[y' b7]|]; auto.
    destruct IH as (q4 & H7 & ag4). exists q4. split; auto. apply back.
    intros n hn.
    pose proof (pres_sreach _ _ _ _ _ ps2 hn) as n2.
    pose proof (pres_sreach _ _ _ _ _ ps3 n2) as n3.
    pose proof (pres_sreach _ _ _ _ _ ps4 n2) as n4.
    pose proof (pres_sreach _ _ _ _ _ ps6 n4) as n6.
    rewrite (ag4 n n6), (ag3 n (sreach_reach _ _ _ _ n4)).
    rewrite (agree_mono _ _ _ _ _ (incl_skip r C) ag2 n n3).
    apply (agree_mono _ _ _ _ _ (incl_skip r C) ag1 n hn).
  - (* a failure is passed up the spine *)
    destruct sp as [|s sp]; [rewrite GA, GB; exact same|]. rewrite GA, GB. cbn [map]. cbn zeta.
    change (q s :: map q sp) with (map q (s :: sp)). rewrite map_last, (lnk_last _ _ _ _ hl1).
    exists q. split; [|intros n _; reflexivity]. apply rel_overwrite; auto.
  - rewrite GA, GB. exact Logic.I.
Qed.

(** ** What can be seen *)

Lemma see_rel q a b d : forall n, rel q [] a b -> reach a rt n -> see d b (q n) = see d a n.
Proof.
  induction d as [|d IH]; intros n H hn; auto. cbn [see].
  rewrite (r_cell _ _ _ _ _ H n hn). destruct (cell a n) eqn:e; cbn [mapn]; auto.
  - rewrite !IH; auto; (eapply reach_kid; [exact hn|]; rewrite e; cbn; auto).
  - rewrite !IH; auto; (eapply reach_kid; [exact hn|]; rewrite e; cbn; auto).
  - rewrite (r_tab _ _ _ _ _ H n _ _ hn e), map_map. f_equal. apply map_ext_in.
    intros m hm. apply IH; auto. eapply reach_tab; eauto.
Qed.

Lemma rel_refl a : rel (fun n => n) [] a a.
Proof.
  split; auto.
  - intros n _. destruct (cell a n); reflexivity.
  - intros n t k _ _. rewrite map_id. reflexivity.
Qed.

Theorem same_result f st1 st2 x :
  good st1 -> good st2 -> cell st2 = cell st1 -> tabs st2 = tabs st1 -> In x rt ->
  match eval m1 R vd f st1 x, eval m2 R vd f st2 x with
  | None, None => True
  | Some (y, a), Some (z, b) =>
      y = x /\ z = x /\ forall r d, In r rt -> see d a r = see d b r
  | _, _ => False
  end.
Proof.
  intros g1 g2 ec et hx.
  assert (H : rel (fun n => n) [] st1 st2).
  { eapply rel_same; [| | | |apply (rel_refl st1)]; auto. }
  pose proof (fr_nil R vd st1 x hx) as fr. pose proof (fr_nil R vd st2 x hx) as fr2.
  pose proof (lock_all f (fun n => n) st1 st2 x [] x [] g1 g2 H fr eq_refl) as Q.
  cbn [map] in Q. unfold eval.
  destruct (go m1 R vd f st1 x []) as [[y a]|] eqn:e1, (go m2 R vd f st2 x []) as [[z b]|] eqn:e2; auto.
  destruct (go_ok m1 R vd hvd f _ _ [] _ _ _ _ g1 fr eq_refl e1) as (-> & _).
  destruct (go_ok m2 R vd hvd f _ _ [] _ _ _ _ g2 fr2 eq_refl e2) as (-> & _).
  destruct Q as (q' & H' & ag). split; auto. split; auto. intros r d hr.
  rewrite <- (see_rel _ _ _ d r H'); [|apply reach_root; exact hr].
  rewrite (r_root _ _ _ _ _ H' r hr). reflexivity.
Qed.

End Machine.
