(** * Evaluation keeps the store sound, whenever collections happen *)

From Coq Require Import List Bool Arith NArith ZArith Lia Permutation.
Import ListNotations.
From Verif Require Import RcModel RcSpec RcInv RcDec RcGc RcWalk RcFire RcLoop.

Lemma nth_last (s t : list addr) : forall d e, nth (length s) (d :: s ++ t) e = last s d.
Proof.
  induction s as [|a s IH]; intros d e; auto.
  change (nth (length s) (a :: s ++ t) e = last (a :: s) d). rewrite IH, last_cons. reflexivity.
Qed.

Lemma redex_cell st root sp r n : lnk st root sp r -> length sp = n -> 1 <= n ->
  forall t, cell st r = App (prev root (sp ++ t) n) (nth (n - 1) (rights st sp) 0).
Proof.
  intros h e hn t. destruct sp as [|s sp _] using rev_ind; [cbn in e; lia|].
  rewrite app_length in e. cbn in e. apply lnk_snoc in h. destruct h as (-> & l & a & ec & h).
  replace (n - 1) with (length sp) by lia. unfold prev.
  replace (n - 1) with (length sp) by lia.
  rewrite <- app_assoc, nth_last, (lnk_last _ _ _ _ h).
  rewrite rights_app, app_nth2 by (rewrite rights_length; lia).
  rewrite rights_length, Nat.sub_diag. cbn. rewrite ec. reflexivity.
Qed.

Section Machine.
Variable mm : bool.
Variable R : list (addr * bool).
Variable vd : addr.
Hypothesis hvd : In (vd, true) R.

Notation rt := (rts R).
Notation good := (good R vd).
Notation vdok := (vdok vd).
Notation waits := (waits vd).
Notation frames := (frames R vd).

(** The evaluation of [x] has come to the application [r] of [p]. *)
Record spot st x C p root sp rest r : Prop := {
  p_good : good st;
  p_frames : frames st x C;
  p_in : lnk st root sp r;
  p_out : lnk st r rest x;
  p_prim : cell st root = Prim p;
  p_len : length sp = arity p;
  p_new : ~ In r C
}.

(** All that [p] needs is there; [r] can be overwritten. *)
Record ready st x C p root sp rest r args : Prop := {
  d_good : good st;
  d_frames : frames st x C;
  d_out : lnk st r rest x;
  d_nth : r = nth (arity p - 1) sp 0;
  d_cell : cell st r = App (prev root sp (arity p)) (nth (arity p - 1) args 0);
  d_args : forall a, In a args -> reach st rt a;
  d_len : arity p <= length args;
  d_two : forall h t, p = pHEAD \/ p = pTAIL -> cell st (nth 0 args 0) = Cons h t ->
                      2 <= length args;
  d_rule : rule p <> None -> length args = arity p;
  d_unsafe : ~ safe st C r;
  d_fresh : ~ In r rest
}.

Section Spot.
Variables (st : store) (x : addr) (C : list addr) (p : prim) (root : addr)
          (sp rest : list addr) (r : addr).
Hypothesis H : spot st x C p root sp rest r.

Lemma spot_reach_x : reach st rt x.
Proof. eapply frames_reach; eauto. - apply (p_good _ _ _ _ _ _ _ _ H).
  - apply (p_frames _ _ _ _ _ _ _ _ H). Qed.

Lemma spot_reach_r : reach st rt r.
Proof. exact (proj1 (reach_lnk _ _ _ _ _ (p_out _ _ _ _ _ _ _ _ H) spot_reach_x)). Qed.

Lemma spot_nth t : nth (arity p - 1) (sp ++ t) 0 = r.
Proof.
  pose proof (arity_pos p). rewrite app_nth1 by (rewrite (p_len _ _ _ _ _ _ _ _ H); lia).
  eapply redex_nth; [exact (p_in _ _ _ _ _ _ _ _ H)|exact (p_len _ _ _ _ _ _ _ _ H)|lia].
Qed.

Lemma spot_napp : is_app (cell st root) = false.
Proof. rewrite (p_prim _ _ _ _ _ _ _ _ H). reflexivity. Qed.

Lemma spot_unsafe : ~ safe st C r.
Proof.
  intros (root' & sp' & h & ok).
  destruct (unw_det _ _ _ _ _ _ (p_in _ _ _ _ _ _ _ _ H) h spot_napp (okhead_napp _ _ _ ok))
    as [<- <-].
  rewrite (p_prim _ _ _ _ _ _ _ _ H) in ok. cbn in ok.
  pose proof (spot_nth []) as e. rewrite app_nil_r in e.
  destruct ok as [ok|ok].
  - rewrite (p_len _ _ _ _ _ _ _ _ H) in ok. lia.
  - rewrite e in ok. apply (p_new _ _ _ _ _ _ _ _ H). exact ok.
Qed.

Lemma spot_fresh : ~ In r rest.
Proof.
  eapply lnk_fresh; [exact (p_in _ _ _ _ _ _ _ _ H)|exact spot_napp|exact (p_out _ _ _ _ _ _ _ _ H)].
Qed.

Lemma spot_args a : In a (rights st sp) -> reach st rt a.
Proof.
  apply reach_right with (root := root) (x := r); [exact (p_in _ _ _ _ _ _ _ _ H)|].
  exact spot_reach_r.
Qed.

Lemma spot_cell t : cell st r = App (prev root (sp ++ t) (arity p))
                                    (nth (arity p - 1) (rights st sp) 0).
Proof.
  apply redex_cell; [exact (p_in _ _ _ _ _ _ _ _ H)|exact (p_len _ _ _ _ _ _ _ _ H)|apply arity_pos].
Qed.

Lemma spot_wait0 i : want0 p = Some i -> frames st (nth i (rights st sp) 0) (r :: C).
Proof.
  intros h. destruct H. eapply fr_cons; eauto. eapply w0; eauto.
Qed.

Lemma spot_pres st' : good st' -> pres rt (r :: C) st st' ->
  spot st' x C p root sp rest r /\ rights st' sp = rights st sp.
Proof.
  intros g ps. destruct H as [h1 h2 h3 h4 h5 h6 h7].
  assert (v : vdok st) by apply h1.
  assert (hs : sreach rt st (r :: C) x).
  { eapply sreach_mono; [|eapply frames_sreach; eauto]. intros m hm. right. exact hm. }
  assert (hl : lnk st root (sp ++ rest) x) by (apply lnk_app; eauto).
  assert (ok : okhead (r :: C) (cell st root) (sp ++ rest)).
  { rewrite h5. right. left. rewrite spot_nth. reflexivity. }
  destruct (safe_path _ _ _ _ _ _ hl ok hs) as (a1 & a2 & a3).
  assert (he : forall s, In s (sp ++ rest) -> cell st' s = cell st s).
  { intros s hi. destruct (a3 s hi). apply ps; auto. }
  split; [split; auto|].
  - eapply frames_pres; eauto. eapply pres_mono; [|exact ps]. intros m hm. right. exact hm.
  - eapply lnk_ext; [|exact h3]. intros s hi. apply he, in_or_app. auto.
  - eapply lnk_ext; [|exact h4]. intros s hi. apply he, in_or_app. auto.
  - rewrite ps; auto.
  - apply rights_ext. intros s hi. apply he, in_or_app. auto.
Qed.

Lemma spot_ready t args :
  args = rights st sp ->
  (forall h k, p = pHEAD \/ p = pTAIL -> cell st (nth 0 args 0) = Cons h k -> False) ->
  ready st x C p root (sp ++ t) rest r args.
Proof.
  intros -> hh. split.
  - apply (p_good _ _ _ _ _ _ _ _ H).
  - apply (p_frames _ _ _ _ _ _ _ _ H).
  - apply (p_out _ _ _ _ _ _ _ _ H).
  - symmetry. apply spot_nth.
  - apply spot_cell.
  - apply spot_args.
  - rewrite rights_length, (p_len _ _ _ _ _ _ _ _ H). auto.
  - intros h k h1 h2. exfalso. eauto.
  - intros _. rewrite rights_length. apply (p_len _ _ _ _ _ _ _ _ H).
  - apply spot_unsafe.
  - apply spot_fresh.
Qed.

End Spot.

(** What one evaluation guarantees. *)
Definition ok_go (f : nat) : Prop := forall st root sp x C y st',
  good st -> frames st x C -> lnk st root sp x ->
  go mm R vd f st root sp = Some (y, st') ->
  y = x /\ good st' /\ pres rt C st st' /\ whnf st' x.

Lemma incl_skip (r : addr) C : incl C (r :: C).
Proof. intros m hm. right. exact hm. Qed.

(** ** The first operand *)

Definition stage0 f p st (sp args : list addr) : option (store * list addr) :=
  match want0 p with
  | None => Some (st, args)
  | Some i =>
      match go mm R vd f st (nth i args 0) [] with
      | None => None
      | Some (y, st) =>
          let args := if late p then rights st sp else args in Some (st, put i y args)
      end
  end.

Lemma stage0_ok f st x C p root sp rest r st1 args1 :
  ok_go f -> spot st x C p root sp rest r ->
  stage0 f p st sp (rights st sp) = Some (st1, args1) ->
  spot st1 x C p root sp rest r /\ args1 = rights st1 sp /\ pres rt C st st1 /\
  (forall i, want0 p = Some i -> whnf st1 (nth i args1 0)).
Proof.
  intros ok H e. unfold stage0 in e. destruct (want0 p) as [i|] eqn:ew.
  - destruct (go mm R vd f st (nth i (rights st sp) 0) []) as [[y st2]|] eqn:eg; [|discriminate].
    injection e as <- <-.
    destruct (ok _ (nth i (rights st sp) 0) [] _ (r :: C) _ _ (p_good _ _ _ _ _ _ _ _ H) (spot_wait0 _ _ _ _ _ _ _ _ H i ew)
                eq_refl eg) as (-> & g & ps & w).
    destruct (spot_pres _ _ _ _ _ _ _ _ H _ g ps) as [H1 er].
    assert (hi : i < length (rights st sp)).
    { rewrite rights_length, (p_len _ _ _ _ _ _ _ _ H). apply want0_lt. exact ew. }
    assert (ea : put i (nth i (rights st sp) 0) (if late p then rights st2 sp else rights st sp)
                 = rights st2 sp).
    { rewrite er. destruct (late p); apply (put_id i _ _ 0); auto. }
    split; auto. split; auto. split.
    + eapply pres_mono; [apply incl_skip|exact ps].
    + intros j hj. injection hj as <-. rewrite ea, er. exact w.
  - injection e as <- <-. split; auto. split; auto. split; [apply pres_refl|]. discriminate.
Qed.

(** ** The branch that is cut off *)

Lemma down_one st n st' : down_all mm st [n] = Some st' <-> down mm st n = Some st'.
Proof. cbn [down_all]. destruct (down mm st n); split; auto. Qed.

(** Storing in an application that is not safe, and counting down what it held. *)
Lemma cut_ok st x C r rest c old :
  good st -> frames st x C -> lnk st r rest x -> ~ safe st C r -> ~ In r rest ->
  (exists l a, cell st r = App l a /\
     ((old = a /\ c = App l vd) \/ (old = l /\ c = App vd a))) ->
  exists st1, down mm (set_cell st r c) old = Some st1 /\
  good st1 /\ frames st1 x C /\ lnk st1 r rest x /\ pres rt C st st1 /\ cell st1 r = c /\
  keeps rt (set_cell st r c) st1 /\ reach (set_cell st r c) rt x.
Proof.
  intros [(L & I0) [v1 v2]] fr hl us nf (l & a & ec & hc).
  assert (v0 : vdok st) by (split; auto).
  assert (hrx : reach st rt x) by (eapply frames_reach; [exact v0|exact fr]).
  assert (hrr : reach st rt r) by exact (proj1 (reach_lnk _ _ _ _ _ hl hrx)).
  assert (hrL : In r L) by (eapply inv_reach; eauto).
  assert (hvL : In vd L) by (apply (inv_root _ _ _ _ _ I0); apply vd_root; exact hvd).
  assert (hlL : In l L) by (apply (inv_kid _ _ _ _ _ I0 r l hrL); rewrite ec; left; reflexivity).
  assert (haL : In a L) by (apply (inv_kid _ _ _ _ _ I0 r a hrL); rewrite ec; right; left; reflexivity).
  assert (hvr : vd <> r) by (intros ->; congruence).
  assert (I1 : inv (set_cell st r c) L [] (old :: rt) []).
  { assert (q : inv (set_cell st r c) L [] (kids (cell st r) ++ rt) (kids c ++ [])).
    { apply inv_set; auto.
      - destruct hc as [[_ ->]|[_ ->]]; discriminate.
      - destruct hc as [[_ ->]|[_ ->]]; cbn; intuition congruence.
      - intros b k z. destruct hc as [[_ ->]|[_ ->]]; discriminate. }
    rewrite ec in q. destruct hc as [[-> ->]|[-> ->]]; cbn [kids app] in q.
    - apply (inv_cancel _ _ _ [l]). cbn [app].
      apply (inv_sat _ _ _ vd); [exact v1|].
      eapply inv_perm; [apply Permutation_refl| |exact q]. apply perm_swap.
    - apply (inv_cancel _ _ _ [a]). cbn [app]. apply (inv_sat _ _ _ vd); [exact v1|].
      eapply inv_perm; [apply perm_swap| |exact q]. apply Permutation_refl. }
  assert (v' : vdok (set_cell st r c)).
  { split; auto. cbn. rewrite upd_other; auto. }
  destruct (down_all_ok mm R vd hvd [old] (set_cell st r c) L I1 v') as (st1 & e & g & k & _).
  apply down_one in e. exists st1. split; [exact e|].
  assert (ps : pres rt C st (set_cell st r c)).
  { intros n h1 h2. apply upd_other. intros ->. contradiction. }
  assert (fr' : frames (set_cell st r c) x C) by (eapply frames_pres; [exact v0|exact fr|exact ps]).
  assert (hrx' : reach (set_cell st r c) rt x) by (eapply frames_reach; eauto).
  assert (hl' : lnk (set_cell st r c) r rest x).
  { eapply lnk_ext; [|exact hl]. intros s hs. apply upd_other. intros ->. contradiction. }
  assert (ps1 : pres rt C st st1).
  { eapply pres_trans; [exact ps|]. apply keeps_pres. exact k. }
  split; auto. split; [eapply frames_pres; [exact v0|exact fr|exact ps1]|].
  split; [exact (proj1 (keeps_path _ _ _ _ _ _ k hl' hrx'))|]. split; auto.
  split.
  - rewrite (proj2 k).
    + apply upd_same.
    + exact (proj1 (reach_lnk _ _ _ _ _ hl' hrx')).
  - split; auto.
Qed.

Lemma prune_ok st x C p root sp rest r st2 sp2 args2 :
  spot st x C p root sp rest r ->
  (forall i, want0 p = Some i -> whnf st (nth i (rights st sp) 0)) ->
  prune mm vd p (decide p st (rights st sp)) st (sp ++ rest) (rights st sp) = Some (st2, (sp2, args2)) ->
  pres rt C st st2 /\ length args2 = arity p /\
  (forall j z, want1 p (decide p st (rights st sp)) st2 args2 = Some (j, z) ->
     frames st2 z (r :: C)) /\
  ((forall h k, p = pHEAD \/ p = pTAIL -> cell st2 (nth 0 args2 0) = Cons h k -> False) ->
   ready st2 x C p root sp2 rest r args2) /\
  (p <> pCOND \/ decide p st (rights st sp) = None -> st2 = st /\ sp2 = sp ++ rest /\ args2 = rights st sp) /\
  (p = pCOND -> forall b, decide p st (rights st sp) = Some b ->
     args2 = (if b then put 2 vd (rights st sp) else put 0 vd (put 1 vd (rights st sp)))) /\
  (~ (p = pCOND /\ decide p st (rights st sp) = Some false) ->
   spot st2 x C p root sp rest r /\ args2 = rights st2 sp /\ sp2 = sp ++ rest).
Proof.
  intros H hw e.
  assert (hlen : length (rights st sp) = arity p)
    by (rewrite rights_length; apply (p_len _ _ _ _ _ _ _ _ H)).
  assert (idc : st2 = st -> sp2 = sp ++ rest -> args2 = rights st sp ->
    pres rt C st st2 /\ length args2 = arity p /\
    ((p = pCOND -> decide p st (rights st sp) = None) ->
     forall j z, want1 p (decide p st (rights st sp)) st2 args2 = Some (j, z) ->
     frames st2 z (r :: C)) /\
    ((forall h k, p = pHEAD \/ p = pTAIL -> cell st2 (nth 0 args2 0) = Cons h k -> False) ->
     ready st2 x C p root sp2 rest r args2)).
  { intros -> -> ->. split; [apply pres_refl|]. split; auto. split.
    - intros hd j z e1. destruct H. eapply fr_cons; eauto.
      assert (h0 : want0 p = Some 0).
      { pose proof (want1_arg _ _ _ _ _ _ e1) as q. destruct q as [(q & _)|(_ & q & _)]; exact q. }
      eapply w1; eauto. intros ->. specialize (hd eq_refl). rewrite hd in e1. discriminate.
    - apply spot_ready; auto. }
  destruct (match p with pCOND => true | _ => false end) eqn:ep.
  2:{ assert (hp : p <> pCOND) by (intros ->; discriminate).
      rewrite prune_other in e by exact hp. injection e as <- <- <-.
      destruct (idc eq_refl eq_refl eq_refl) as (i1 & i2 & i3 & i4).
      split; auto. split; auto. split; [apply i3; intros; contradiction|]. split; auto.
      split; auto. split; [intros; contradiction|]. auto. }
  destruct p; try discriminate. clear ep. unfold prune in e.
  destruct (decide pCOND st (rights st sp)) as [b|] eqn:ed.
  2:{ injection e as <- <- <-. destruct (idc eq_refl eq_refl eq_refl) as (i1 & i2 & i3 & i4).
      split; auto. split; auto. split; [apply i3; auto|]. split; auto. split; auto.
      split; [discriminate|]. auto. }
  assert (hcb : cell st (nth 0 (rights st sp) 0) = Bool b).
  { unfold decide in ed. destruct (cell st (nth 0 (rights st sp) 0)); try discriminate. congruence. }
  pose proof (spot_nth _ _ _ _ _ _ _ _ H rest) as hn. cbn [arity] in hn. change (3 - 1) with 2 in hn.
  pose proof (spot_cell _ _ _ _ _ _ _ _ H []) as hcell.
  pose proof H as [h1 h2 h3 h4 h5 h6 h7]. cbn [arity] in h6, hlen, hcell.
  destruct sp as [|s0 [|s1 [|s2 [|? ?]]]]; try discriminate.
  cbn [app nth] in hn. subst s2.
  cbn [app nth put firstn skipn] in e.
  destruct h3 as ((a0 & c0) & (a1 & c1) & (a2 & c2) & _).
  assert (er : rights st [s0; s1; r] = [a0; a1; a2]).
  { unfold rights. cbn [map]. rewrite c0, c1, c2. reflexivity. }
  rewrite er in *. cbn [nth] in *. rewrite c2 in e. cbn [left_of right_of] in e.
  pose proof (spot_unsafe _ _ _ _ _ _ _ _ H) as us. pose proof (spot_fresh _ _ _ _ _ _ _ _ H) as nf.
  assert (hvr : vd <> r).
  { intros ->. destruct h1 as [_ [_ q]]. congruence. }
  destruct b.
  - (* the condition is true *)
    destruct (cut_ok st x C r rest (App s1 vd) a2 h1 h2 h4 us nf)
      as (st1 & edn & g & f & l & ps & cr & k & hx').
    { exists s1, a2. split; auto. }
    rewrite edn in e. injection e as <- <- <-.
    set (st0 := set_cell st r (App s1 vd)) in *.
    assert (hxx : forall m, m <> r -> cell st0 m = cell st m) by (intros m hm; apply upd_other; exact hm).
    assert (hrr : reach st0 rt r).
    { assert (l0 : lnk st0 r rest x).
      { eapply lnk_ext; [|exact h4]. intros s hs. apply hxx. intros ->. contradiction. }
      exact (proj1 (reach_lnk _ _ _ _ _ l0 hx')). }
    assert (np : is_app (cell st root) = false) by (rewrite h5; reflexivity).
    assert (ne0 : s0 <> r).
    { intros ->. assert (z : root = root /\ [r] = [r; s1; r]); [|destruct z; discriminate].
      apply (unw_det st [r] root r root [r; s1; r]); auto; cbn; eauto 8. }
    assert (ne1 : s1 <> r).
    { intros ->. assert (z : root = root /\ [s0; r] = [s0; r; r]); [|destruct z; discriminate].
      apply (unw_det st [s0; r] root r root [s0; r; r]); auto; cbn; eauto 8. }
    assert (l0 : lnk st0 root [s0; s1; r] r).
    { cbn [lnk]. rewrite (hxx s0 ne0), (hxx s1 ne1). split; eauto. split; eauto. split; auto.
      exists vd. apply upd_same. }
    destruct (keeps_path _ _ _ _ _ _ k l0 hrr) as (l1 & l2 & l3).
    assert (nroot : root <> r) by (intros ->; congruence).
    assert (er0 : rights st0 [s0; s1; r] = [a0; a1; vd]).
    { unfold rights. cbn [map]. rewrite (hxx s0 ne0), (hxx s1 ne1), c0, c1.
      unfold st0. cbn [cell set_cell]. rewrite upd_same. reflexivity. }
    assert (H2 : spot st1 x C pCOND root [s0; s1; r] rest r).
    { split; auto. rewrite l2, hxx by exact nroot. exact h5. }
    assert (er1 : rights st1 [s0; s1; r] = [a0; a1; vd]) by (rewrite l3; exact er0).
    assert (na : a0 <> r) by (intros ->; congruence).
    assert (ra0 : reach st0 rt a0).
    { eapply reach_right; [exact l0|exact hrr|]. rewrite er0. left. reflexivity. }
    assert (hcb1 : cell st1 a0 = Bool true) by (rewrite (proj2 k a0 ra0), hxx by exact na; exact hcb).
    split; [exact ps|]. split; [reflexivity|]. split; [|split; [|split; [|split]]].
    + intros j z ej. cbn in ej. injection ej as <- <-.
      eapply fr_cons; [exact f|].
      eapply w1 with (p := pCOND) (i := 0) (j := 1); eauto; try rewrite er1; cbn [nth].
      * apply (p_prim _ _ _ _ _ _ _ _ H2).
      * exists a0, []. rewrite hcb1. cbn. auto.
      * intros _. split; auto.
      * unfold decide. cbn [nth]. rewrite hcb1. reflexivity.
    + intros hh. apply (spot_ready st1 x C pCOND root [s0; s1; r] rest r H2 rest). 
      * symmetry. exact er1.
      * exact hh.
    + intros [q|q]; [contradiction|discriminate].
    + intros _ b q. injection q as <-. reflexivity.
    + intros _. split; auto.
  - (* the condition is false *)
    destruct (cut_ok st x C r rest (App vd a2) s1 h1 h2 h4 us nf)
      as (st1 & edn & g & f & l & ps & cr & k & hx').
    { exists s1, a2. split; auto. }
    rewrite edn in e. injection e as <- <- <-.
    assert (hrx : reach st1 rt x) by (eapply frames_reach; [apply g|exact f]).
    assert (hrr : reach st1 rt r) by exact (proj1 (reach_lnk _ _ _ _ _ l hrx)).
    assert (hra : reach st1 rt a2).
    { eapply reach_kid; [exact hrr|]. rewrite cr. right. left. reflexivity. }
    split; [exact ps|]. split; [reflexivity|]. split; [|split; [|split; [|split]]].
    + intros j z ej. cbn in ej. injection ej as <- <-.
      eapply fr_cons; [exact f|]. eapply wst; eauto.
    + intros hh. split; auto.
      * cbn. intros a [<-|[<-|[<-|[]]]]; auto; apply reach_root; apply vd_root; exact hvd.
      * intros h t [q|q]; discriminate.
      * intros (root' & sp' & q1 & q2). destruct g as [_ [_ gv]].
        assert (q3 : lnk st1 vd [r] r) by (cbn; eauto).
        assert (q4 : is_app (cell st1 vd) = false) by (rewrite gv; reflexivity).
        destruct (unw_det _ _ _ _ _ _ q3 q1 q4 (okhead_napp _ _ _ q2)) as [<- <-].
        rewrite gv in q2. cbn in q2. destruct q2 as [q2|q2]; [discriminate|contradiction].
    + intros [q|q]; [contradiction|discriminate].
    + intros _ b q. injection q as <-. reflexivity.
    + intros q. exfalso. apply q. auto.
Qed.

(** ** The second operand *)

Definition stage1 f p d st (args : list addr) : option (store * list addr) :=
  match want1 p d st args with
  | None => Some (st, args)
  | Some (i, y) =>
      match go mm R vd f st y [] with
      | None => None
      | Some (y, st) => Some (st, put i y args)
      end
  end.

Lemma want1_head p d st (args : list addr) :
  p = pHEAD \/ p = pTAIL -> forall h t, cell st (nth 0 args 0) = Cons h t ->
  exists z, want1 p d st args = Some (1, z).
Proof. intros [-> | ->] h t e; cbn [want1]; rewrite e; eauto. Qed.

Lemma stage1_ok f st x C p root sp rest r st2 sp2 args2 st3 args3 :
  ok_go f -> spot st x C p root sp rest r ->
  (forall i, want0 p = Some i -> whnf st (nth i (rights st sp) 0)) ->
  prune mm vd p (decide p st (rights st sp)) st (sp ++ rest) (rights st sp) = Some (st2, (sp2, args2)) ->
  stage1 f p (decide p st (rights st sp)) st2 args2 = Some (st3, args3) ->
  pres rt C st st3 /\ ready st3 x C p root sp2 rest r args3.
Proof.
  intros ok H hw ep es. set (d := decide p st (rights st sp)) in *.
  destruct (prune_ok _ _ _ _ _ _ _ _ _ _ _ H hw ep) as (q1 & q2 & q3 & q4 & q5 & q6 & q7).
  fold d in q3, q5, q6, q7. unfold stage1 in es.
  destruct (want1 p d st2 args2) as [[j z]|] eqn:ew.
  2:{ injection es as <- <-. split; auto. apply q4. intros h k hp hc.
      destruct (want1_head p d st2 args2 hp h k hc) as (z & e). congruence. }
  destruct (go mm R vd f st2 z []) as [[y st3']|] eqn:eg; [|discriminate].
  injection es as <- <-. pose proof (q3 _ _ eq_refl) as fr.
  destruct (match p with pHEAD | pTAIL => true | _ => false end) eqn:eht.
  - (* the head or the tail of a list *)
    assert (hp : p = pHEAD \/ p = pTAIL) by (destruct p; try discriminate; auto).
    destruct q5 as (-> & -> & ->); [left; destruct hp; subst p; discriminate|].
    destruct (ok st z [] z (r :: C) _ _ (p_good _ _ _ _ _ _ _ _ H) fr eq_refl eg) as (-> & g & ps & w).
    destruct (spot_pres _ _ _ _ _ _ _ _ H _ g ps) as [H1 er].
    split; [eapply pres_mono; [apply incl_skip|exact ps]|].
    assert (h0 : want0 p = Some 0) by (destruct hp; subst p; reflexivity).
    assert (ar1 : arity p = 1) by (destruct hp; subst p; reflexivity).
    pose proof (want1_arg _ _ _ _ _ _ ew) as q. destruct q as [(_ & _ & b1 & b2)|(_ & _ & -> & hz & _)].
    { lia. }
    assert (ea : exists a, rights st sp = [a]).
    { assert (hl : length (rights st sp) = 1) by (rewrite rights_length, (p_len _ _ _ _ _ _ _ _ H); exact ar1).
      destruct (rights st sp) as [|a [|? ?]]; try discriminate. eauto. }
    destruct ea as (a & ea). rewrite ea in *. cbn [put firstn skipn app nth] in *.
    assert (hzr : reach st3' rt z).
    { eapply frames_reach; [apply g|]. eapply frames_pres; [apply H|exact fr|exact ps]. }
    split.
    + exact g.
    + apply (p_frames _ _ _ _ _ _ _ _ H1).
    + apply (p_out _ _ _ _ _ _ _ _ H1).
    + symmetry. apply (spot_nth _ _ _ _ _ _ _ _ H1).
    + rewrite (spot_cell _ _ _ _ _ _ _ _ H1 rest). rewrite er, ar1. reflexivity.
    + intros b [<-|[<-|[]]]; auto. apply (spot_args _ _ _ _ _ _ _ _ H1). rewrite er. left. reflexivity.
    + rewrite ar1. cbn. lia.
    + intros. cbn. lia.
    + intros q. destruct hp; subst p; destruct q; reflexivity.
    + apply (spot_unsafe _ _ _ _ _ _ _ _ H1).
    + apply (spot_fresh _ _ _ _ _ _ _ _ H1).
  - assert (nh : forall h k, p = pHEAD \/ p = pTAIL -> cell st2 (nth 0 args2 0) = Cons h k -> False).
    { intros h k [-> | ->]; discriminate. }
    pose proof (q4 nh) as rd. clear q4.
    assert (g2 : good st2) by apply (d_good _ _ _ _ _ _ _ _ _ rd).
    destruct (ok st2 z [] z (r :: C) _ _ g2 fr eq_refl eg) as (-> & g & ps & w).
    pose proof (want1_arg _ _ _ _ _ _ ew) as q.
    destruct q as [(_ & ez & b1 & b2)|([-> | ->] & _)]; [|discriminate|discriminate].
    assert (hj : j < length args2) by (rewrite q2; exact b1).
    assert (ea : put j z args2 = args2) by (apply (put_id j z args2 0); auto).
    rewrite ea.
    assert (ps' : pres rt C st2 st3') by (eapply pres_mono; [apply incl_skip|exact ps]).
    split; [eapply pres_trans; eauto|].
    assert (v2 : vdok st2) by apply g2.
    pose proof rd as [e1 e2 e3 e4 e5 e6 e7 e8 e9 e10 e11].
    assert (fr3 : frames st3' x C) by (eapply frames_pres; eauto).
    assert (hcond : p = pCOND /\ d = Some false \/ ~ (p = pCOND /\ d = Some false)).
    { destruct p; try (right; intros [? ?]; discriminate).
      destruct d as [[|]|]; try (right; intros [_ ?]; discriminate). left. auto. }
    destruct hcond as [[-> ed]|nc].
    + (* the redex is cut *)
      pose proof (q6 eq_refl _ ed) as ea2. rewrite ed in ew. cbn in ew. injection ew as <- _.
      assert (hlr : length (rights st sp) = 3) by (rewrite rights_length; apply (p_len _ _ _ _ _ _ _ _ H)).
      destruct (rights st sp) as [|a0 [|a1 [|a2 [|? ?]]]]; try discriminate.
      cbn [put firstn skipn app] in ea2. subst args2. cbn [nth] in ez. subst z.
      unfold d in ed. fold d in ed.
      (* the state of the redex *)
      assert (ecr : cell st2 r = App vd a2).
      { assert (hls : 1 < length (sp ++ rest)).
        { rewrite app_length, (p_len _ _ _ _ _ _ _ _ H). cbn. lia. }
        clear - ep ed e5 hvd hls. rewrite e5. cbn [arity]. unfold prev.
        change (3 - 1) with 2. cbn [nth]. f_equal.
        unfold prune in ep. rewrite ed in ep.
        destruct (down _ _ _); [|discriminate]. injection ep as _ <-.
        apply put_same. exact hls. }
      assert (hx2 : reach st2 rt x) by (eapply frames_reach; eauto).
      assert (hs : sreach rt st2 (r :: C) x).
      { eapply sreach_mono; [apply incl_skip|]. eapply frames_sreach; eauto. }
      assert (hl : lnk st2 vd (r :: rest) x) by (cbn; eauto).
      assert (okh : okhead (r :: C) (cell st2 vd) (r :: rest)).
      { destruct v2 as [_ v2]. rewrite v2. right. left. reflexivity. }
      destruct (safe_path _ _ _ _ _ _ hl okh hs) as (_ & _ & a3).
      assert (he : forall s, In s (r :: rest) -> cell st3' s = cell st2 s).
      { intros s hi. destruct (a3 s hi). apply ps; auto. }
      assert (ecr3 : cell st3' r = App vd a2) by (rewrite he; [exact ecr|left; reflexivity]).
      assert (hl3 : lnk st3' r rest x).
      { eapply lnk_ext; [|exact e3]. intros s hi. apply he. right. exact hi. }
      assert (hx3 : reach st3' rt x) by (eapply frames_reach; [apply g|exact fr3]).
      split; auto.
      * rewrite ecr3, <- ecr. exact e5.
      * intros b [<-|[<-|[<-|[]]]]; try (apply reach_root; apply vd_root; exact hvd).
        eapply reach_kid; [exact (proj1 (reach_lnk _ _ _ _ _ hl3 hx3))|].
        rewrite ecr3. right. left. reflexivity.
      * intros h t [q|q]; discriminate.
      * intros (root' & sp' & u1 & u2). destruct g as [_ [_ gv]].
        assert (u3 : lnk st3' vd [r] r) by (cbn; eauto).
        assert (u4 : is_app (cell st3' vd) = false) by (rewrite gv; reflexivity).
        destruct (unw_det _ _ _ _ _ _ u3 u1 u4 (okhead_napp _ _ _ u2)) as [<- <-].
        rewrite gv in u2. cbn in u2. destruct u2 as [u2|u2]; [discriminate|].
        apply (p_new _ _ _ _ _ _ _ _ H). exact u2.
    + (* the spine is still there *)
      pose proof (q7 nc) as H2.
      destruct H2 as (H2 & -> & ->).
      destruct (spot_pres _ _ _ _ _ _ _ _ H2 _ g ps) as [H3 er].
      rewrite <- er. apply spot_ready; auto.
      intros h k [-> | ->]; discriminate.
Qed.

(** ** The redex is overwritten *)

Lemma fire_step st x C p d root sp rest r args st' l :
  ready st x C p root sp rest r args ->
  fire vd p d st root sp args = Some (st', l) ->
  exists st4, down_all mm st' l = Some st4 /\ good st4 /\ frames st4 x C /\
    lnk st4 r rest x /\ pres rt C st st4 /\ keeps rt st' st4 /\ gcs st4 = gcs st'.
Proof.
  intros [h1 h2 h3 h4 h5 h6 h7 h8 h9 h10 h11] e.
  pose proof h1 as [(L & I0) [v1 v2]].
  assert (hrx : reach st rt x) by (eapply frames_reach; [apply h1|exact h2]).
  assert (hvL : In vd L) by (apply (inv_root _ _ _ _ _ I0); apply vd_root; exact hvd).
  assert (hrL : In r L).
  { eapply inv_reach; eauto. exact (proj1 (reach_lnk _ _ _ _ _ h3 hrx)). }
  assert (haL : incl args L).
  { intros a ha. eapply inv_reach; eauto. }
  destruct (fire_ok vd p d st L rt root sp args st' l r I0 hvL v1 hrL h4 h5 haL h7 h8 h9 e)
    as (L' & I1 & hi & hc & hs).
  assert (hvr : vd <> r) by (intros ->; congruence).
  assert (v' : vdok st') by (split; [auto|rewrite hc; auto]).
  destruct (down_all_ok mm R vd hvd l st' L' I1 v') as (st4 & ed & g & k & eg).
  assert (ps : pres rt C st st').
  { intros n q1 q2. apply hc.
    - eapply inv_reach; eauto. eapply sreach_reach; eauto.
    - intros ->. contradiction. }
  assert (ps4 : pres rt C st st4).
  { eapply pres_trans; [exact ps|]. apply keeps_pres. exact k. }
  assert (fr' : frames st' x C) by (eapply frames_pres; [apply h1|exact h2|exact ps]).
  exists st4. split; auto. split; auto.
  split; [eapply frames_pres; [apply h1|exact h2|exact ps4]|].
  split; [|auto].
  assert (hl' : lnk st' r rest x).
  { eapply lnk_ext; [|exact h3]. intros s hi'. apply hc.
    - eapply inv_reach; eauto. apply (reach_lnk _ _ _ _ _ h3 hrx). exact hi'.
    - intros ->. contradiction. }
  apply (keeps_path _ _ _ _ _ _ k hl'). eapply frames_reach; [exact v'|exact fr'].
Qed.

(** The body of [go] at a primitive with enough arguments. *)
Definition apply_prim f p st root (sp : list addr) : option (addr * store) :=
  match stage0 f p st (firstn (arity p) sp) (rights st (firstn (arity p) sp)) with
  | None => None
  | Some (st, args) =>
      let d := decide p st args in
      match prune mm vd p d st sp args with
      | None => None
      | Some (st, (sp1, args)) =>
          match stage1 f p d st args with
          | None => None
          | Some (st, args) =>
              match fire vd p d st root sp1 args with
              | None => None
              | Some (st, l) =>
                  match down_all mm st l with
                  | None => None
                  | Some st => go mm R vd f st (nth (arity p - 1) sp 0) (skipn (arity p) sp)
                  end
              end
          end
      end
  end.

Lemma go_S f st root sp :
  go mm R vd (S f) st root sp =
  match tick mm R st with
  | None => None
  | Some st =>
      match cell st root with
      | App l _ => go mm R vd f st l (root :: sp)
      | Cons _ _ | Nil | Int _ | Bool _ | Void | PFail | Tab _ _ =>
          match sp with [] => Some (root, st) | _ => None end
      | Fail =>
          match sp with
          | [] => Some (root, st)
          | _ => let x := last sp root in Some (x, overwrite st x root)
          end
      | Dead => None
      | Prim p => if length sp <? arity p then Some (last sp root, st)
                  else apply_prim f p st root sp
      end
  end.
Proof. reflexivity. Qed.

(** The place is found: either not enough arguments, or a redex. *)
Lemma find_spot st x C p root sp f res :
  good st -> frames st x C -> lnk st root sp x -> cell st root = Prim p ->
  arity p <= length sp -> go mm R vd f st root sp = Some res ->
  exists r, spot st x C p root (firstn (arity p) sp) (skipn (arity p) sp) r /\
            r = nth (arity p - 1) sp 0.
Proof.
  intros g fr hl ec hlen e.
  pose proof hl as hl'. rewrite <- (firstn_skipn (arity p) sp) in hl'. apply lnk_app in hl'.
  destruct hl' as (r & l1 & l2).
  assert (hfl : length (firstn (arity p) sp) = arity p) by (apply firstn_length_le; exact hlen).
  exists r. split.
  - split; auto. exact (no_reentry mm R vd hvd st x C r root _ _ p f root sp res g fr l1 ec hfl l2 hl e).
  - pose proof (arity_pos p).
    rewrite <- (redex_nth _ _ _ _ _ 0 l1 hfl) by lia.
    rewrite <- (firstn_skipn (arity p) sp) at 2.
    rewrite app_nth1 by (rewrite hfl; lia). reflexivity.
Qed.

Theorem go_ok f : ok_go f.
Proof.
  induction f as [|f IH]; intros st root sp x C y st' g fr hl e; [discriminate|].
  assert (v : vdok st) by apply g.
  pose proof (frames_reach _ _ _ _ _ v fr) as hrx.
  destruct (reach_lnk _ _ _ _ _ hl hrx) as [hroot hsp].
  pose proof e as eS. rewrite go_S in e.
  destruct (tick_ok mm R vd hvd st g) as (st1 & et & g1 & k1 & _). rewrite et in e.
  destruct (keeps_path _ _ _ _ _ _ k1 hl hrx) as (hl1 & hc1 & hr1).
  assert (ps1 : pres rt C st st1) by (apply keeps_pres; exact k1).
  assert (fr1 : frames st1 x C) by (eapply frames_pres; eauto).
  pose proof (lnk_last _ _ _ _ hl1) as hla.
  assert (leaf : match sp with [] => Some (root, st1) | _ => None end = Some (y, st') ->
                 whead (cell st1 root) [] ->
                 y = x /\ good st' /\ pres rt C st st' /\ whnf st' x).
  { intros q w. destruct sp; [|discriminate]. injection q as <- <-. cbn in hl1. subst.
    split; auto. split; auto. split; auto. exists x, []. cbn. auto. }
  destruct (cell st1 root) as [l a|h t| |p| | | |z|b|b k|] eqn:ec;
    try (apply leaf; [exact e|reflexivity]).
  - (* an application *)
    destruct (IH st1 l (root :: sp) x C y st' g1 fr1) as (q1 & q2 & q3 & q4); auto.
    { cbn [lnk]. eauto. }
    split; auto. split; auto. split; auto. eapply pres_trans; eauto.
  - (* a primitive *)
    destruct (length sp <? arity p) eqn:elt.
    + injection e as <- <-. apply Nat.ltb_lt in elt. split; auto. split; auto. split; auto.
      exists root, sp. rewrite ec. auto.
    + apply Nat.ltb_ge in elt.
      destruct (find_spot st x C p root sp (S f) (y, st') g fr hl (eq_sym hc1) elt eS)
        as (r & H & er).
      destruct (spot_pres _ _ _ _ _ _ _ _ H st1 g1) as [H1 er1].
      { apply keeps_pres. exact k1. }
      unfold apply_prim in e.
      destruct (stage0 f p st1 (firstn (arity p) sp) (rights st1 (firstn (arity p) sp)))
        as [[st2 args2]|] eqn:e0; [|discriminate].
      destruct (stage0_ok _ _ _ _ _ _ _ _ _ _ _ IH H1 e0) as (H2 & -> & ps2 & w2).
      cbn zeta in e.
      destruct (prune mm vd p _ st2 sp _) as [[st3 [sp3 args3]]|] eqn:ep; [|discriminate].
      rewrite <- (firstn_skipn (arity p) sp) in ep at 2.
      destruct (stage1 f p _ st3 args3) as [[st4 args4]|] eqn:e1; [|discriminate].
      destruct (stage1_ok _ _ _ _ _ _ _ _ _ _ _ _ _ _ IH H2 w2 ep e1) as (ps4 & rd).
      destruct (fire vd p _ st4 root sp3 args4) as [[st5 l5]|] eqn:ef; [|discriminate].
      destruct (fire_step _ _ _ _ _ _ _ _ _ _ _ _ rd ef) as (st6 & ed & g6 & fr6 & hl6 & ps6 & _).
      rewrite ed in e. rewrite <- er in e.
      destruct (IH st6 r (skipn (arity p) sp) x C y st' g6 fr6 hl6 e) as (q1 & q2 & q3 & q4).
      split; auto. split; auto. split; auto.
      eapply pres_trans; [exact ps1|]. eapply pres_trans; [exact ps2|].
      eapply pres_trans; [exact ps4|]. eapply pres_trans; eauto.
  - (* a failure is passed up the spine *)
    destruct sp as [|s sp]; [apply leaf; [exact e|reflexivity]|].
    cbn zeta in e. rewrite hla in e. injection e as <- <-.
    split; auto.
    assert (us : ~ safe st1 C x).
    { intros (root' & sp' & q1 & q2).
      assert (n0 : is_app (cell st1 root) = false) by (rewrite ec; reflexivity).
      destruct (unw_det _ _ _ _ _ _ hl1 q1 n0 (okhead_napp _ _ _ q2)) as [<- <-].
      rewrite ec in q2. discriminate. }
    assert (v1 : vdok st1) by apply g1.
    pose proof (frames_reach _ _ _ _ _ v1 fr1) as hrx1.
    destruct (reach_lnk _ _ _ _ _ hl1 hrx1) as [hroot1 _].
    assert (hvx : vd <> x).
    { intros <-. apply us. exists vd, []. cbn. destruct v1 as [_ ->]. cbn. auto. }
    assert (ps : pres rt C st1 (overwrite st1 x root)).
    { intros n q1 q2. apply overwrite_cell. intros ->. contradiction. }
    destruct g1 as [(L & I1) q]. split.
    { split.
      - exists L. eapply inv_weaken. apply overwrite_ok; eauto; eapply inv_reach; eauto.
      - split; [apply overwrite_sat; apply q|rewrite overwrite_cell; [apply q|exact hvx]]. }
    split; [eapply pres_trans; eauto|].
    exists x, []. cbn [lnk]. split; auto. unfold overwrite. rewrite incr_all_cell.
    cbn [cell set_cell]. rewrite upd_same, ec. reflexivity.
  - discriminate.
Qed.

End Machine.
