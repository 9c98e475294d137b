(** * Spines, and the nodes an evaluation leaves alone *)

From Coq Require Import List Bool Arith NArith ZArith Lia Permutation Relations.
Import ListNotations.
From Verif Require Import RcModel RcSpec RcInv RcDec RcGc.

(** [sp], innermost first, are the applications between [root] and [x]. *)
Fixpoint lnk (st : store) (root : addr) (sp : list addr) (x : addr) : Prop :=
  match sp with
  | [] => root = x
  | s :: sp => (exists a, cell st s = App root a) /\ lnk st s sp x
  end.

Lemma lnk_app st sp1 : forall root sp2 x,
  lnk st root (sp1 ++ sp2) x <-> exists m, lnk st root sp1 m /\ lnk st m sp2 x.
Proof.
  induction sp1 as [|s sp1 IH]; intros root sp2 x; cbn [app lnk].
  - split; [eauto|]. intros (m & -> & h). exact h.
  - rewrite IH. split.
    + intros (h & m & h1 & h2). eauto.
    + intros (m & (h & h1) & h2). eauto.
Qed.

Lemma last_any (d d' t : addr) l : last (t :: l) d = last (t :: l) d'.
Proof.
  revert t. induction l as [|u l IH]; intros t; auto.
  change (last (u :: l) d = last (u :: l) d'). apply IH.
Qed.

Lemma last_cons (s d : addr) l : last (s :: l) d = last l s.
Proof.
  destruct l as [|t l]; auto. change (last (t :: l) d = last (t :: l) s). apply last_any.
Qed.

Lemma lnk_last st sp : forall root x, lnk st root sp x -> last sp root = x.
Proof.
  induction sp as [|s sp IH]; intros root x; cbn [lnk]; auto.
  intros [_ h]. rewrite last_cons. apply IH. exact h.
Qed.

Lemma lnk_snoc st sp root s x :
  lnk st root (sp ++ [s]) x ->
  s = x /\ exists l a, cell st x = App l a /\ lnk st root sp l.
Proof.
  rewrite lnk_app. intros (m & h1 & (a & h2) & h3). cbn in h3. subst.
  split; auto. exists m, a. auto.
Qed.

Lemma lnk_ext st st' sp : forall root x,
  (forall s, In s sp -> cell st' s = cell st s) -> lnk st root sp x -> lnk st' root sp x.
Proof.
  induction sp as [|s sp IH]; intros root x h; cbn [lnk]; auto.
  intros [(a & e) h']. split.
  - exists a. rewrite h; auto. left. reflexivity.
  - apply IH; auto. intros m hm. apply h. right. exact hm.
Qed.

Definition is_app (c : node) : bool := match c with App _ _ => true | _ => false end.

Lemma unw_det st sp : forall root x root' sp',
  lnk st root sp x -> lnk st root' sp' x ->
  is_app (cell st root) = false -> is_app (cell st root') = false ->
  root = root' /\ sp = sp'.
Proof.
  induction sp as [|s sp IH] using rev_ind; intros root x root' sp' h h' n n'.
  - cbn in h. subst. destruct sp' as [|s' sp'] using rev_ind.
    + cbn in h'. subst. auto.
    + apply lnk_snoc in h'. destruct h' as (-> & l & a & e & _). rewrite e in n. discriminate.
  - apply lnk_snoc in h. destruct h as (-> & l & a & e & h).
    destruct sp' as [|s' sp' _] using rev_ind.
    + cbn in h'. subst. rewrite e in n'. discriminate.
    + apply lnk_snoc in h'. destruct h' as (-> & l' & a' & e' & h').
      rewrite e in e'. injection e' as <- <-.
      destruct (IH _ _ _ _ h h' n n') as [-> ->]. auto.
Qed.

(** No node occurs above itself. *)
Lemma lnk_fresh st root sp r rest x :
  lnk st root sp r -> is_app (cell st root) = false -> lnk st r rest x -> ~ In r rest.
Proof.
  intros h n h' hi. apply in_split in hi. destruct hi as (r1 & r2 & ->).
  change (r :: r2) with ([r] ++ r2) in h'. rewrite app_assoc, lnk_app in h'.
  destruct h' as (m & h1 & h2).
  assert (h3 : lnk st root (sp ++ r1 ++ [r]) m) by (rewrite lnk_app; eauto).
  rewrite lnk_app in h1. destruct h1 as (m1 & h1 & (a & e) & z). cbn in z. subst.
  destruct (unw_det _ _ _ _ _ _ h h3 n n) as [_ e'].
  apply (f_equal (@length addr)) in e'. rewrite !app_length in e'. cbn in e'. lia.
Qed.

Lemma rights_app st l1 l2 : rights st (l1 ++ l2) = rights st l1 ++ rights st l2.
Proof. apply map_app. Qed.

Lemma rights_length st l : length (rights st l) = length l.
Proof. apply map_length. Qed.

Lemma rights_ext st st' l :
  (forall s, In s l -> cell st' s = cell st s) -> rights st' l = rights st l.
Proof. intros h. apply map_ext_in. intros s hs. rewrite h; auto. Qed.

Lemma lnk_cells st sp : forall root x s,
  lnk st root sp x -> In s sp -> exists l a, cell st s = App l a.
Proof.
  induction sp as [|t sp IH]; intros root x s; cbn [lnk]; [intros _ []|].
  intros [(a & e) h] [<-|hi]; eauto.
Qed.

Lemma rights_kid st sp root x a :
  lnk st root sp x -> In a (rights st sp) ->
  exists s, In s sp /\ In a (kids (cell st s)).
Proof.
  intros h hi. unfold rights in hi. apply in_map_iff in hi. destruct hi as (s & <- & hs).
  destruct (lnk_cells _ _ _ _ _ h hs) as (l & b & e). exists s. rewrite e. cbn. auto.
Qed.

(** ** Nodes an evaluation leaves alone

    [C] are the applications that are being evaluated.  What a spine ends in
    says whether it can ever be overwritten. *)

Definition okhead (C : list addr) (c : node) (sp : list addr) : Prop :=
  match c with
  | App _ _ => False
  | Prim p => length sp < arity p \/ In (nth (arity p - 1) sp 0) C
  | Fail => sp = []
  | Void => sp = [] \/ In (nth 0 sp 0) C
  | _ => True
  end.

Lemma arity_pos p : 1 <= arity p.
Proof. destruct p; cbn; lia. Qed.

Lemma okhead_prefix C c sp1 sp2 : okhead C c (sp1 ++ sp2) -> okhead C c sp1.
Proof.
  destruct c; cbn; auto.
  - intros [h|h].
    + left. rewrite app_length in h. lia.
    + destruct (le_lt_dec (arity p) (length sp1)) as [q|q]; auto.
      right. pose proof (arity_pos p). rewrite app_nth1 in h by lia. exact h.
  - intros h. apply app_eq_nil in h. apply h.
  - intros [h|h].
    + left. apply app_eq_nil in h. apply h.
    + destruct sp1; auto.
Qed.

Lemma okhead_mono C C' c sp : incl C C' -> okhead C c sp -> okhead C' c sp.
Proof. intros h. destruct c; cbn; auto; intros [q|q]; auto. Qed.

Lemma okhead_napp C c sp : okhead C c sp -> is_app c = false.
Proof. destruct c; cbn; tauto. Qed.

Definition safe st C n : Prop :=
  exists root sp, lnk st root sp n /\ okhead C (cell st root) sp.

Lemma safe_mono st C C' n : incl C C' -> safe st C n -> safe st C' n.
Proof. intros h (root & sp & h1 & h2). exists root, sp. split; auto. eapply okhead_mono; eauto. Qed.

Section Roots.
Variable rt : list addr.

Inductive sreach (st : store) (C : list addr) : addr -> Prop :=
| sr_root n : In n rt -> sreach st C n
| sr_kid m n : sreach st C m -> safe st C m -> In n (kids (cell st m)) -> sreach st C n.

Lemma sreach_reach st C n : sreach st C n -> reach st rt n.
Proof.
  induction 1.
  - apply reach_root; auto.
  - eapply reach_kid; eauto.
Qed.

Lemma sreach_mono st C C' n : incl C C' -> sreach st C n -> sreach st C' n.
Proof.
  intros h. induction 1.
  - apply sr_root; auto.
  - eapply sr_kid; eauto. eapply safe_mono; eauto.
Qed.

(** All nodes of a safe spine are safe and can be got at through safe nodes. *)
Lemma safe_path st C sp : forall root n,
  lnk st root sp n -> okhead C (cell st root) sp -> sreach st C n ->
  sreach st C root /\ safe st C root /\
  forall s, In s sp -> sreach st C s /\ safe st C s.
Proof.
  induction sp as [|s sp IH] using rev_ind; intros root n h ok hs.
  - cbn in h. subst. split; auto. split; [exists n, []; cbn; auto|]. intros s [].
  - assert (hn : safe st C n) by (exists root, (sp ++ [s]); auto).
    apply lnk_snoc in h. destruct h as (-> & l & a & e & h).
    assert (hl : sreach st C l).
    { eapply sr_kid; eauto. rewrite e. left. reflexivity. }
    destruct (IH root l h (okhead_prefix _ _ _ _ ok) hl) as (h1 & h2 & h3).
    split; auto. split; auto. intros s hi. apply in_app_or in hi.
    destruct hi as [hi|[<-|[]]]; auto.
Qed.

Definition pres (C : list addr) (st st' : store) : Prop :=
  forall n, sreach st C n -> safe st C n -> cell st' n = cell st n.

Lemma pres_path C st st' root sp n :
  pres C st st' -> lnk st root sp n -> okhead C (cell st root) sp -> sreach st C n ->
  lnk st' root sp n /\ cell st' root = cell st root /\ rights st' sp = rights st sp.
Proof.
  intros p h ok hs. destruct (safe_path _ _ _ _ _ h ok hs) as (h1 & h2 & h3).
  assert (he : forall s, In s sp -> cell st' s = cell st s).
  { intros s hi. destruct (h3 s hi). apply p; auto. }
  split; [eapply lnk_ext; eauto|]. split; [apply p; auto|]. apply rights_ext; auto.
Qed.

Lemma pres_safe C st st' n : pres C st st' -> sreach st C n -> safe st C n -> safe st' C n.
Proof.
  intros p hs (root & sp & h & ok). destruct (pres_path _ _ _ _ _ _ p h ok hs) as (h1 & h2 & _).
  exists root, sp. rewrite h2. auto.
Qed.

Lemma pres_sreach C st st' n : pres C st st' -> sreach st C n -> sreach st' C n.
Proof.
  intros p. induction 1.
  - apply sr_root; auto.
  - eapply sr_kid; eauto.
    + eapply pres_safe; eauto.
    + rewrite p; auto.
Qed.

Lemma pres_refl C st : pres C st st.
Proof. intros n _ _. reflexivity. Qed.

Lemma pres_trans C st1 st2 st3 : pres C st1 st2 -> pres C st2 st3 -> pres C st1 st3.
Proof.
  intros p q n h1 h2. rewrite (q n); [apply p; auto|eapply pres_sreach; eauto|
                                      eapply pres_safe; eauto].
Qed.

Lemma pres_mono C C' st st' : incl C C' -> pres C' st st' -> pres C st st'.
Proof.
  intros h p n h1 h2. apply p.
  - eapply sreach_mono; eauto.
  - eapply safe_mono; eauto.
Qed.

(** ** What memory management keeps *)

Definition keeps (st st' : store) : Prop :=
  tabs st' = tabs st /\ forall n, reach st rt n -> cell st' n = cell st n.

Lemma keeps_refl st : keeps st st.
Proof. split; auto. Qed.

Lemma keeps_reach st st' n : keeps st st' -> reach st rt n -> reach st' rt n.
Proof.
  intros [ht hc]. induction 1.
  - apply reach_root; auto.
  - eapply reach_kid; eauto. rewrite hc; auto.
  - eapply reach_tab; eauto. rewrite hc; eauto. rewrite ht. exact H1.
Qed.

Lemma keeps_back st st' n : keeps st st' -> reach st' rt n -> reach st rt n.
Proof.
  intros [ht hc]. induction 1.
  - apply reach_root; auto.
  - rewrite hc in H0 by auto. eapply reach_kid; eauto.
  - rewrite hc in H0 by auto. rewrite ht in H1. eapply reach_tab; eauto.
Qed.

Lemma keeps_trans st1 st2 st3 : keeps st1 st2 -> keeps st2 st3 -> keeps st1 st3.
Proof.
  intros h1 h2. split.
  - rewrite (proj1 h2). apply h1.
  - intros n h. rewrite (proj2 h2); [apply h1; auto|]. eapply keeps_reach; eauto.
Qed.

Lemma keeps_pres C st st' : keeps st st' -> pres C st st'.
Proof. intros [_ h] n h1 _. apply h. eapply sreach_reach; eauto. Qed.

Lemma reach_lnk st sp : forall root x,
  lnk st root sp x -> reach st rt x ->
  reach st rt root /\ forall s, In s sp -> reach st rt s.
Proof.
  induction sp as [|s sp IH] using rev_ind; intros root x h hr.
  - cbn in h. subst. split; auto. intros s [].
  - apply lnk_snoc in h. destruct h as (-> & l & a & e & h).
    assert (hl : reach st rt l).
    { eapply reach_kid; eauto. rewrite e. left. reflexivity. }
    destruct (IH _ _ h hl) as [h1 h2]. split; auto.
    intros s hi. apply in_app_or in hi. destruct hi as [hi|[<-|[]]]; auto.
Qed.

Lemma reach_right st sp root x a :
  lnk st root sp x -> reach st rt x -> In a (rights st sp) -> reach st rt a.
Proof.
  intros h hr hi. destruct (rights_kid _ _ _ _ _ h hi) as (s & hs & hk).
  eapply reach_kid; [|exact hk]. apply (reach_lnk _ _ _ _ h hr). exact hs.
Qed.

Lemma keeps_path st st' root sp x :
  keeps st st' -> lnk st root sp x -> reach st rt x ->
  lnk st' root sp x /\ cell st' root = cell st root /\ rights st' sp = rights st sp.
Proof.
  intros [_ hc] h hr. destruct (reach_lnk _ _ _ _ h hr) as [h1 h2].
  assert (he : forall s, In s sp -> cell st' s = cell st s) by auto.
  split; [eapply lnk_ext; eauto|]. split; auto. apply rights_ext; auto.
Qed.

End Roots.

(** ** Weak head normal forms *)

Definition whead (c : node) (sp : list addr) : Prop :=
  match c with
  | App _ _ | Dead => False
  | Prim p => length sp < arity p
  | _ => sp = []
  end.

Definition whnf st n : Prop :=
  exists root sp, lnk st root sp n /\ whead (cell st root) sp.

Lemma whead_ok C c sp : whead c sp -> okhead C c sp.
Proof. destruct c; cbn; auto. Qed.

Lemma whnf_safe st C n : whnf st n -> safe st C n.
Proof. intros (root & sp & h & w). exists root, sp. split; auto. apply whead_ok. exact w. Qed.

Lemma whnf_pres rt C st st' n : pres rt C st st' -> sreach rt st C n -> whnf st n -> whnf st' n.
Proof.
  intros p hs (root & sp & h & w).
  destruct (pres_path _ _ _ _ _ _ _ p h (whead_ok _ _ _ w) hs) as (h1 & h2 & _).
  exists root, sp. rewrite h2. auto.
Qed.

Lemma whnf_keeps rt st st' n : keeps rt st st' -> reach st rt n -> whnf st n -> whnf st' n.
Proof.
  intros p hs (root & sp & h & w).
  destruct (keeps_path _ _ _ _ _ _ p h hs) as (h1 & h2 & _).
  exists root, sp. rewrite h2. auto.
Qed.
