(** Correctness of variable creation. *)
From stdpp Require Import gmap strings list.
From Coq Require Import NArith Lia.
From Verif Require Import BddModel BddWf BddOps.
Open Scope N_scope.
Local Arguments N.mul : simpl never.
Local Arguments N.add : simpl never.

Definition add_level (s : bst) (name : string) : bst :=
  mkSt (nodes s) (uniq s) (free s) (size s) (ord s ++ [nvars s])
       (vnames s ++ [name]) (vtbl s) (cache s).

Lemma add_level_nvars s name : nvars (add_level s name) = nvars s + 1.
Proof. unfold nvars. cbn. rewrite app_length. cbn. lia. Qed.

Lemma add_level_ext s name : ext s (add_level s name).
Proof. split_and!; try done; cbn; by apply prefix_app_r. Qed.

Lemma add_level_ORDER_new s name : ORDER (add_level s name) (nvars s) = nvars s.
Proof.
  unfold ORDER. cbn. unfold nvars. rewrite Nat2N.id.
  rewrite app_nth2; [|lia]. by rewrite Nat.sub_diag.
Qed.

Lemma add_level_WFn s name : WFn s -> WFn (add_level s name).
Proof.
  intros W. pose proof (add_level_ext s name) as X.
  pose proof (add_level_nvars s name) as Hn.
  assert (forall f, lvl s f <= lvl (add_level s name) f) as HL.
  { intros f. unfold lvl. cbn [nodes add_level].
    destruct (nodes s !! f.2) as [[[v l] r]|] eqn:E.
    - apply (wf_node _ W) in E as (Hv&_). by rewrite (ext_ORDER _ _ _ X Hv).
    - rewrite Hn. lia. }
  constructor.
  - apply (wf_zero _ W).
  - intros i v l r E. pose proof (wf_node _ W _ _ _ _ E) as (?&?&?&?&?&?&?&?).
    rewrite Hn, (ext_ORDER s); [|done|done].
    pose proof (HL l). pose proof (HL r). split_and!; try done; lia.
  - apply (wf_uniq _ W).
  - apply (wf_nodup _ W).
  - apply (wf_free _ W).
  - apply (wf_size _ W).
  - intros v. rewrite Hn. intros Hv. destruct (decide (v = nvars s)) as [->|].
    + rewrite add_level_ORDER_new. lia.
    + rewrite (ext_ORDER s) by (try done; lia).
      pose proof (ORDER_lt_nvars s v W). lia.
  - intros v w. rewrite Hn. intros Hv Hw.
    destruct (decide (v = nvars s)) as [->|]; destruct (decide (w = nvars s)) as [->|]; [done|..].
    + rewrite add_level_ORDER_new, (ext_ORDER s) by (try done; lia).
      pose proof (ORDER_lt_nvars s w W). lia.
    + rewrite add_level_ORDER_new, (ext_ORDER s) by (try done; lia).
      pose proof (ORDER_lt_nvars s v W). lia.
    + rewrite (ext_ORDER s _ v X), (ext_ORDER s _ w X) by lia. apply (wf_ord_inj _ W); lia.
Qed.

Definition vspec (m : M fml) (name : string) (s : bst) : Prop :=
  exists f s' v, m s = Some (f, s') /\ WF s' /\ ext s s' /\ live s' f /\
    v < nvars s' /\ vnames s' !! N.to_nat v = Some name /\ forall e, sem s' e f = e v.

Lemma prim_B_Var_spec name s : WF s -> vspec (prim_B_Var name) name s.
Proof.
  intros W. unfold vspec, prim_B_Var.
  destruct (vtbl s !! name) as [f|] eqn:Ev.
  { pose proof (wf_vtbl _ W _ _ Ev) as (v&Hv&L&Hs). exists f, s, v.
    split_and!; try done.
    apply lookup_lt_Some in Hv. rewrite (wf_len _ W) in Hv. unfold nvars. lia. }
  fold (add_level s name). set (s1 := add_level s name).
  pose proof (add_level_WFn s name W) as W1. fold s1 in W1.
  pose proof (add_level_ext s name) as X1. fold s1 in X1.
  pose proof (add_level_nvars s name) as Hn1. fold s1 in Hn1.
  assert (forall b, lvl s1 (b, 0) = nvars s + 1) as HL0.
  { intros b. unfold lvl. cbn [snd]. by rewrite (wf_zero _ W1). }
  destruct (find_insert_n (nvars s) ONE ZERO s1 W1) as (f&s2&E&W2&P&C&L&Hs&_).
  { lia. } { apply live_const. } { apply live_const. }
  { unfold ONE. rewrite HL0. unfold s1. rewrite add_level_ORDER_new. lia. }
  { unfold ZERO. rewrite HL0. unfold s1. rewrite add_level_ORDER_new. lia. }
  rewrite E. set (s3 := mkSt _ _ _ _ _ _ _ _).
  assert (nodes s3 = nodes s2 /\ ord s3 = ord s1 /\ vnames s3 = vnames s1 /\ cache s3 = cache s /\
          vtbl s3 = <[name := f]> (vtbl s)) as (N3&O3&V3&C3&T3).
  { destruct P as (?&?&?&Pv). unfold s3. cbn [nodes ord vnames cache vtbl]. split_and!; try congruence.
    - by rewrite C.
    - by rewrite Pv. }
  assert (WFn s3) as W3.
  { destruct W2. constructor; assumption. }
  assert (ext s s3) as X3.
  { split_and!.
    - rewrite N3. change (nodes s) with (nodes s1). apply P.
    - rewrite O3. apply X1.
    - rewrite V3. apply X1.
    - rewrite T3. by apply insert_subseteq. }
  assert (forall e, sem s3 e f = e (nvars s)) as Hs3.
  { intros e. change (sem s3 e f) with (sem s2 e f).
    rewrite Hs, sem_ONE, sem_ZERO. by destruct (e (nvars s)). }
  assert (vnames s3 !! N.to_nat (nvars s) = Some name) as Hname.
  { rewrite V3. cbn. unfold nvars. rewrite Nat2N.id, <- (wf_len _ W).
    by rewrite lookup_app_r, Nat.sub_diag by lia. }
  exists f, s3, (nvars s). split_and!; try done.
  2:{ unfold nvars at 2. rewrite O3. change (N.of_nat (length (ord s1))) with (nvars s1). lia. }
  constructor.
  - done.
  - rewrite V3, O3. cbn. rewrite !app_length, (wf_len _ W). done.
  - rewrite V3. cbn. apply NoDup_app. split_and!.
    + apply (wf_names _ W).
    + intros x Hx Hx'. apply elem_of_list_singleton in Hx' as ->.
      apply (wf_vtbl2 _ W) in Hx as [? Hx]. by rewrite Hx in Ev.
    + apply NoDup_singleton.
  - intros x g. rewrite T3. destruct (decide (x = name)) as [->|Hx].
    + rewrite lookup_insert. intros [= <-]. exists (nvars s). split_and!; done.
    + rewrite lookup_insert_ne by done. intros Hg.
      apply (wf_vtbl _ W) in Hg as (v&Hv&Lg&Hg). exists v. split_and!.
      * rewrite V3. by apply lookup_app_l_Some.
      * by eapply ext_live.
      * intros e. rewrite (ext_sem s s3); done.
  - intros x. rewrite V3, T3. cbn. intros Hx.
    destruct (decide (x = name)) as [->|Hne]; [rewrite lookup_insert; eauto|].
    rewrite lookup_insert_ne by done. apply (wf_vtbl2 _ W).
    apply elem_of_app in Hx as [?|Hx]; [done|]. by apply elem_of_list_singleton in Hx.
  - intros fn a b r. rewrite C3. intros H. apply (wf_cache _ W) in H as (La&Lb&Lr&Hc).
    split_and!; [by eapply ext_live..|]. eapply cache_sem_ext; [apply W|done|done|done..].
Qed.

Lemma B_Var_spec name s : WF s -> vspec (B_Var name) name s.
Proof.
  intros W. unfold vspec, B_Var. destruct (vtbl s !! name) as [f|] eqn:Ev.
  { pose proof (wf_vtbl _ W _ _ Ev) as (v&Hv&L&Hs). exists f, s, v.
    split_and!; try done.
    apply lookup_lt_Some in Hv. rewrite (wf_len _ W) in Hv. unfold nvars. lia. }
  destruct (ends_n name).
  - unfold bind.
    destruct (prim_B_Var_spec (substring 0 (String.length name - 2) name) s W)
      as (f1&s1&v1&->&W1&X1&_).
    destruct (prim_B_Var_spec name s1 W1) as (f2&s2&v2&->&W2&X2&L2&Hv2&Hn2&Hs2).
    exists f2, s2, v2. split_and!; try done. by eapply ext_trans.
  - unfold bind, ret. destruct (prim_B_Var_spec name s W) as (f1&s1&v1&->&W1&X1&L1&Hv1&Hn1&Hs1).
    destruct (prim_B_Var_spec (name +:+ "_n")%string s1 W1) as (f2&s2&v2&->&W2&X2&_).
    exists f1, s2, v1. split_and!; try done.
    + by eapply ext_trans.
    + by eapply ext_live.
    + apply ext_nvars in X2. lia.
    + eapply prefix_lookup; [done|apply X2].
    + intros e. rewrite (ext_sem s1 s2); done.
Qed.

(** The initial state. *)
Lemma B_Init_WF sz : 0 < sz -> WF (B_Init sz).
Proof.
  intros Hsz. assert (WFn (B_Init sz)) as W.
  { constructor; cbn.
    - apply lookup_empty.
    - intros i v l r E. by rewrite lookup_empty in E.
    - intros n i. by rewrite !lookup_empty.
    - apply NoDup_fmap_2_strong; [|apply NoDup_ListNoDup, seq_NoDup]. intros; lia.
    - intros i Hi. apply elem_of_list_fmap in Hi as (k&->&Hk). apply elem_of_seq in Hk.
      split; [apply lookup_empty|lia].
    - done.
    - intros v. unfold nvars. cbn. lia.
    - intros v w. unfold nvars. cbn. lia. }
  constructor; cbn; try done.
  - apply NoDup_nil_2.
  - intros x. by intros ?%elem_of_nil.
Qed.
