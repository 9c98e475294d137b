(** Correctness of node creation and of the binary operations. *)
From stdpp Require Import gmap strings list.
From Coq Require Import NArith Lia.
From Verif Require Import BddModel BddWf.
Open Scope N_scope.
Local Arguments N.mul : simpl never.
Local Arguments N.add : simpl never.

(** Extension that declares no variable. *)
Definition pext (s s' : bst) : Prop :=
  nodes s ⊆ nodes s' /\ ord s' = ord s /\ vnames s' = vnames s /\ vtbl s' = vtbl s.

Lemma pext_refl s : pext s s.
Proof. split_and!; done. Qed.
Lemma pext_trans s1 s2 s3 : pext s1 s2 -> pext s2 s3 -> pext s1 s3.
Proof. intros (?&?&?&?) (?&?&?&?). split_and!; [by etrans|congruence..]. Qed.
Lemma pext_ext s s' : pext s s' -> ext s s'.
Proof. intros (?&Ho&Hv&Ht). unfold ext. rewrite Ho, Hv, Ht. split_and!; done. Qed.
Lemma pext_nvars s s' : pext s s' -> nvars s' = nvars s.
Proof. intros (_&H&_). unfold nvars. by rewrite H. Qed.
Lemma pext_ORDER s s' v : pext s s' -> ORDER s' v = ORDER s v.
Proof. intros (_&H&_). unfold ORDER. by rewrite H. Qed.
Lemma pext_live s s' f : pext s s' -> live s f -> live s' f.
Proof. intros H. apply ext_live. by apply pext_ext. Qed.
Ltac plive := first [assumption | apply live_const |
  match goal with
  | P : pext ?s ?s' |- live ?s' ?f => apply (pext_live s s' f P); plive
  | |- live _ (bnot _) => apply live_bnot; plive
  end].
Lemma pext_lvl s s' f : WFn s -> WFn s' -> pext s s' -> live s f -> lvl s' f = lvl s f.
Proof.
  intros W W' H L. unfold lvl.
  destruct (nodes s !! f.2) as [[[v l] r]|] eqn:E.
  - rewrite (lookup_weaken _ _ _ _ E (proj1 H)). by apply pext_ORDER.
  - destruct L as [L|[? L]]; [|by rewrite L in E].
    rewrite L, (wf_zero _ W'). by apply pext_nvars.
Qed.
Lemma pext_sem s s' f e : WFn s -> WFn s' -> pext s s' -> live s f -> sem s' e f = sem s e f.
Proof. intros. by apply ext_sem; [..|apply pext_ext|]. Qed.

(** The manager invariant follows from the node invariant of an extension. *)
Lemma WF_pext s s' : WF s -> WFn s' -> pext s s' ->
  (forall fn f g r, cache s' !! (fn, f, g) = Some r -> cache s !! (fn, f, g) = Some r \/
     (live s' f /\ live s' g /\ live s' r /\ cache_sem s' fn f g r)) ->
  WF s'.
Proof.
  intros W W' H Hc. pose proof H as (Hn&Ho&Hv&Ht). constructor.
  - done.
  - rewrite Hv, Ho. apply (wf_len _ W).
  - rewrite Hv. apply (wf_names _ W).
  - intros x f. rewrite Ht. intros Hx. apply (wf_vtbl _ W) in Hx as (v&Hx&L&Hs).
    exists v. rewrite Hv. split; [done|]. split; [plive|].
    intros e. rewrite (pext_sem s s'); [done|apply W|done|done|done].
  - intros x. rewrite Hv, Ht. apply (wf_vtbl2 _ W).
  - intros fn f g r Hr. apply Hc in Hr as [Hr|Hr]; [|done].
    apply (wf_cache _ W) in Hr as (Lf&Lg&Lr&Cs).
    split_and!; [plive..|].
    eapply cache_sem_ext; [apply W|done|by apply pext_ext|done..].
Qed.

(** ** Node creation *)
Lemma grow_WFn s : WFn s -> free s = [] -> WFn (grow_MainTbl s) /\ free (grow_MainTbl s) <> [].
Proof.
  intros W Hf. split.
  - constructor; cbn.
    + apply (wf_zero _ W).
    + intros i v l r E. pose proof (wf_node _ W _ _ _ _ E) as (?&?&?&?&?&?&?&?).
      split_and!; try done. cbn. lia.
    + apply (wf_uniq _ W).
    + apply NoDup_fmap_2_strong; [|apply NoDup_ListNoDup, seq_NoDup].
      intros x y _ _ ?. lia.
    + intros i Hi. apply elem_of_list_fmap in Hi as (k&->&Hk).
      apply elem_of_seq in Hk. pose proof (wf_size _ W). split; [|lia].
      destruct (nodes s !! (size s + N.of_nat k)) as [[[v l] r]|] eqn:E; [|done].
      apply (wf_node _ W) in E as (_&_&_&_&_&_&_&?). lia.
    + pose proof (wf_size _ W). lia.
    + apply (wf_ord_lt _ W).
    + apply (wf_ord_inj _ W).
  - cbn. pose proof (wf_size _ W). destruct (N.to_nat (size s)) eqn:E; [lia|done].
Qed.

Lemma grow_pext s : pext s (grow_MainTbl s).
Proof. split_and!; done. Qed.

Definition add_node (s : bst) (i : N) (n : node) (fr : list N) : bst :=
  mkSt (<[i := n]> (nodes s)) (<[n := i]> (uniq s)) fr (size s) (ord s) (vnames s) (vtbl s) (cache s).

Lemma add_node_WFn s i fr v l r : WFn s -> free s = i :: fr -> uniq s !! (v, l, r) = None ->
  v < nvars s -> l.1 = false -> l <> r -> live s l -> live s r ->
  ORDER s v < lvl s l -> ORDER s v < lvl s r ->
  WFn (add_node s i (v, l, r) fr) /\ pext s (add_node s i (v, l, r) fr).
Proof.
  intros W Hf Hu Hv Hl Hne Ll Lr Ol Or.
  destruct (wf_free _ W i) as (Hi&Hi0&His); [rewrite Hf; left|].
  assert (pext s (add_node s i (v, l, r) fr)) as P.
  { split_and!; [|done..]. cbn. by apply insert_subseteq. }
  assert (forall f, live s f -> lvl (add_node s i (v, l, r) fr) f = lvl s f) as HL.
  { intros f Lf. unfold lvl. cbn. rewrite lookup_insert_ne; [done|].
    intros ->. destruct Lf as [?|[? E]]; [done|]. by rewrite E in Hi. }
  split; [|done]. constructor.
  - cbn. rewrite lookup_insert_ne by done. apply (wf_zero _ W).
  - intros j w a b E.
    assert ((w, a, b) = (v, l, r) /\ j = i \/ nodes s !! j = Some (w, a, b)) as [[[= -> -> ->] ->]|E'].
    { cbn in E. destruct (decide (j = i)) as [->|].
      - rewrite lookup_insert in E. left. by injection E as <- <- <-.
      - rewrite lookup_insert_ne in E by done. by right. }
    + split_and!; try done; try (plive); by rewrite HL.
    + pose proof (wf_node _ W _ _ _ _ E') as (?&?&?&?&?&?&?&?).
      split_and!; try done; try (plive); by rewrite HL.
  - intros n j. cbn. destruct (decide (n = (v, l, r))) as [->|Hn].
    + rewrite lookup_insert. split.
      * intros [= ->]. by rewrite lookup_insert.
      * intros E. destruct (decide (j = i)) as [->|]; [done|].
        rewrite lookup_insert_ne in E by done. apply (wf_uniq _ W) in E. by rewrite Hu in E.
    + rewrite lookup_insert_ne by done. split.
      * intros E. apply (wf_uniq _ W) in E. rewrite lookup_insert_ne; [done|].
        intros ->. by rewrite Hi in E.
      * intros E. destruct (decide (j = i)) as [->|].
        -- rewrite lookup_insert in E. by injection E as <-.
        -- rewrite lookup_insert_ne in E by done. by apply (wf_uniq _ W).
  - cbn. pose proof (wf_nodup _ W) as Hd. rewrite Hf in Hd. by apply NoDup_cons in Hd as [_ ?].
  - cbn. intros j Hj. pose proof (wf_nodup _ W) as Hd. rewrite Hf in Hd.
    apply NoDup_cons in Hd as [Hni _].
    destruct (wf_free _ W j) as (?&?&?); [rewrite Hf; by right|].
    split_and!; [|done..]. rewrite lookup_insert_ne; [done|]. by intros ->.
  - apply (wf_size _ W).
  - apply (wf_ord_lt _ W).
  - apply (wf_ord_inj _ W).
Qed.

(** Total-correctness triple for manager operations: the call succeeds, the
    invariant is kept, nothing existing changes. *)
Definition spec {A} (m : M A) (s : bst) (Q : A -> bst -> Prop) : Prop :=
  exists a s', m s = Some (a, s') /\ WF s' /\ pext s s' /\ Q a s'.

Lemma spec_ret {A} (a : A) s (Q : A -> bst -> Prop) : WF s -> Q a s -> spec (ret a) s Q.
Proof. intros. exists a, s. split_and!; try done. Qed.
Lemma spec_bind {A B} (m : M A) (k : A -> M B) s (Q : B -> bst -> Prop) :
  spec m s (fun a s' => WF s' -> pext s s' -> spec (k a) s' Q) -> spec (bind m k) s Q.
Proof.
  intros (a&s'&E&W&P&H). specialize (H W P) as (b&s''&E'&W'&P'&H').
  exists b, s''. unfold bind. rewrite E. split_and!; try done. by eapply pext_trans.
Qed.
Lemma spec_weaken {A} (m : M A) s (Q Q' : A -> bst -> Prop) :
  spec m s Q -> (forall a s', WF s' -> pext s s' -> Q a s' -> Q' a s') -> spec m s Q'.
Proof. intros (a&s'&E&W&P&H) HQ. exists a, s'. split_and!; try done. by apply HQ. Qed.

Lemma find_insert_unfold v l r s : find_insert v l r s =
  if decide (l = r) then Some (l, s) else
  let n := (v, if l.1 then bnot l else l, if l.1 then bnot r else r) in
  match uniq s !! n with
  | Some i => Some ((l.1, i), s)
  | None =>
    let s1 := match free s with [] => grow_MainTbl s | _ => s end in
    match free s1 with
    | [] => None
    | i :: fr => Some ((l.1, i), add_node s1 i n fr)
    end
  end.
Proof. done. Qed.

(** Node creation at the level of the node invariant only. *)
Lemma find_insert_n v l r s : WFn s -> v < nvars s -> live s l -> live s r ->
  ORDER s v < lvl s l -> ORDER s v < lvl s r ->
  exists f s', find_insert v l r s = Some (f, s') /\ WFn s' /\ pext s s' /\ cache s' = cache s /\
    live s' f /\ (forall e, sem s' e f = if e v then sem s e l else sem s e r) /\
    (l <> r -> nodes s' !! f.2 = Some (v, sel l.1 (bnot l) l, sel l.1 (bnot r) r) /\ f.1 = l.1).
Proof.
  intros W Hv Ll Lr Ol Or. rewrite find_insert_unfold.
  destruct (decide (l = r)) as [<-|Hne].
  { exists l, s. split_and!; try done. intros e. by destruct (e v). }
  set (l' := if l.1 then bnot l else l). set (r' := if l.1 then bnot r else r).
  assert (l'.1 = false) as Hl' by (unfold l'; destruct l as [[] ?]; done).
  assert (l' <> r') as Hne'.
  { unfold l', r'. intros E. apply Hne. destruct l.1; [|done]. rewrite <- (bnot_inv l), E. apply bnot_inv. }
  assert (live s l') as Ll' by (unfold l'; by destruct l.1).
  assert (live s r') as Lr' by (unfold r'; by destruct l.1).
  assert (lvl s l' = lvl s l) as El' by (unfold l'; by destruct l.1).
  assert (lvl s r' = lvl s r) as Er' by (unfold r'; by destruct l.1).
  assert (forall e : env, xorb l.1 (if e v then sem s e l' else sem s e r') =
                    if e v then sem s e l else sem s e r) as Hsem.
  { intros e. unfold l', r'. destruct l.1.
    - rewrite !sem_bnot by done. by destruct (e v), (sem s e l), (sem s e r).
    - by destruct (e v), (sem s e l), (sem s e r). }
  cbn zeta. fold l' r'. destruct (uniq s !! (v, l', r')) as [i|] eqn:Eu.
  - apply (wf_uniq _ W) in Eu. exists (l.1, i), s. split_and!; try done.
    + right. cbn. rewrite Eu. eauto.
    + intros e. rewrite (sem_node _ _ _ _ _ _ _ W Eu). apply Hsem.
  - set (s1 := match free s with [] => grow_MainTbl s | _ => s end).
    assert (WFn s1 /\ pext s s1 /\ cache s1 = cache s /\ uniq s1 = uniq s /\ nodes s1 = nodes s /\ free s1 <> []) as
      (W1&P1&C1&U1&N1&F1).
    { unfold s1. destruct (free s) eqn:Ef.
      - destruct (grow_WFn s W Ef). split_and!; try done.
      - rewrite Ef. split_and!; try done. }
    destruct (free s1) as [|i fr] eqn:Ef1; [done|].
    rewrite <- U1 in Eu.
    assert (forall f, lvl s1 f = lvl s f) as HL.
    { intros f. unfold lvl. rewrite N1, (pext_nvars _ _ P1).
      destruct (nodes s !! f.2) as [[[? ?] ?]|]; [|done]. by apply pext_ORDER. }
    destruct (add_node_WFn s1 i fr v l' r' W1 Ef1 Eu) as [W2 P2]; try done.
    { by rewrite (pext_nvars _ _ P1). }
    { plive. }
    { plive. }
    { rewrite HL, (pext_ORDER _ _ _ P1). lia. }
    { rewrite HL, (pext_ORDER _ _ _ P1). lia. }
    pose proof (pext_trans _ _ _ P1 P2) as P3.
    assert (nodes (add_node s1 i (v, l', r') fr) !! i = Some (v, l', r')) as En
      by (cbn; by rewrite lookup_insert).
    exists (l.1, i), (add_node s1 i (v, l', r') fr). split_and!; try done.
    + right. cbn [snd]. rewrite En. eauto.
    + intros e. rewrite (sem_node _ _ _ _ _ _ _ W2 En).
      rewrite (pext_sem s _ l'), (pext_sem s _ r'); try done.
Qed.

Lemma find_insert_spec v l r s : WF s -> v < nvars s -> live s l -> live s r ->
  ORDER s v < lvl s l -> ORDER s v < lvl s r ->
  spec (find_insert v l r) s (fun f s' => live s' f /\
    forall e, sem s' e f = if e v then sem s e l else sem s e r).
Proof.
  intros W Hv Ll Lr Ol Or.
  destruct (find_insert_n v l r s W Hv Ll Lr Ol Or) as (f&s'&E&W'&P&C&L&H&_).
  exists f, s'. split_and!; try done. eapply WF_pext; [done|done|done|].
  intros. left. by rewrite <- C.
Qed.

Lemma cache_insert_spec fn f g r s : WF s -> live s f -> live s g -> live s r ->
  cache_sem s fn f g r ->
  spec (cache_insert fn f g r) s (fun _ s' => nodes s' = nodes s).
Proof.
  intros W Lf Lg Lr Hc. eexists tt, _. split; [done|].
  set (s' := mkSt _ _ _ _ _ _ _ _).
  assert (pext s s') as P by (split_and!; done).
  assert (WFn s') as W'.
  { destruct (wf_n _ W). constructor; assumption. }
  split_and!; try done. eapply WF_pext; [done|done|done|].
  intros fn' f' g' r'. cbn. destruct (decide ((fn', f', g') = (fn, f, g))) as [E|E].
  - injection E as -> -> ->. rewrite lookup_insert. intros [= <-]. right.
    split_and!; done.
  - rewrite lookup_insert_ne by congruence. intros H. by left.
Qed.

(** ** The binary operations *)
Lemma opsem_and a b : opsem tAND a b = a && b.
Proof. reflexivity. Qed.
Lemma opsem_or a b : opsem tOR a b = a || b.
Proof. reflexivity. Qed.
Lemma opsem_xor a b : opsem tXOR a b = xorb a b.
Proof. reflexivity. Qed.
Ltac dtag := repeat match goal with |- context [decide (?a = ?b)] =>
    match type of a with N =>
      first [rewrite (decide_True (P := a = b)) by reflexivity
            |rewrite (decide_False (P := a = b)) by discriminate] end end;
  repeat match goal with |- context [opsem tAND] => setoid_rewrite opsem_and
    | |- context [opsem tOR] => setoid_rewrite opsem_or
    | |- context [opsem tXOR] => setoid_rewrite opsem_xor end.
Definition is_op (fn : N) : Prop := fn = tAND \/ fn = tOR \/ fn = tXOR.

Lemma step_simple_sem s fn f g r : WFn s -> is_op fn -> live s f -> live s g ->
  step_simple fn f g = Some r ->
  live s r /\ forall e, sem s e r = opsem fn (sem s e f) (sem s e g).
Proof.
  intros W Hop Lf Lg. unfold step_simple.
  destruct (decide (f.2 = g.2)) as [E|E].
  { destruct (decide (f = g)) as [->|Hne].
    - intros [= <-]. split; [by destruct (decide _); [apply live_const|]|]. intros e.
      destruct Hop as [->|[->| ->]]; dtag; rewrite ?sem_ZERO; by destruct (sem s e g).
    - assert (f = bnot g) as ->.
      { destruct f as [[] i], g as [[] j]; unfold bnot; cbn in *; congruence. }
      intros [= <-]. split; [by destruct (decide _); apply live_const|]. intros e.
      rewrite (sem_bnot _ _ _ W Lg).
      destruct Hop as [->|[->| ->]]; dtag; rewrite ?sem_ZERO, ?sem_ONE; by destruct (sem s e g). }
  destruct (decide (f.2 = 0 \/ g.2 = 0)) as [H0|]; [|done].
  assert (forall h : fml, h.2 = 0 -> h <> ONE -> h = ZERO) as HZ.
  { intros [[] ?]; unfold ONE, ZERO; cbn; intros ->; done. }
  assert (forall h : fml, h.2 = 0 -> h <> ZERO -> h = ONE) as HO.
  { intros [[] ?]; unfold ONE, ZERO; cbn; intros ->; done. }
  destruct Hop as [->|[->| ->]]; dtag.
  - destruct (decide (f = ONE)) as [->|Hf]; [|destruct (decide (g = ONE)) as [->|Hg]];
      intros [= <-]; (split; [try done; apply live_const|]); intros e; rewrite ?sem_ONE, ?sem_ZERO.
    + by destruct (sem s e g).
    + by destruct (sem s e f).
    + destruct H0 as [H0|H0]; (apply HZ in H0 as ->; [|done]); rewrite sem_ZERO; [done|by destruct (sem s e f)].
  - destruct (decide (f = ZERO)) as [->|Hf]; [|destruct (decide (g = ZERO)) as [->|Hg]];
      intros [= <-]; (split; [try done; apply live_const|]); intros e; rewrite ?sem_ONE, ?sem_ZERO.
    + by destruct (sem s e g).
    + by destruct (sem s e f).
    + destruct H0 as [H0|H0]; (apply HO in H0 as ->; [|done]); rewrite sem_ONE; [done|by destruct (sem s e f)].
  - destruct (decide (f = ZERO)) as [->|Hf];
      [|destruct (decide (g = ZERO)) as [->|Hg]; [|destruct (decide (f = ONE)) as [->|Hf']]];
      intros [= <-]; (split; [done|]); intros e; rewrite ?sem_bnot, ?sem_ONE, ?sem_ZERO by done.
    + by destruct (sem s e g).
    + by destruct (sem s e f).
    + by destruct (sem s e g).
    + destruct H0 as [H0|H0]; [by apply HO in H0|]. apply HO in H0 as ->; [|done].
      rewrite sem_ONE. by destruct (sem s e f).
Qed.

Lemma step_simple_none fn f g : step_simple fn f g = None -> f.2 <> 0 /\ g.2 <> 0.
Proof.
  unfold step_simple. destruct (decide (f.2 = g.2)).
  { by destruct (decide (f = g)). }
  destruct (decide (f.2 = 0 \/ g.2 = 0)).
  - repeat destruct (decide _); done.
  - intros _. by split; intros ?; apply n0; [left|right].
Qed.

Lemma live_lsonc s f v l r : WFn s -> nodes s !! f.2 = Some (v, l, r) ->
  live s (lsonc f (v, l, r)) /\ live s (rsonc f (v, l, r)).
Proof.
  intros W E. pose proof (wf_node _ W _ _ _ _ E) as (Hv&_&_&Ll&Lr&_).
  unfold lsonc, rsonc. by destruct f.1.
Qed.
Lemma sem_sonsc s f v l r e : WFn s -> nodes s !! f.2 = Some (v, l, r) ->
  sem s e f = if e v then sem s e (lsonc f (v, l, r)) else sem s e (rsonc f (v, l, r)).
Proof.
  intros W E. pose proof (wf_node _ W _ _ _ _ E) as (Hv&_&_&Ll&Lr&_).
  destruct f as [n i]. cbn in E. rewrite (sem_node _ _ _ _ _ _ _ W E).
  unfold lsonc, rsonc. cbn. destruct n; rewrite ?sem_bnot by done;
    by destruct (e v), (sem s e l), (sem s e r).
Qed.
Lemma lvl_sonsc s f v l r : WFn s -> nodes s !! f.2 = Some (v, l, r) ->
  lvl s f = ORDER s v /\
  ORDER s v < lvl s (lsonc f (v, l, r)) /\ ORDER s v < lvl s (rsonc f (v, l, r)).
Proof.
  intros W E. pose proof (wf_node _ W _ _ _ _ E) as (Hv&_&_&Ll&Lr&?&?&_).
  split. { unfold lvl. by rewrite E. }
  unfold lsonc, rsonc. by destruct f.1.
Qed.

(** Level of a result from its meaning. *)
Lemma lvl_ge_op s s' fn f g r k : WFn s -> WFn s' -> pext s s' ->
  live s f -> live s g -> live s' r ->
  (forall e, sem s' e r = opsem fn (sem s e f) (sem s e g)) ->
  k <= lvl s f -> k <= lvl s g -> k <= lvl s' r.
Proof.
  intros W W' P Lf Lg Lr Hs Hf Hg. apply lvl_ge; [done|done| |].
  - rewrite (pext_nvars _ _ P). pose proof (lvl_le s f W). lia.
  - intros v Hv Ho e b. rewrite (pext_nvars _ _ P) in Hv. rewrite (pext_ORDER _ _ _ P) in Ho.
    rewrite !Hs. by rewrite (sem_upd_above s v b W Hv f Lf), (sem_upd_above s v b W Hv g Lg) by lia.
Qed.

Lemma bdd_step_spec fn : is_op fn -> forall fuel s f g, WF s -> live s f -> live s g ->
  (N.to_nat (nvars s - N.min (lvl s f) (lvl s g)) < fuel)%nat ->
  spec (bdd_step fuel fn f g) s (fun r s' => live s' r /\
    forall e, sem s' e r = opsem fn (sem s e f) (sem s e g)).
Proof.
  intros Hop. induction fuel as [|fuel IH]; intros s f g W Lf Lg Hfuel; [lia|].
  unfold spec. cbn [bdd_step].
  destruct (step_simple fn f g) as [r|] eqn:Es.
  { destruct (step_simple_sem s fn f g r W Hop Lf Lg Es). apply (spec_ret r s); done. }
  apply step_simple_none in Es as [Hf0 Hg0].
  destruct (cache s !! (fn, f, g)) as [r|] eqn:Ec.
  { apply (wf_cache _ W) in Ec as (_&_&Lr&Hc).
    apply (spec_ret r s); [done|]. split; [done|].
    destruct Hc as [[_ Hc]|[[-> _]|[[-> _]|[-> _]]]]; [done|..];
      destruct Hop as [?|[?|?]]; done. }
  destruct (live_cases _ _ Lf) as [?|(v1&l1&r1&E1)]; [done|].
  destruct (live_cases _ _ Lg) as [?|(v2&l2&r2&E2)]; [done|].
  pose proof (wf_n _ W) as Wn.
  pose proof (wf_node _ Wn _ _ _ _ E1) as (Hv1&_).
  pose proof (wf_node _ Wn _ _ _ _ E2) as (Hv2&_).
  destruct (lvl_sonsc s f v1 l1 r1 Wn E1) as (Lv1&OL1&OR1).
  destruct (lvl_sonsc s g v2 l2 r2 Wn E2) as (Lv2&OL2&OR2).
  destruct (live_lsonc s f v1 l1 r1 Wn E1) as [LL1 LR1].
  destruct (live_lsonc s g v2 l2 r2 Wn E2) as [LL2 LR2].
  pose proof (fun e => sem_sonsc s f v1 l1 r1 e Wn E1) as S1.
  pose proof (fun e => sem_sonsc s g v2 l2 r2 e Wn E2) as S2.
  unfold bind at 1. unfold get_node at 1. rewrite E1.
  unfold bind at 1. unfold get_node at 1. rewrite E2. cbn [fst snd].
  set (o1 := ORDER s v1) in *. set (o2 := ORDER s v2) in *.
  set (v := if decide (o2 < o1) then v2 else v1).
  set (lson1 := if decide (o2 < o1) then f else lsonc f (v1, l1, r1)).
  set (rson1 := if decide (o2 < o1) then f else rsonc f (v1, l1, r1)).
  set (lson2 := if decide (o1 < o2) then g else lsonc g (v2, l2, r2)).
  set (rson2 := if decide (o1 < o2) then g else rsonc g (v2, l2, r2)).
  assert (v < nvars s /\ ORDER s v = N.min o1 o2) as [Hv Ov].
  { unfold v. destruct (decide (o2 < o1)); (split; [done|]); fold o1; fold o2; lia. }
  assert (live s lson1 /\ live s rson1 /\ live s lson2 /\ live s rson2) as (A1&A2&A3&A4).
  { unfold lson1, rson1, lson2, rson2.
    destruct (decide (o2 < o1)), (decide (o1 < o2)); done. }
  assert (ORDER s v < lvl s lson1 /\ ORDER s v < lvl s rson1 /\
          ORDER s v < lvl s lson2 /\ ORDER s v < lvl s rson2) as (B1&B2&B3&B4).
  { rewrite Ov. unfold lson1, rson1, lson2, rson2.
    destruct (decide (o2 < o1)), (decide (o1 < o2)); lia. }
  assert (forall e : env, opsem fn (sem s e f) (sem s e g) =
     if e v then opsem fn (sem s e lson1) (sem s e lson2)
            else opsem fn (sem s e rson1) (sem s e rson2)) as HS.
  { intros e. unfold v, lson1, rson1, lson2, rson2.
    destruct (decide (o2 < o1)), (decide (o1 < o2)); [lia|..].
    - rewrite (S2 e). by destruct (e v2).
    - rewrite (S1 e). by destruct (e v1).
    - assert (v1 = v2) as -> by (apply (wf_ord_inj _ Wn); [done|done|fold o1; fold o2; lia]).
      rewrite (S1 e), (S2 e). by destruct (e v2). }
  pose proof (ORDER_lt_nvars _ _ Wn Hv) as Hvn.
  pose proof (lvl_le s lson1 Wn). pose proof (lvl_le s lson2 Wn).
  pose proof (lvl_le s rson1 Wn). pose proof (lvl_le s rson2 Wn).
  apply spec_bind.
  eapply spec_weaken; [apply (IH s lson1 lson2); [done|done|done|lia]|].
  intros l s1 W1 P1 [Ll Sl] _ _.
  apply spec_bind.
  eapply spec_weaken; [apply (IH s1 rson1 rson2); [done|plive..|]|].
  { rewrite (pext_nvars _ _ P1).
    rewrite !(pext_lvl s s1) by (try done; apply W1). lia. }
  intros r s2 W2 P2 [Lr Sr] _ _.
  assert (forall e, sem s2 e r = opsem fn (sem s e rson1) (sem s e rson2)) as Sr'.
  { intros e. rewrite Sr. rewrite !(pext_sem s s1) by (try done; apply W1). done. }
  assert (forall e, sem s2 e l = opsem fn (sem s e lson1) (sem s e lson2)) as Sl'.
  { intros e. rewrite (pext_sem s1 s2) by (try done; try apply W1; try apply W2). done. }
  pose proof (pext_trans _ _ _ P1 P2) as P12.
  assert (live s2 l) as Ll2 by plive.
  assert (ORDER s v < lvl s2 l).
  { apply N.lt_le_trans with (N.min (lvl s lson1) (lvl s lson2)); [lia|].
    eapply (lvl_ge_op s s2 fn lson1 lson2); try done; try lia. }
  assert (ORDER s v < lvl s2 r).
  { apply N.lt_le_trans with (N.min (lvl s rson1) (lvl s rson2)); [lia|].
    eapply (lvl_ge_op s s2 fn rson1 rson2); try done; try lia. }
  apply spec_bind.
  assert (spec (if decide (l = r) then ret l else find_insert v l r) s2
    (fun res s3 => live s3 res /\ forall e, sem s3 e res = if e v then sem s2 e l else sem s2 e r)) as HF.
  { destruct (decide (l = r)) as [->|].
    - apply spec_ret; [done|]. split; [done|]. intros e. by destruct (e v).
    - apply find_insert_spec; try done.
      + by rewrite (pext_nvars _ _ P12).
      + by rewrite (pext_ORDER _ _ _ P12).
      + by rewrite (pext_ORDER _ _ _ P12). }
  eapply spec_weaken; [apply HF|].
  intros res s3 W3 P3 [Lres Sres] _ _.
  pose proof (pext_trans _ _ _ P12 P3) as P13.
  assert (forall e, sem s3 e res = opsem fn (sem s e f) (sem s e g)) as Sres'.
  { intros e. rewrite Sres, HS, Sl', Sr'. done. }
  apply spec_bind.
  eapply spec_weaken; [apply cache_insert_spec; try done; try (plive)|].
  { left. split; [done|]. intros e. rewrite Sres'.
    rewrite !(pext_sem s s3) by (try done; apply W3). done. }
  intros ? s4 W4 P4 Hn _ _. apply spec_ret; [done|].
  split; [plive|].
  intros e. rewrite (pext_sem s3 s4) by (try done; try apply W3; try apply W4). done.
Qed.

Lemma step_spec fn s f g : is_op fn -> WF s -> live s f -> live s g ->
  spec (step fn f g) s (fun r s' => live s' r /\
    forall e, sem s' e r = opsem fn (sem s e f) (sem s e g)).
Proof.
  intros. unfold spec, step. apply bdd_step_spec; try done. unfold nvars. lia.
Qed.

Lemma B_And_spec s f g : WF s -> live s f -> live s g ->
  spec (B_And f g) s (fun r s' => live s' r /\ forall e, sem s' e r = sem s e f && sem s e g).
Proof. intros. apply (step_spec tAND); [by left|done..]. Qed.
Lemma B_Or_spec s f g : WF s -> live s f -> live s g ->
  spec (B_Or f g) s (fun r s' => live s' r /\ forall e, sem s' e r = sem s e f || sem s e g).
Proof. intros. apply (step_spec tOR); [right; by left|done..]. Qed.
Lemma B_Xor_spec s f g : WF s -> live s f -> live s g ->
  spec (B_Xor f g) s (fun r s' => live s' r /\ forall e, sem s' e r = xorb (sem s e f) (sem s e g)).
Proof. intros. apply (step_spec tXOR); [right; by right|done..]. Qed.
Lemma B_Not_spec s f : WF s -> live s f ->
  spec (B_Not f) s (fun r s' => live s' r /\ forall e, sem s' e r = negb (sem s e f)).
Proof. intros. apply spec_ret; [done|]. split; [done|]. intros. by apply sem_bnot. Qed.

Lemma not_op_spec fn s f g : is_op fn -> WF s -> live s f -> live s g ->
  spec (let* r := step fn f g in ret (bnot r)) s (fun r s' => live s' r /\
    forall e, sem s' e r = negb (opsem fn (sem s e f) (sem s e g))).
Proof.
  intros. apply spec_bind. eapply spec_weaken; [by apply step_spec|].
  intros r s' W' P' [L S] _ _. apply spec_ret; [done|]. split; [done|].
  intros e. rewrite sem_bnot by done. by rewrite S.
Qed.
Lemma B_Nand_spec s f g : WF s -> live s f -> live s g ->
  spec (B_Nand f g) s (fun r s' => live s' r /\ forall e, sem s' e r = negb (sem s e f && sem s e g)).
Proof. intros. apply (not_op_spec tAND); [by left|done..]. Qed.
Lemma B_Nor_spec s f g : WF s -> live s f -> live s g ->
  spec (B_Nor f g) s (fun r s' => live s' r /\ forall e, sem s' e r = negb (sem s e f || sem s e g)).
Proof. intros. apply (not_op_spec tOR); [right; by left|done..]. Qed.
Lemma B_Xnor_spec s f g : WF s -> live s f -> live s g ->
  spec (B_Xnor f g) s (fun r s' => live s' r /\ forall e, sem s' e r = negb (xorb (sem s e f) (sem s e g))).
Proof. intros. apply (not_op_spec tXOR); [right; by right|done..]. Qed.

Lemma B_Ite_spec s i t el : WF s -> live s i -> live s t -> live s el ->
  spec (B_Ite i t el) s (fun r s' => live s' r /\
    forall e, sem s' e r = if sem s e i then sem s e t else sem s e el).
Proof.
  intros W Li Lt Le. unfold B_Ite. apply spec_bind.
  eapply spec_weaken; [by apply B_And_spec|]. intros f1 s1 W1 P1 [L1 S1] _ _.
  apply spec_bind. eapply spec_weaken; [apply B_And_spec; [done|plive..]|].
  intros f2 s2 W2 P2 [L2 S2] _ _.
  eapply spec_weaken; [apply B_Or_spec; [done|plive|done]|].
  intros r s3 W3 P3 [L3 S3]. split; [done|]. intros e.
  rewrite S3, S2. rewrite (pext_sem s1 s2) by (try done; try apply W1; try apply W2).
  rewrite S1. rewrite !(pext_sem s s1) by (try done; try apply W; try apply W1).
  rewrite sem_bnot by (try done; apply W).
  by destruct (sem s e i), (sem s e t), (sem s e el).
Qed.

Lemma F_and_spec s f g : WF s -> live s f -> live s g ->
  spec (F_and f g) s (fun r s' => live s' r /\ forall e, sem s' e r = sem s e f && sem s e g).
Proof.
  intros W Lf Lg. unfold F_and.
  destruct (decide _) as [[->| ->]|_]; [| |destruct (decide _) as [->|_]; [|destruct (decide _) as [->|_]]];
    try (apply spec_ret; [done|]; split; [try done; apply live_const|]; intros e;
         rewrite ?sem_ZERO, ?sem_ONE, ?andb_true_r, ?andb_false_r; done).
  by apply B_And_spec.
Qed.
Lemma F_or_spec s f g : WF s -> live s f -> live s g ->
  spec (F_or f g) s (fun r s' => live s' r /\ forall e, sem s' e r = sem s e f || sem s e g).
Proof.
  intros W Lf Lg. unfold F_or.
  destruct (decide _) as [[->| ->]|_]; [| |destruct (decide _) as [->|_]; [|destruct (decide _) as [->|_]]];
    try (apply spec_ret; [done|]; split; [try done; apply live_const|]; intros e;
         rewrite ?sem_ZERO, ?sem_ONE, ?orb_true_r, ?orb_false_r; done).
  by apply B_Or_spec.
Qed.
