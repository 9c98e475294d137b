(** Collection, substitution and the conversions to and from BDDs. *)
From stdpp Require Import gmap strings list.
From Coq Require Import NArith ZArith Lia.
From Verif Require Import BddModel BddWf BddDen BddRelprod BddHist BddThms BeModel BeSem.
Open Scope Z_scope.

(** * Collection *)
Lemma sigs_ok (x : bx) (K : gset N) l : forall sg,
  (forall s q p, sg !! s = Some q -> p ∈ q -> p ∈ K /\ exists r, b_heap x !! p = Some r /\ b_sig r = s) ->
  forall s q p, foldl (fun sg p => match b_heap x !! p with Some r => if decide (p ∈ K) then sig_insert sg p r else sg | None => sg end) sg l !! s = Some q -> p ∈ q ->
  p ∈ K /\ exists r, b_heap x !! p = Some r /\ b_sig r = s.
Proof.
  induction l as [|p l IH]; intros sg H; [exact H|]. cbn [foldl]. apply IH.
  destruct (b_heap x !! p) as [r|] eqn:Hp; [|exact H]. destruct (decide (p ∈ K)) as [HK|HK]; [|exact H].
  assert (Q : forall q', (forall p', p' ∈ q' -> p' = p \/ exists q, sg !! b_sig r = Some q /\ p' ∈ q) ->
    forall s q p', <[b_sig r := q']> sg !! s = Some q -> p' ∈ q -> p' ∈ K /\ exists r, b_heap x !! p' = Some r /\ b_sig r = s).
  { intros q' Hq' s q p' Hs Hi. apply lookup_insert_Some in Hs as [[<- <-]|[_ Hs]]; [|by apply (H s q)].
    destruct (Hq' p' Hi) as [->|(q&Hq&Hi')]; [|by apply (H _ q)]. split; [done|]. by exists r. }
  unfold sig_insert. destruct (sg !! b_sig r) as [[|h t]|] eqn:Es; apply Q; intros p' Hi.
  - apply elem_of_list_singleton in Hi. by left.
  - apply elem_of_cons in Hi as [->|[->|Hi]%elem_of_cons]; [|by left|]; right; exists (h :: t); (split; [done|]);
      apply elem_of_cons; [by left|by right].
  - apply elem_of_list_singleton in Hi. by left.
Qed.

Lemma in_addresses x p : p ∈ addresses x <-> (p < b_next x)%N.
Proof.
  unfold addresses. rewrite elem_of_list_fmap. split.
  - intros (n&->&Hn). apply elem_of_seq in Hn. lia.
  - intros H. exists (N.to_nat p). split; [lia|]. apply elem_of_seq. lia.
Qed.
Lemma addresses_nd x : NoDup (addresses x).
Proof. unfold addresses. apply NoDup_fmap_2; [|apply NoDup_seq]. intros a b H. lia. Qed.

Section clean.
  Context (c : cfg) (x : bx) (K : gset N) (I : inv c x) (HK : closed K x).
  Let x' := BE_Clean K x.
  Lemma clean_lookup p r : b_heap x' !! p = Some r <-> b_heap x !! p = Some r /\ p ∈ K.
  Proof. unfold x', BE_Clean. cbn [b_heap]. rewrite map_filter_lookup_Some. done. Qed.
  Lemma clean_ev E p a : p ∈ K -> ev (b_heap x) E p a -> ev (b_heap x') E p a.
  Proof.
    intros Hp H. revert Hp. induction H as [p r Hh Hn|p r v Hh Hn|p r f g a b Hh Hn _ IH1 _ IH2]; intros Hp.
    - eapply ev_one; [by apply clean_lookup|done].
    - eapply ev_var; [by apply clean_lookup|done].
    - destruct (proj2 HK p r f g Hp Hh Hn) as [K1 K2]. eapply ev_and; [by apply clean_lookup|done| |]; auto.
  Qed.
  Lemma clean_ev' E p a : ev (b_heap x') E p a -> ev (b_heap x) E p a.
  Proof. apply ev_mono. intros q r [H _]%clean_lookup. by exists r. Qed.
  Lemma clean_val E f a : f.2 ∈ K -> val x E f a -> val x' E f a.
  Proof. intros. by apply clean_ev. Qed.
  Lemma clean_inv : inv c x'.
  Proof.
    constructor.
    - destruct (i_zero c x I) as (r&Hr&?). exists r. split; [|done]. apply clean_lookup. split; [done|apply HK].
    - intros p r [H _]%clean_lookup. by apply (i_one c x I).
    - intros p [r [H Hp]%clean_lookup] E. destruct (i_val c x I p) with E as [a Ha]; [by eexists|]. exists a. by apply clean_ev.
    - intros n p H. unfold x', BE_Clean in H. cbn [b_uniq] in H. apply map_filter_lookup_Some in H as [H Hp].
      destruct (i_uniq c x I n p H) as (r&Hr&E). exists r. split; [by apply clean_lookup|done].
    - intros s l p H Hp. unfold x', BE_Clean in H. cbn [b_sigs] in H.
      destruct (sigs_ok x K (addresses x) ∅) with s l p as [Kp (r&Hr&E)]; try done. exists r. split; [by apply clean_lookup|done].
    - intros E. destruct (i_sat c x I E) as (A&S1&S2). exists A. split; [done|].
      intros p r a [H _]%clean_lookup Hp Ha%clean_ev'. by apply (S2 p).
    - intros p r [H _]%clean_lookup. by apply (i_idx c x I).
    - apply (i_cls c x I).
    - intros p H. unfold x', BE_Clean in H. cbn [b_free] in H. apply elem_of_list_filter in H as [Hf Hp].
      apply elem_of_reverse, in_addresses in Hp. split; [|done].
      destruct (b_heap x' !! p) as [r|] eqn:Hh; [|done]. apply clean_lookup in Hh as [Hh Hk]. destruct Hf; [congruence|done].
    - unfold x', BE_Clean. cbn [b_free]. apply NoDup_filter. rewrite reverse_Permutation. apply addresses_nd.
    - intros p [r [H _]%clean_lookup]. apply (i_next c x I). by eexists.
    - apply (i_nv c x I).
  Qed.
End clean.

(** * Substitution *)
(** [E'] is [E] with each variable replaced by the value of its expression. *)
Definition sub_env (x : bx) (sub : gmap string bref) (E E' : string -> bool) : Prop :=
  forall v, match sub !! v with Some g => val x E g (E' v) | None => E' v = E v end.
Definition node_val (h : gmap N brec) (E : string -> bool) (n : bnode) (a : bool) : Prop :=
  match n with
  | NOne => a = true
  | NVar v => a = E v
  | NAnd f g => exists p q, ev h E f.2 p /\ ev h E g.2 q /\ a = xorb f.1 p && xorb g.1 q
  end.
Lemma ev_node h E p r a : h !! p = Some r -> ev h E p a -> node_val h E (b_node r) a.
Proof.
  intros Hp H. inversion H as [q r' Hp' Hn|q r' v Hp' Hn|q r' f g u w Hp' Hn Hu Hw]; subst;
    rewrite Hp in Hp'; injection Hp' as <-; rewrite Hn; cbn; [done|done|]. by exists u, w.
Qed.
Lemma sub_env_back x x' sub E E' : grow x x' -> (forall v g, sub !! v = Some g -> forall E, exists a, val x E g a) ->
  sub_env x' sub E E' -> sub_env x sub E E'.
Proof.
  intros G Hs H v. specialize (H v). destruct (sub !! v) as [g|] eqn:Hg; [|done]. destruct (Hs v g Hg E) as [a Ha].
  pose proof (val_grow _ _ _ _ _ G Ha) as Ha'. by rewrite (val_fun _ _ _ _ _ H Ha').
Qed.
Definition kids_ok (x : bx) (n : bnode) : Prop := match n with NAnd f g => ok x f.2 /\ ok x g.2 | _ => True end.
Definition memo_ok (x0 x : bx) (sub : gmap string bref) (memo : gmap bnode bref) : Prop := forall n res, memo !! n = Some res ->
  kids_ok x n /\ ok x res.2 /\ forall E E' a, sub_env x0 sub E E' -> node_val (b_heap x) E' n a -> val x E res a.
Lemma memo_grow c x0 x x' sub memo : inv c x -> grow x x' -> memo_ok x0 x sub memo -> memo_ok x0 x' sub memo.
Proof.
  intros I G H n res Hn. destruct (H n res Hn) as (K&O&V). split_and!.
  - destruct n; cbn in *; try done. destruct K. split; okg.
  - by eapply ok_grow.
  - intros E E' a HE Ha. eapply val_grow; [done|]. apply (V E E' a HE). destruct n as [|v|f g]; cbn in *; try done.
    destruct Ha as (p&q&Hp&Hq&->), K as [Kf Kg].
    destruct (i_val c x I f.2 Kf E') as [p' Hp'], (i_val c x I g.2 Kg E') as [q' Hq'].
    exists p, q. rewrite (ev_fun _ _ _ _ _ Hp (ev_mono _ _ _ _ _ G Hp')), (ev_fun _ _ _ _ _ Hq (ev_mono _ _ _ _ _ G Hq')). done.
Qed.
Lemma kids c x p r f g : inv c x -> b_heap x !! p = Some r -> b_node r = NAnd f g -> ok x f.2 /\ ok x g.2.
Proof.
  intros I H Hn. destruct (i_val c x I p) with (fun _ : string => true) as [a Ha]; [by eexists|].
  pose proof (ev_node _ _ _ _ _ H Ha) as N0. rewrite Hn in N0. destruct N0 as (u&w&Hu&Hw&_).
  split; [inversion Hu|inversion Hw]; by eexists.
Qed.

Definition subst_post (c : cfg) (x0 x : bx) (sub : gmap string bref) (be : bref) (r : bref) (memo' : gmap bnode bref) (x' : bx) : Prop :=
  inv c x' /\ grow x x' /\ ok x' r.2 /\ memo_ok x0 x' sub memo' /\ forall E E' a, sub_env x0 sub E E' -> val x E' be a -> val x' E r a.
Lemma val_sgn x E (n : bool) r a : val x E r a -> val x E (if n then bref_not r else r) (xorb n a).
Proof. destruct n; [|by rewrite xorb_false_l]. intros H%val_not. by rewrite xorb_true_l. Qed.
Lemma ok_sgn x (n : bool) r : ok x r.2 -> ok x ((if n then bref_not r else r).2).
Proof. by destruct n. Qed.
Lemma val_split x E (f : bref) a : val x E f a -> exists b, ev (b_heap x) E f.2 b /\ a = xorb f.1 b.
Proof. unfold val. intros H. eexists. split; [exact H|]. by destruct f.1, a. Qed.

Lemma be_subst_ok c sub x0 : sound c -> forall fuel x be memo r memo' x', inv c x -> grow x0 x -> ok x be.2 -> memo_ok x0 x sub memo ->
  (forall v g, sub !! v = Some g -> ok x0 g.2) ->
  be_subst c fuel sub be memo x = Some ((r, memo'), x') -> subst_post c x0 x sub be r memo' x'.
Proof.
  intros Sd. induction fuel as [|fuel IH]; intros x be memo r memo' x' I G0 O M Hs; cbn [be_subst]; [done|].
  destruct (decide (be = BTRUE \/ be = BFALSE)) as [Hc|Hc].
  { intros [= <- <- <-]. split_and!; [done|apply grow_refl|done|done|]. intros E E' a _ Ha.
    destruct Hc as [-> | ->]; [rewrite (val_fun _ _ _ _ _ Ha (val_TRUE c x E' I)); by apply (val_TRUE c)|
                               rewrite (val_fun _ _ _ _ _ Ha (val_FALSE c x E' I)); by apply (val_FALSE c)]. }
  destruct (b_heap x !! be.2) as [b|] eqn:Hb; [|done]. destruct (memo !! b_node b) as [res|] eqn:Hm.
  { intros [= <- <- <-]. destruct (M _ _ Hm) as (_&Or&V). split_and!; [done|apply grow_refl|by apply ok_sgn|done|].
    intros E E' a HE Ha. apply val_split in Ha as (u&Hu&->). apply val_sgn, (V E E' u HE). by eapply ev_node. }
  destruct (b_node b) as [|v|f g] eqn:Hn; [done| |].
  { intros [= <- <- <-]. split_and!; [done|apply grow_refl| |done|].
    - destruct (sub !! v) as [res|] eqn:Hv; [|done]. apply ok_sgn. eapply ok_grow; [done|]. by apply (Hs v).
    - intros E E' a HE Ha. pose proof (HE v) as Hv. apply val_split in Ha as (u&Hu&->).
      pose proof (ev_node _ _ _ _ _ Hb Hu) as N0. rewrite Hn in N0. cbn in N0. subst u. destruct (sub !! v) as [res|] eqn:Hv'.
      + apply val_sgn. by eapply val_grow.
      + rewrite Hv. unfold val. replace (xorb be.1 (xorb be.1 (E v))) with (E v) by (by destruct be.1, (E v)). by eapply ev_var. }
  unfold xbind at 1. destruct (kids c x _ _ _ _ I Hb Hn) as [Of Og].
  destruct (be_subst c fuel sub f memo x) as [[[fl m1] x1]|] eqn:E1; [|done].
  destruct (IH x f memo fl m1 x1 I G0 Of M Hs E1) as (I1&G1&O1&M1&V1). cbn [fst snd].
  unfold xbind at 1. assert (Og1 : ok x1 g.2) by okg.
  destruct (be_subst c fuel sub g m1 x1) as [[[fr m2] x2]|] eqn:E2; [|done].
  pose proof (grow_trans _ _ _ G0 G1) as G01. destruct (IH x1 g m1 fr m2 x2 I1 G01 Og1 M1 Hs E2) as (I2&G2&O2&M2&V2). cbn [fst snd].
  pose proof (grow_trans _ _ _ G1 G2) as G12.
  assert (O12 : ok x2 fl.2) by okg.
  assert (Hmk : makes c (if decide (f = fl /\ g = fr) then xret (false, be.2) else be_and c fl fr) x2
    (fun E v => exists a b, val x2 E fl a /\ val x2 E fr b /\ v = a && b)).
  { destruct (decide (f = fl /\ g = fr)) as [[<- <-]|Hd]; [|by apply be_and_ok]. apply makes_ret; [done| |].
    - cbn. eapply ok_grow; [done|]. by eexists.
    - intros E a (u&w&Hu&Hw&->). apply val_pos. destruct (G12 _ _ Hb) as (b'&Hb'&Hn'). rewrite Hn in Hn'.
      apply val_split in Hu as (u'&Hu'&->), Hw as (w'&Hw'&->). by eapply ev_and. }
  unfold xbind. destruct ((if decide (f = fl /\ g = fr) then xret (false, be.2) else be_and c fl fr) x2) as [[res x3]|] eqn:E3; [|done].
  destruct (proj1 Hmk res x3 E3) as (I3&G3&O3&V3). intros [= <- <- <-].
  assert (VV : forall E E' a, sub_env x0 sub E E' -> node_val (b_heap x) E' (NAnd f g) a -> val x3 E res a).
  { intros E E' a HE (p&q&Hp&Hq&->). apply V3. exists (xorb f.1 p), (xorb g.1 q). split_and!; [| |done].
    - eapply val_grow; [exact G2|]. apply (V1 E E' _ HE). unfold val. replace (xorb f.1 (xorb f.1 p)) with p by (by destruct f.1, p). done.
    - apply (V2 E E' _ HE). eapply val_grow; [exact G1|]. unfold val. replace (xorb g.1 (xorb g.1 q)) with q by (by destruct g.1, q). done. }
  pose proof (grow_trans _ _ _ G12 G3) as G13.
  split_and!; [done|done|by apply ok_sgn| |].
  - intros n rs Hr. apply lookup_insert_Some in Hr as [[<- <-]|[_ Hr]].
    + split_and!; [split; okg|done|]. intros E E' a HE (p&q&Hp&Hq&->). apply (VV E E' _ HE).
      destruct (i_val c x I f.2 Of E') as [p' Hp'], (i_val c x I g.2 Og E') as [q' Hq'].
      exists p', q'. rewrite (ev_fun _ _ _ _ _ Hp (ev_mono _ _ _ _ _ G13 Hp')), (ev_fun _ _ _ _ _ Hq (ev_mono _ _ _ _ _ G13 Hq')). done.
    + by apply (memo_grow c x0 x2 x3 sub m2 I2 G3 M2).
  - intros E E' a HE Ha. apply val_split in Ha as (u&Hu&->). apply val_sgn, (VV E E' u HE).
    pose proof (ev_node _ _ _ _ _ Hb Hu) as N0. by rewrite Hn in N0.
Qed.
(** It ends, and nothing goes wrong when no signature is that of TRUE. *)
Lemma be_subst_total c sub x0 : sound c -> no_clash c -> (forall v g, sub !! v = Some g -> ok x0 g.2) ->
  forall h E p a, ev h E p a -> exists n0, forall fuel x be memo, (n0 <= fuel)%nat -> inv c x -> grow x0 x -> be.2 = p -> ok x be.2 ->
    (forall p r, h !! p = Some r -> exists r', b_heap x !! p = Some r' /\ b_node r' = b_node r) -> memo_ok x0 x sub memo ->
    is_Some (be_subst c fuel sub be memo x).
Proof.
  intros Sd NC Hs h E p a Hev. induction Hev as [p r Hp Hn|p r v Hp Hn|p r f g a b Hp Hn _ [n1 IH1] _ [n2 IH2]].
  - exists 1%nat. intros [|fuel] x be memo Hf I G0 Hbe O Hg M; [lia|]. cbn [be_subst].
    destruct (decide (be = BTRUE \/ be = BFALSE)) as [|Hc]; [done|]. exfalso. apply Hc.
    destruct (Hg p r Hp) as (r'&Hr'&Hn'). rewrite Hn in Hn'. apply ref_zero. rewrite Hbe. by apply (i_one c x I p r').
  - exists 1%nat. intros [|fuel] x be memo Hf I G0 Hbe O Hg M; [lia|]. cbn [be_subst].
    destruct (decide (be = BTRUE \/ be = BFALSE)) as [|Hc]; [done|]. destruct (Hg p r Hp) as (r'&Hr'&Hn').
    rewrite Hbe, Hr'. destruct (memo !! _); [done|]. by rewrite Hn', Hn.
  - exists (S (n1 + n2))%nat. intros [|fuel] x be memo Hf I G0 Hbe O Hg M; [lia|]. cbn [be_subst].
    destruct (decide (be = BTRUE \/ be = BFALSE)) as [|Hc]; [done|]. destruct (Hg p r Hp) as (r'&Hr'&Hn'). rewrite Hn in Hn'.
    rewrite Hbe, Hr'. destruct (memo !! _); [done|]. rewrite Hn'. destruct (kids c x _ _ _ _ I Hr' Hn') as [Of Og].
    destruct (IH1 fuel x f memo) as [[[fl m1] x1] E1]; try done; [lia|]. unfold xbind at 1. rewrite E1.
    destruct (be_subst_ok c sub x0 Sd fuel x f memo fl m1 x1 I G0 Of M Hs E1) as (I1&G1&O1&M1&V1). cbn [fst snd].
    assert (Og1 : ok x1 g.2) by okg. pose proof (grow_trans _ _ _ G0 G1) as G01.
    destruct (IH2 fuel x1 g m1) as [[[fr m2] x2] E2]; try done; [lia| |].
    { intros q rq Hq. destruct (Hg q rq Hq) as (rq'&Hq'&Nq). destruct (G1 q rq' Hq') as (rq''&Hq''&Nq'). exists rq''. split; [done|congruence]. }
    unfold xbind at 1. rewrite E2.
    destruct (be_subst_ok c sub x0 Sd fuel x1 g m1 fr m2 x2 I1 G01 Og1 M1 Hs E2) as (I2&G2&O2&M2&V2). cbn [fst snd].
    unfold xbind. destruct (decide (f = fl /\ g = fr)); [done|].
    assert (O12 : ok x2 fl.2) by okg.
    destruct (proj2 (be_and_ok c fl fr x2 Sd I2 O12 O2) NC) as [[res x3] ->]. done.
Qed.

Lemma mk_subst_spec l : forall m, (forall v, v ∈ l.*1 -> m !! v = None) ->
  mk_subst l m = if decide (NoDup l.*1) then Some (list_to_map l ∪ m) else None.
Proof.
  induction l as [|[v e] l IH]; intros m Hm; cbn [mk_subst].
  - rewrite decide_True by (constructor). cbn. by rewrite (left_id_L ∅ (∪)).
  - rewrite Hm by (by left). destruct (decide (v ∈ l.*1)) as [Hv|Hv].
    + rewrite decide_False by (cbn; rewrite NoDup_cons; tauto).
      assert (Q : forall l (m : gmap string bref) v, v ∈ l.*1 -> is_Some (m !! v) -> mk_subst l m = None).
      { clear. induction l as [|[w e] l IH]; intros m v Hv Hs; cbn [mk_subst fmap list_fmap] in *; [by apply elem_of_nil in Hv|].
        destruct (m !! w) eqn:Hw; [done|]. apply elem_of_cons in Hv as [->|Hv]; [cbn in Hs; rewrite Hw in Hs; by destruct Hs|].
        apply (IH _ v Hv). destruct (decide (w = v)) as [->|Hne]; [by rewrite lookup_insert|by rewrite lookup_insert_ne]. }
      apply (Q l _ v Hv). by rewrite lookup_insert.
    + rewrite IH.
      * destruct (decide (NoDup l.*1)) as [Hd|Hd].
        -- rewrite decide_True by (cbn; by apply NoDup_cons). f_equal. cbn. rewrite <- insert_union_l. rewrite insert_union_r; [done|].
           by apply not_elem_of_list_to_map_1.
        -- rewrite decide_False; [done|]. cbn. rewrite NoDup_cons. tauto.
      * intros w Hw. rewrite lookup_insert_ne by congruence. apply Hm. cbn. by right.
Qed.

(** What a substitution given as a list makes of an assignment. *)
Definition assigns (x : bx) (sub : list (string * bref)) (E E' : string -> bool) : Prop :=
  (forall v g, (v, g) ∈ sub -> val x E g (E' v)) /\ forall v, v ∉ sub.*1 -> E' v = E v.
Lemma assigns_env x sub E E' : NoDup sub.*1 -> assigns x sub E E' -> sub_env x (list_to_map sub) E E'.
Proof.
  intros Hd [H1 H2] v. destruct (list_to_map sub !! v) as [g|] eqn:Hv.
  - apply H1. by apply elem_of_list_to_map in Hv.
  - apply H2. by apply not_elem_of_list_to_map in Hv.
Qed.
Lemma subst_list_ok c sub x0 fuel : sound c -> (forall v g, sub !! v = Some g -> ok x0 g.2) ->
  forall l x memo rs x', inv c x -> grow x0 x -> (forall f, f ∈ l -> ok x0 f.2) -> memo_ok x0 x sub memo ->
  subst_list c fuel sub l memo x = Some (rs, x') ->
  inv c x' /\ grow x x' /\ (forall r, r ∈ rs -> ok x' r.2) /\
  Forall2 (fun f r => forall E E' a, sub_env x0 sub E E' -> val x0 E' f a -> val x' E r a) l rs.
Proof.
  intros Sd Hs. induction l as [|f l IH]; intros x memo rs x' I G Ol M; cbn [subst_list].
  - intros [= <- <-]. split_and!; [done|apply grow_refl| |constructor]. intros r Hr. by apply elem_of_nil in Hr.
  - unfold xbind at 1. destruct (be_subst c fuel sub f memo x) as [[[r m1] x1]|] eqn:E1; [|done]. cbn [fst snd].
    assert (Of : ok x f.2). { eapply ok_grow; [done|]. apply Ol. by left. }
    destruct (be_subst_ok c sub x0 Sd fuel x f memo r m1 x1 I G Of M Hs E1) as (I1&G1&O1&M1&V1).
    unfold xbind at 1. destruct (subst_list c fuel sub l m1 x1) as [[rs1 x2]|] eqn:E2; [|done]. intros [= <- <-].
    destruct (IH x1 m1 rs1 x2 I1 (grow_trans _ _ _ G G1)) as (I2&G2&O2&F2); try done.
    { intros g Hg. apply Ol. by right. }
    split_and!; [done|by eapply grow_trans| |].
    + intros q [->|Hq]%elem_of_cons; [by eapply ok_grow|auto].
    + constructor; [|done]. intros E E' a HE Ha. eapply val_grow; [done|]. apply (V1 E E' a HE). by eapply val_grow.
Qed.
Lemma subst_list_total c sub x0 : sound c -> no_clash c -> inv c x0 -> (forall v g, sub !! v = Some g -> ok x0 g.2) ->
  forall l, (forall f, f ∈ l -> ok x0 f.2) -> exists n0, forall fuel, (n0 <= fuel)%nat -> forall x memo, inv c x -> grow x0 x -> memo_ok x0 x sub memo ->
  is_Some (subst_list c fuel sub l memo x).
Proof.
  intros Sd NC I0 Hs. induction l as [|f l IH]; intros Ol; [by exists 0%nat|].
  destruct IH as [n1 IH]; [intros g Hg; apply Ol; by right|].
  assert (Of : ok x0 f.2) by (apply Ol; by left).
  destruct (i_val c x0 I0 f.2 Of (fun _ => true)) as [a Ha].
  destruct (be_subst_total c sub x0 Sd NC Hs _ _ _ _ Ha) as [n2 T]. exists (n1 + n2)%nat. intros fuel Hf x memo I G M. cbn [subst_list].
  assert (Ofx : ok x f.2) by by eapply ok_grow.
  destruct (T fuel x f memo) as [[[r m1] x1] E1]; try done; [lia|]. unfold xbind at 1. rewrite E1. cbn [fst snd].
  destruct (be_subst_ok c sub x0 Sd fuel x f memo r m1 x1 I G Ofx M Hs E1) as (I1&G1&O1&M1&V1).
  unfold xbind. destruct (IH fuel ltac:(lia) x1 m1 I1 (grow_trans _ _ _ G G1) M1) as [[rs x2] ->]. done.
Qed.

(** * To BDDs *)
Definition bsub_env (s : bst) (sub : gmap string fml) (E E' : string -> bool) : Prop :=
  forall v, E' v = match sub !! v with Some g => den s g E | None => E v end.
(** The BDDs kept in the nodes are right for the substitution [sub]. *)
Definition cache_ok (sub : gmap string fml) (rs : list fml) (x : bx) (s : bst) : Prop :=
  forall p r f, b_heap x !! p = Some r -> b_bdd r = Some f -> f ∈ rs /\ forall E E' a, bsub_env s sub E E' -> ev (b_heap x) E' p a -> den s f E = a.
Lemma set_bdd_grow x p f : grow x (set_bdd x p f) /\ grow (set_bdd x p f) x.
Proof.
  unfold set_bdd. destruct (b_heap x !! p) as [b|] eqn:Hp; [|split; apply grow_refl]. split; intros q r Hq; cbn [b_heap] in *.
  - destruct (decide (q = p)) as [->|Hne].
    + rewrite lookup_insert. eexists. split; [done|]. cbn. congruence.
    + rewrite lookup_insert_ne by done. by exists r.
  - apply lookup_insert_Some in Hq as [[<- <-]|[_ Hq]]; [|by exists r]. by exists b.
Qed.
Lemma inv_set_bdd c x p f : inv c x -> inv c (set_bdd x p f).
Proof.
  intros I. destruct (set_bdd_grow x p f) as [G1 G2].
  assert (L : forall q r, b_heap (set_bdd x p f) !! q = Some r -> exists r0, b_heap x !! q = Some r0 /\ b_node r = b_node r0 /\ b_sat r = b_sat r0 /\ b_sig r = b_sig r0).
  { intros q r Hq. unfold set_bdd in Hq. destruct (b_heap x !! p) as [b|] eqn:Hp; [|by exists r]. cbn [b_heap] in Hq.
    apply lookup_insert_Some in Hq as [[<- <-]|[_ Hq]]; [by exists b|by exists r]. }
  assert (L' : forall q r, b_heap x !! q = Some r -> exists r0, b_heap (set_bdd x p f) !! q = Some r0 /\ b_node r0 = b_node r /\ b_sat r0 = b_sat r /\ b_sig r0 = b_sig r).
  { intros q r Hq. unfold set_bdd. destruct (b_heap x !! p) as [b|] eqn:Hp; [|by exists r]. cbn [b_heap].
    destruct (decide (q = p)) as [->|Hne]; [|rewrite lookup_insert_ne by done; by exists r].
    rewrite lookup_insert. eexists. split; [done|]. cbn. assert (b = r) as -> by congruence. done. }
  assert (Q : b_uniq (set_bdd x p f) = b_uniq x /\ b_sigs (set_bdd x p f) = b_sigs x /\ b_free (set_bdd x p f) = b_free x /\
    b_next (set_bdd x p f) = b_next x /\ b_nv (set_bdd x p f) = b_nv x /\ b_cls (set_bdd x p f) = b_cls x).
  { unfold set_bdd. by destruct (b_heap x !! p). }
  destruct Q as (Q1&Q2&Q3&Q4&Q5&Q6). constructor; rewrite ?Q1, ?Q2, ?Q3, ?Q4, ?Q5, ?Q6.
  - destruct (i_zero c x I) as (r&Hr&N0&S0&T0). destruct (L' _ _ Hr) as (r0&Hr0&A&B&C). exists r0. split_and!; congruence.
  - intros q r Hq Hn. destruct (L q r Hq) as (r0&Hr0&A&_). apply (i_one c x I q r0 Hr0). congruence.
  - intros q [r Hq] E. destruct (L q r Hq) as (r0&Hr0&_). destruct (i_val c x I q) with E as [a Ha]; [by eexists|]. exists a. by eapply ev_mono.
  - intros n q Hq. destruct (i_uniq c x I n q Hq) as (r&Hr&E). destruct (L' _ _ Hr) as (r0&Hr0&A&B&C). exists r0. split; congruence.
  - intros s l q Hs Hq. destruct (i_sig c x I s l q Hs Hq) as (r&Hr&E). destruct (L' _ _ Hr) as (r0&Hr0&A&B&C). exists r0. split; congruence.
  - intros E. destruct (i_sat c x I E) as (A&S1&S2). exists A. split; [done|]. intros q r a Hq Hq0 Ha.
    destruct (L q r Hq) as (r0&Hr0&_&Es&_). rewrite Es. apply (S2 q r0 a Hr0 Hq0). by eapply ev_mono.
  - intros q r Hq Hq0. destruct (L q r Hq) as (r0&Hr0&_&Es&_). rewrite Es. by apply (i_idx c x I q).
  - apply (i_cls c x I).
  - intros q Hq. destruct (i_free c x I q Hq) as [H1 H2]. split; [|done]. destruct (b_heap (set_bdd x p f) !! q) as [r|] eqn:Hr; [|done].
    destruct (L q r Hr) as (r0&Hr0&_). congruence.
  - apply (i_nd c x I).
  - intros q [r Hq]. destruct (L q r Hq) as (r0&Hr0&_). apply (i_next c x I). by eexists.
  - apply (i_nv c x I).
Qed.
Lemma bsub_env_kept s s' rs sub E E' : kept s s' rs -> (forall v g, sub !! v = Some g -> g ∈ rs) -> bsub_env s sub E E' <-> bsub_env s' sub E E'.
Proof.
  intros Kp Hs. unfold bsub_env. split; intros H v; specialize (H v); destruct (sub !! v) as [g|] eqn:Hv; try done; by rewrite H, (Kp g (Hs v g Hv)).
Qed.
Lemma kept_trans s1 s2 s3 rs rs' : kept s1 s2 rs -> kept s2 s3 (rs ++ rs') -> kept s1 s3 rs.
Proof. intros H1 H2 f Hf E. rewrite H2; [by apply H1|]. apply elem_of_app. by left. Qed.

Definition conv_post (c : cfg) (sub : gmap string fml) (rs : list fml) (x : bx) (s : bst) (be : bref) (g : fml) (x' : bx) (s' : bst) : Prop :=
  exists rs', reached s' (rs ++ rs') /\ kept s s' rs /\ g ∈ rs ++ rs' /\ inv c x' /\ grow x x' /\ grow x' x /\ cache_ok sub (rs ++ rs') x' s' /\
    forall E E' a, bsub_env s sub E E' -> val x E' be a -> den s' g E = a.
Lemma cache_kept sub rs rs' x s s' : kept s s' rs -> (forall v g, sub !! v = Some g -> g ∈ rs) -> cache_ok sub rs x s -> cache_ok sub (rs ++ rs') x s'.
Proof.
  intros Kp Hs H p r f Hp Hf. destruct (H p r f Hp Hf) as [Hi Hd]. split; [apply elem_of_app; by left|].
  intros E E' a HE Ha. rewrite (Kp f Hi). apply (Hd E E' a); [|done]. by apply (bsub_env_kept s s' rs).
Qed.
Lemma sign_ok s rs n f : reached s rs -> f ∈ rs -> exists g s', sign n f s = Some (g, s') /\ exists rs', reached s' (rs ++ rs') /\ kept s s' rs /\ g ∈ rs ++ rs' /\
  forall E, den s' g E = xorb n (den s f E).
Proof.
  intros R Hf. destruct n; cbn [sign].
  - destruct (thm_not s rs f R Hf) as (g&s'&Eg&R'&Kp&D). exists g, s'. split; [done|]. exists [g]. split_and!; try done.
    apply elem_of_app. right. by left.
  - exists f, s. split; [done|]. exists []. rewrite app_nil_r. split_and!; try done. intros E. by rewrite xorb_false_l.
Qed.
Lemma reached_const s rs b : reached s rs -> reached s (rs ++ [if b : bool then ONE else ZERO]).
Proof. intros R. by apply (reached_step s rs (CConst b) s _ c_tag). Qed.


Lemma conv_finish c sub rs rs1 x x1 s s1 be f : (forall v g, sub !! v = Some g -> g ∈ rs) ->
  reached s1 (rs ++ rs1) -> kept s s1 rs -> f ∈ rs ++ rs1 -> inv c x1 -> grow x x1 -> grow x1 x -> cache_ok sub (rs ++ rs1) x1 s1 ->
  (forall E E' a, bsub_env s sub E E' -> ev (b_heap x) E' be.2 a -> den s1 f E = a) ->
  exists g x' s', match sign be.1 f s1 with Some (g, s'') => Some (g, set_bdd x1 be.2 f, s'') | None => None end = Some (g, x', s') /\
    conv_post c sub rs x s be g x' s'.
Proof.
  intros Hs R Kp Hf I G1 G2 Hc Hd. destruct (sign_ok s1 (rs ++ rs1) be.1 f R Hf) as (g&s2&Eg&rs2&R2&Kp2&Hg&D2). rewrite Eg.
  do 3 eexists. split; [done|]. exists (rs1 ++ rs2). rewrite app_assoc.
  destruct (set_bdd_grow x1 be.2 f) as [G3 G4].
  assert (Hs1 : forall v g, sub !! v = Some g -> g ∈ rs ++ rs1) by (intros v g0 Hv; apply elem_of_app; left; by eapply Hs).
  split_and!; [done|by eapply kept_trans|done|by apply inv_set_bdd|by eapply grow_trans|by eapply grow_trans| |].
  - intros p r f' Hp Hf'. unfold set_bdd in Hp. destruct (b_heap x1 !! be.2) as [b|] eqn:Hb.
    + cbn [b_heap] in Hp. apply lookup_insert_Some in Hp as [[<- <-]|[Hne Hp]].
      * cbn in Hf'. injection Hf' as <-. split; [apply elem_of_app; by left|]. intros E E' a HE Ha.
        rewrite Kp2 by done. apply (Hd E E').
        -- apply (bsub_env_kept s s1 rs) in HE; [done|done|done] || apply (bsub_env_kept s s2 rs); try done; by eapply kept_trans.
        -- eapply ev_mono; [|exact Ha]. intros q r Hq. destruct (G4 q r Hq) as (r1&Hr1&N1). destruct (G2 q r1 Hr1) as (r2&Hr2&N2). exists r2. split; [done|congruence].
      * destruct (cache_kept sub _ rs2 x1 s1 s2 Kp2 Hs1 Hc p r f' Hp Hf') as [Hi Hv]. split; [done|]. intros E E' a HE Ha.
        apply (Hv E E' a HE). by eapply ev_mono.
    + destruct (cache_kept sub _ rs2 x1 s1 s2 Kp2 Hs1 Hc p r f' Hp Hf') as [Hi Hv]. split; [done|]. intros E E' a HE Ha.
      apply (Hv E E' a HE). by eapply ev_mono.
  - intros E E' a HE Ha. apply val_split in Ha as (u&Hu&->). by rewrite D2, (Hd E E' u).
Qed.
Lemma conv_cached c sub rs x s be b f : inv c x -> reached s rs -> (forall v g, sub !! v = Some g -> g ∈ rs) -> cache_ok sub rs x s ->
  b_heap x !! be.2 = Some b -> b_bdd b = Some f ->
  exists g x' s', match sign be.1 f s with Some (g, s') => Some (g, x, s') | None => None end = Some (g, x', s') /\ conv_post c sub rs x s be g x' s'.
Proof.
  intros I R Hs Hc Hb Hf. destruct (Hc _ _ _ Hb Hf) as [Hi Hd]. destruct (sign_ok s rs be.1 f R Hi) as (g&s2&Eg&rs2&R2&Kp2&Hg&D2). rewrite Eg.
  do 3 eexists. split; [done|]. exists rs2. split_and!; [done|done|done|done|apply grow_refl|apply grow_refl|by eapply cache_kept|].
  intros E E' a HE Ha. apply val_split in Ha as (u&Hu&->). by rewrite D2, (Hd E E' u).
Qed.

Lemma be2bdd_ok c sub h E0 p v0 : ev h E0 p v0 -> exists n0, forall fuel x s rs be, (n0 <= fuel)%nat -> inv c x -> reached s rs ->
  (forall v g, sub !! v = Some g -> g ∈ rs) -> cache_ok sub rs x s -> be.2 = p ->
  (forall p r, h !! p = Some r -> exists r', b_heap x !! p = Some r' /\ b_node r' = b_node r) ->
  exists g x' s', be2bdd fuel sub be x s = Some (g, x', s') /\ conv_post c sub rs x s be g x' s'.
Proof.
  intros Hev. induction Hev as [p r Hp Hn|p r v Hp Hn|p r f g a b Hp Hn _ [n1 IH1] _ [n2 IH2]].
  - exists 1%nat. intros [|fuel] x s rs be Hf I R Hs Hc Hbe Hg; [lia|]. cbn [be2bdd].
    destruct (Hg p r Hp) as (r'&Hr'&Hn'). rewrite Hn in Hn'. pose proof (i_one c x I p r' Hr' Hn') as ->.
    assert (Hb : be = (be.1, 0%N)) by (destruct be; cbn in *; by subst). rewrite Hb. destruct be.1.
    + rewrite decide_True by done. do 3 eexists. split; [done|]. exists [ZERO].
      split_and!; [apply (reached_const s rs false R)|done|apply elem_of_app; right; by left|done|apply grow_refl|apply grow_refl|by apply cache_kept with s|].
      intros E E' a _ Ha. rewrite (val_fun _ _ _ _ _ Ha (val_FALSE c x E' I)). apply sem_ZERO.
    + rewrite decide_False, decide_True by done. do 3 eexists. split; [done|]. exists [ONE].
      split_and!; [apply (reached_const s rs true R)|done|apply elem_of_app; right; by left|done|apply grow_refl|apply grow_refl|by apply cache_kept with s|].
      intros E E' a _ Ha. rewrite (val_fun _ _ _ _ _ Ha (val_TRUE c x E' I)). apply sem_ONE.
  - exists 1%nat. intros [|fuel] x s rs be Hf I R Hs Hc Hbe Hg; [lia|]. cbn [be2bdd].
    destruct (Hg p r Hp) as (r'&Hr'&Hn'). rewrite Hn in Hn'.
    assert (Nz : be.2 <> 0%N). { intros Hz. destruct (i_zero c x I) as (z&Hz0&Nz&_). subst p. rewrite Hz in Hr'. congruence. }
    rewrite decide_False by (intros ->; done). rewrite decide_False by (intros ->; done). subst p. rewrite Hr'.
    destruct (b_bdd r') as [f|] eqn:Hb; [by eapply conv_cached|]. rewrite Hn'.
    destruct (sub !! v) as [f|] eqn:Hv.
    + apply (conv_finish c sub rs [] x x s s be f); rewrite ?app_nil_r; try done; try apply grow_refl; [by eapply Hs|].
      intros E E' a HE Ha. pose proof (ev_node _ _ _ _ _ Hr' Ha) as N0. rewrite Hn' in N0. cbn in N0. subst a. rewrite (HE v). by rewrite Hv.
    + destruct (thm_var s rs v R) as (f&s'&->&R'&Kp&D). apply (conv_finish c sub rs [f] x x s s' be f); try done; try apply grow_refl.
      * apply elem_of_app. right. by left.
      * by eapply cache_kept.
      * intros E E' a HE Ha. pose proof (ev_node _ _ _ _ _ Hr' Ha) as N0. rewrite Hn' in N0. cbn in N0. subst a. rewrite (HE v), Hv. apply D.
  - exists (S (n1 + n2))%nat. intros [|fuel] x s rs be Hf I R Hs Hc Hbe Hg; [lia|]. cbn [be2bdd].
    destruct (Hg p r Hp) as (r'&Hr'&Hn'). rewrite Hn in Hn'.
    assert (Nz : be.2 <> 0%N). { intros Hz. destruct (i_zero c x I) as (z&Hz0&Nz&_). subst p. rewrite Hz in Hr'. congruence. }
    rewrite decide_False by (intros ->; done). rewrite decide_False by (intros ->; done). subst p. rewrite Hr'.
    destruct (b_bdd r') as [f'|] eqn:Hb; [by eapply conv_cached|]. rewrite Hn'.
    destruct (IH1 fuel x s rs f) as (fl&x1&s1&E1&rs1&R1&Kp1&Hi1&I1&G1&G1'&C1&D1); try done; [lia|]. rewrite E1.
    assert (Hs1 : forall v g, sub !! v = Some g -> g ∈ rs ++ rs1) by (intros v g0 Hv; apply elem_of_app; left; by eapply Hs).
    destruct (IH2 fuel x1 s1 (rs ++ rs1) g) as (fr&x2&s2&E2&rs2&R2&Kp2&Hi2&I2&G2&G2'&C2&D2); try done; [lia| |].
    { intros q rq Hq. destruct (Hg q rq Hq) as (rq'&Hq'&Nq). destruct (G1 q rq' Hq') as (rq''&Hq''&Nq'). exists rq''. split; [done|congruence]. }
    rewrite E2. rewrite <- app_assoc in R2, Hi2, C2.
    assert (Hi1' : fl ∈ rs ++ rs1 ++ rs2) by (rewrite app_assoc; apply elem_of_app; by left).
    destruct (thm_op And s2 (rs ++ rs1 ++ rs2) fl fr R2 Hi1' Hi2) as (fa&s3&E3&R3&Kp3&D3). cbn [op_fn] in E3. rewrite E3.
    assert (Kp02 : kept s s2 rs) by by eapply kept_trans.
    assert (Kp03 : kept s s3 rs) by by eapply kept_trans.
    rewrite <- app_assoc in R3.
    apply (conv_finish c sub rs ((rs1 ++ rs2) ++ [fa]) x x2 s s3 be fa); try done.
    + rewrite !elem_of_app. right. right. by left.
    + by eapply grow_trans.
    + by eapply grow_trans.
    + rewrite app_assoc. eapply cache_kept; [exact Kp3| |done]. intros v g0 Hv. apply elem_of_app. left. by eapply Hs.
    + intros E E' a' HE Ha. pose proof (ev_node _ _ _ _ _ Hr' Ha) as N0. rewrite Hn' in N0. destruct N0 as (u&w&Hu&Hw&->).
      rewrite D3. cbn [op_sem]. f_equal.
      * rewrite Kp2 by done. apply (D1 E E' _ HE). unfold val. replace (xorb f.1 (xorb f.1 u)) with u by (by destruct f.1, u). done.
      * apply (D2 E E'); [by apply (bsub_env_kept s s1 rs)|]. eapply val_grow; [exact G1|]. unfold val.
        replace (xorb g.1 (xorb g.1 w)) with w by (by destruct g.1, w). done.
Qed.

(** * From BDDs *)
Definition bmemo_ok (s : bst) (x : bx) (memo : gmap N bref) : Prop := forall i r, memo !! i = Some r ->
  ok x r.2 /\ live s (false, i) /\ forall E, val x E r (den s (false, i) E).
Lemma bmemo_grow s x x' memo : grow x x' -> bmemo_ok s x memo -> bmemo_ok s x' memo.
Proof. intros G H i r Hi. destruct (H i r Hi) as (O&L&V). split_and!; [by eapply ok_grow|done|]. intros E. by eapply val_grow. Qed.
Lemma bdd2bexpr_ok c s f : sound c -> WF s -> live s f -> exists n0, forall fuel x memo, (n0 <= fuel)%nat -> inv c x -> bmemo_ok s x memo ->
  (forall r memo' x', bdd2bexpr c fuel s f memo x = Some ((r, memo'), x') -> inv c x' /\ grow x x' /\ ok x' r.2 /\ bmemo_ok s x' memo' /\ forall E, val x' E r (den s f E)) /\
  (no_clash c -> is_Some (bdd2bexpr c fuel s f memo x)).
Proof.
  intros Sd W L. revert f L. apply (lvl_ind s); [apply W| |].
  - intros b. exists 1%nat. intros [|fuel] x memo Hf I M; [lia|]. cbn [bdd2bexpr]. destruct b.
    + rewrite decide_True by done. split; [|done]. intros r memo' x' [= <- <- <-].
      assert (O : forall E, val x E BTRUE (den s (true, 0%N) E)) by (intros E; unfold den; rewrite sem_const; by apply (val_TRUE c)).
      split_and!; try done; [apply grow_refl|]. by apply (val_ok _ _ _ _ (O (fun _ => true))).
    + rewrite decide_False, decide_True by done. split; [|done]. intros r memo' x' [= <- <- <-].
      assert (O : forall E, val x E BFALSE (den s (false, 0%N) E)) by (intros E; unfold den; rewrite sem_const; by apply (val_FALSE c)).
      split_and!; try done; [apply grow_refl|]. by apply (val_ok _ _ _ _ (O (fun _ => true))).
  - intros n i v hi lo Hi [n1 IH1] [n2 IH2]. exists (S (n1 + n2))%nat. intros [|fuel] x memo Hf I M; [lia|]. cbn [bdd2bexpr].
    assert (Wn : WFn s) by apply W.
    assert (Nz : i <> 0%N). { intros ->. rewrite (wf_zero _ Wn) in Hi. done. }
    rewrite decide_False by (intros [= ? ?]; done). rewrite decide_False by (intros [= ? ?]; done). cbn [fst snd].
    assert (Lf : live s (false, i)) by (right; cbn; rewrite Hi; eauto).
    assert (Sg : forall x' res, (forall E, val x' E res (den s (false, i) E)) -> forall E, val x' E (if n then bref_not res else res) (den s (n, i) E)).
    { intros x' res H E. unfold den. rewrite sem_neg by (try done; right; cbn; rewrite Hi; eauto). by apply val_sgn, H. }
    destruct (memo !! i) as [r0|] eqn:Hm.
    { split; [|done]. intros r memo' x' [= <- <- <-]. destruct (M _ _ Hm) as (O&_&V). split_and!; [done|apply grow_refl|by apply ok_sgn|done|by apply Sg]. }
    rewrite Hi. pose proof (wf_node _ Wn _ _ _ _ Hi) as (Hv&_&_&Ll&Lr&_).
    destruct (vnames s !! N.to_nat v) as [name|] eqn:Hname.
    2:{ exfalso. apply lookup_ge_None in Hname. rewrite (wf_len _ W) in Hname. unfold nvars in Hv. lia. }
    destruct (BE_Var_ok c name x I) as (xv&x1&E1&I1&G1&V1).
    assert (Ov : ok x1 xv.2) by apply (val_ok _ _ _ _ (V1 (fun _ => true))).
    pose proof (bmemo_grow _ _ _ _ G1 M) as M1. destruct (IH1 fuel x1 memo ltac:(lia) I1 M1) as [P1 T1].
    assert (Fin : forall h x2 l m3 x3, inv c x2 -> grow x1 x2 -> ok x2 h.2 -> (forall E, val x2 E h (den s hi E)) ->
      inv c x3 -> grow x2 x3 -> ok x3 l.2 -> bmemo_ok s x3 m3 -> (forall E, val x3 E l (den s lo E)) ->
      makes c (BE_Ite c xv h l) x3 (fun E a => a = den s (false, i) E)).
    { intros h x2 l m3 x3 I2 G2 O2 V2 I3 G3 O3 M3 V3. pose proof (grow_trans _ _ _ G2 G3) as G13.
      eapply makes_impl; [apply BE_Ite_ok; try done; okg|]. intros E a ->.
      exists (E name), (den s hi E), (den s lo E). split_and!; [by apply (val_grow x1 x3)|by apply (val_grow x2 x3)|done|].
      unfold den. rewrite (sem_pos_node _ _ _ _ _ _ Wn Hi). unfold env_of at 1. by rewrite Hname. }
    split.
    + intros r memo' x'. unfold xbind at 1. rewrite E1. unfold xbind at 1. destruct (bdd2bexpr c fuel s hi memo x1) as [[[h m2] x2]|] eqn:E2; [|done].
      destruct (P1 h m2 x2 eq_refl) as (I2&G2&O2&M2&V2). cbn [fst snd].
      destruct (IH2 fuel x2 m2 ltac:(lia) I2 M2) as [P2 T2].
      unfold xbind at 1. destruct (bdd2bexpr c fuel s lo m2 x2) as [[[l m3] x3]|] eqn:E3; [|done].
      destruct (P2 l m3 x3 eq_refl) as (I3&G3&O3&M3&V3). cbn [fst snd].
      destruct (Fin h x2 l m3 x3 I2 G2 O2 V2 I3 G3 O3 M3 V3) as [P4 T4].
      unfold xbind. destruct (BE_Ite c xv h l x3) as [[res x4]|] eqn:E4; [|done]. destruct (P4 res x4 eq_refl) as (I4&G4&O4&V4).
      intros [= <- <- <-]. assert (V5 : forall E, val x4 E res (den s (false, i) E)) by (intros E; by apply V4).
      split_and!; [done|exact (grow_trans _ _ _ (grow_trans _ _ _ (grow_trans _ _ _ G1 G2) G3) G4)|by apply ok_sgn| |by apply Sg].
      intros j rj Hj. apply lookup_insert_Some in Hj as [[<- <-]|[_ Hj]]; [done|]. by apply (bmemo_grow s x3 x4 m3 G4 M3).
    + intros NC. destruct (T1 NC) as [[[h m2] x2] E2]. unfold xbind at 1. rewrite E1. unfold xbind at 1. rewrite E2.
      destruct (P1 h m2 x2 E2) as (I2&G2&O2&M2&V2). cbn [fst snd].
      destruct (IH2 fuel x2 m2 ltac:(lia) I2 M2) as [P2 T2]. destruct (T2 NC) as [[[l m3] x3] E3].
      unfold xbind at 1. rewrite E3. destruct (P2 l m3 x3 E3) as (I3&G3&O3&M3&V3). cbn [fst snd].
      destruct (Fin h x2 l m3 x3 I2 G2 O2 V2 I3 G3 O3 M3 V3) as [P4 T4].
      unfold xbind. destruct (T4 NC) as [[res x4] ->]. done.
Qed.

(** * The states a program can reach *)
Inductive bkind := KAnd | KOr | KXor | KXnor | KNand | KNor.
Definition bop_fn (c : cfg) (o : bkind) : bref -> bref -> X bref :=
  match o with KAnd => BE_And c | KOr => BE_Or c | KXor => BE_Xor c | KXnor => BE_Xnor c | KNand => BE_Nand c | KNor => BE_Nor c end.
Definition bop_sem (o : bkind) (a b : bool) : bool :=
  match o with KAnd => a && b | KOr => a || b | KXor => xorb a b | KXnor => eqb a b | KNand => negb (a && b) | KNor => negb (a || b) end.
(** One step of a program that holds the expressions [rs]. *)
Inductive bstep (c : cfg) (x : bx) (rs : list bref) : bx -> list bref -> Prop :=
| st_var v r x' : BE_Var c v x = Some (r, x') -> bstep c x rs x' (rs ++ [r])
| st_not f : f ∈ rs -> bstep c x rs x (rs ++ [BE_Not f])
| st_op o f g r x' : f ∈ rs -> g ∈ rs -> bop_fn c o f g x = Some (r, x') -> bstep c x rs x' (rs ++ [r])
| st_ite i t e r x' : i ∈ rs -> t ∈ rs -> e ∈ rs -> BE_Ite c i t e x = Some (r, x') -> bstep c x rs x' (rs ++ [r])
| st_subst fuel sub l l' x' : (forall v g, (v, g) ∈ sub -> g ∈ rs) -> (forall f, f ∈ l -> f ∈ rs) ->
    bsubstitute c fuel sub l x = Some (Some l', x') -> bstep c x rs x' (rs ++ l')
| st_clean K : closed K x -> (forall f, f ∈ rs -> f.2 ∈ K) -> bstep c x rs (BE_Clean K x) rs
| st_drop rs' : (forall f, f ∈ rs' -> f ∈ rs) -> bstep c x rs x rs'.
(** [made c x rs]: some program has reached state [x] and holds the expressions
    [rs]; conversions may have left any BDDs in the nodes. *)
Inductive made (c : cfg) : bx -> list bref -> Prop :=
| made_init : made c (be_init c) [BTRUE; BFALSE]
| made_step x rs x' rs' : made c x rs -> bstep c x rs x' rs' -> made c x' rs'
| made_bdd x rs p f : made c x rs -> made c (set_bdd x p f) rs.

Lemma bop_ok c o x f g : sound c -> inv c x -> ok x f.2 -> ok x g.2 -> makes c (bop_fn c o f g) x (two x f g (bop_sem o)).
Proof.
  intros. destruct o; cbn [bop_fn]; [by apply BE_And_ok|by apply BE_Or_ok|by apply BE_Xor_ok|by apply BE_Xnor_ok|by apply BE_Nand_ok|by apply BE_Nor_ok].
Qed.
Lemma memo_empty x0 x sub : memo_ok x0 x sub ∅.
Proof. intros n r H. by rewrite lookup_empty in H. Qed.
Lemma sub_in (sub : list (string * bref)) v g : list_to_map (M := gmap string bref) sub !! v = Some g -> (v, g) ∈ sub.
Proof. apply elem_of_list_to_map_2. Qed.
Lemma bsubst_ok c fuel sub l x l' x' : sound c -> inv c x -> (forall v g, (v, g) ∈ sub -> ok x g.2) -> (forall f, f ∈ l -> ok x f.2) ->
  bsubstitute c fuel sub l x = Some (Some l', x') ->
  NoDup sub.*1 /\ inv c x' /\ grow x x' /\ (forall r, r ∈ l' -> ok x' r.2) /\
  Forall2 (fun f r => forall E E' a, assigns x sub E E' -> val x E' f a -> val x' E r a) l l'.
Proof.
  intros Sd I Os Ol. unfold bsubstitute. rewrite mk_subst_spec by (intros; by apply lookup_empty).
  destruct (decide (NoDup sub.*1)) as [Hd|Hd]; [|done]. rewrite (right_id_L ∅ (∪)). unfold xbind.
  destruct (subst_list c fuel (list_to_map sub) l ∅ x) as [[rs x1]|] eqn:E; [|done]. intros [= <- <-].
  destruct (subst_list_ok c (list_to_map sub) x fuel Sd) with l x (∅ : gmap bnode bref) rs x1 as (I'&G&O&F); try done.
  - intros v g Hv. apply (Os v). by apply sub_in.
  - apply grow_refl.
  - split_and!; try done. eapply Forall2_impl; [exact F|]. intros f r H E0 E' a HE. apply (H E0 E' a). by apply assigns_env.
Qed.
Lemma bsubst_total c sub l x : sound c -> no_clash c -> inv c x -> (forall v g, (v, g) ∈ sub -> ok x g.2) -> (forall f, f ∈ l -> ok x f.2) ->
  exists n0, forall fuel, (n0 <= fuel)%nat -> exists o x', bsubstitute c fuel sub l x = Some (o, x') /\ (o = None <-> ~ NoDup sub.*1).
Proof.
  intros Sd NC I Os Ol. destruct (subst_list_total c (list_to_map sub) x Sd NC I) with l as [n0 H]; [|done|].
  { intros v g Hv. apply (Os v). by apply sub_in. }
  exists n0. intros fuel Hf. unfold bsubstitute. rewrite mk_subst_spec by (intros; by apply lookup_empty).
  destruct (decide (NoDup sub.*1)) as [Hd|Hd].
  - rewrite (right_id_L ∅ (∪)). destruct (H fuel Hf x ∅ I (grow_refl x) (memo_empty _ _ _)) as [[rs x1] E].
    unfold xbind. rewrite E. do 2 eexists. split; [done|]. split; [done|tauto].
  - do 2 eexists. split; [done|]. tauto.
Qed.

Lemma step_inv c x rs x' rs' : sound c -> bstep c x rs x' rs' -> inv c x -> (forall f, f ∈ rs -> ok x f.2) -> inv c x' /\ forall f, f ∈ rs' -> ok x' f.2.
Proof.
  intros Sd H I O. destruct H as [v r x' E|f Hf|o f g r x' Hf Hg E|i t e r x' Hi Ht He E|fuel sub l l' x' Hs Hl E|K HK HR|rs' Hd].
  - destruct (BE_Var_ok c v x I) as (r1&x1&E1&I1&G1&V1). rewrite E in E1. injection E1 as <- <-. split; [done|].
    intros f [Hf| ->%elem_of_list_singleton]%elem_of_app; [eapply ok_grow; [done|]; by apply O|]. apply (val_ok _ _ _ _ (V1 (fun _ => true))).
  - split; [done|]. intros g [Hg| ->%elem_of_list_singleton]%elem_of_app; [by apply O|]. by apply (O f).
  - destruct (proj1 (bop_ok c o x f g Sd I (O f Hf) (O g Hg)) r x' E) as (I1&G1&O1&_). split; [done|].
    intros q [Hq| ->%elem_of_list_singleton]%elem_of_app; [eapply ok_grow; [done|]; by apply O|done].
  - destruct (proj1 (BE_Ite_ok c x i t e Sd I (O i Hi) (O t Ht) (O e He)) r x' E) as (I1&G1&O1&_). split; [done|].
    intros q [Hq| ->%elem_of_list_singleton]%elem_of_app; [eapply ok_grow; [done|]; by apply O|done].
  - destruct (bsubst_ok c fuel sub l x l' x' Sd I) as (_&I1&G1&O1&_); [intros v g Hv; by eapply O, Hs|intros f Hf; by apply O, Hl|done|].
    split; [done|]. intros q [Hq|Hq]%elem_of_app; [eapply ok_grow; [done|]; by apply O|by apply O1].
  - split; [by apply clean_inv|]. intros f Hf. destruct (O f Hf) as [r Hr]. exists r. apply clean_lookup. split; [done|by apply HR].
  - split; [done|]. intros f Hf. by apply O, Hd.
Qed.
Lemma made_inv c x rs : sound c -> made c x rs -> inv c x /\ forall f, f ∈ rs -> ok x f.2.
Proof.
  intros Sd. induction 1 as [|x rs x' rs' _ [I O] St|x rs p f _ [I O]].
  - pose proof (inv_init c) as I. split; [done|]. intros f Hf. destruct (i_zero c _ I) as (z&Hz&_). exists z.
    apply elem_of_list_In in Hf. cbn [In] in Hf. by destruct Hf as [<-|[<-|[]]].
  - by eapply step_inv.
  - split; [by apply inv_set_bdd|]. intros q Hq. apply (ok_grow x); [apply set_bdd_grow|]. by apply O.
Qed.

(** * The statements *)
Definition same_val (x x' : bx) (rs : list bref) : Prop := forall f, f ∈ rs -> forall E a, val x E f a -> val x' E f a.
Lemma grow_same x x' rs : grow x x' -> same_val x x' rs.
Proof. intros G f _ E a. by apply val_grow. Qed.

Lemma thm_has_value c x rs f : sound c -> made c x rs -> f ∈ rs -> forall E, exists a, val x E f a /\ forall b, val x E f b -> b = a.
Proof.
  intros Sd Hm Hf E. destruct (made_inv c x rs Sd Hm) as [I O]. destruct (val_total c x f E I (O f Hf)) as [a Ha].
  exists a. split; [done|]. intros b Hb. by eapply val_fun.
Qed.
Lemma thm_bvar c x rs v : sound c -> made c x rs -> exists r x', BE_Var c v x = Some (r, x') /\ made c x' (rs ++ [r]) /\ same_val x x' rs /\ forall E, val x' E r (E v).
Proof.
  intros Sd Hm. destruct (made_inv c x rs Sd Hm) as [I O]. destruct (BE_Var_ok c v x I) as (r&x'&E&I'&G&V).
  exists r, x'. split_and!; [done|eapply made_step; [done|by apply (st_var c x rs v)]|by apply grow_same|done].
Qed.
Lemma thm_bnot c x rs f : sound c -> made c x rs -> f ∈ rs -> forall E a, val x E f a -> val x E (BE_Not f) (negb a).
Proof. intros _ _ _ E a. apply val_not. Qed.
Lemma thm_bop c o x rs f g r x' : sound c -> made c x rs -> f ∈ rs -> g ∈ rs -> bop_fn c o f g x = Some (r, x') ->
  made c x' (rs ++ [r]) /\ same_val x x' rs /\ forall E a b, val x E f a -> val x E g b -> val x' E r (bop_sem o a b).
Proof.
  intros Sd Hm Hf Hg E. destruct (made_inv c x rs Sd Hm) as [I O].
  destruct (proj1 (bop_ok c o x f g Sd I (O f Hf) (O g Hg)) r x' E) as (I1&G1&O1&V1).
  split_and!; [eapply made_step; [done|by apply (st_op c x rs o f g)]|by apply grow_same|]. intros E0 a b Ha Hb. apply V1. by exists a, b.
Qed.
Lemma thm_bite c x rs i t e r x' : sound c -> made c x rs -> i ∈ rs -> t ∈ rs -> e ∈ rs -> BE_Ite c i t e x = Some (r, x') ->
  made c x' (rs ++ [r]) /\ same_val x x' rs /\ forall E a b d, val x E i a -> val x E t b -> val x E e d -> val x' E r (if a then b else d).
Proof.
  intros Sd Hm Hi Ht He E. destruct (made_inv c x rs Sd Hm) as [I O].
  destruct (proj1 (BE_Ite_ok c x i t e Sd I (O i Hi) (O t Ht) (O e He)) r x' E) as (I1&G1&O1&V1).
  split_and!; [eapply made_step; [done|by apply (st_ite c x rs i t e)]|by apply grow_same|]. intros E0 a b d Ha Hb Hd. apply V1. by exists a, b, d.
Qed.
Lemma thm_btotal c x rs : sound c -> no_clash c -> made c x rs ->
  (forall o f g, f ∈ rs -> g ∈ rs -> is_Some (bop_fn c o f g x)) /\
  (forall i t e, i ∈ rs -> t ∈ rs -> e ∈ rs -> is_Some (BE_Ite c i t e x)).
Proof.
  intros Sd NC Hm. destruct (made_inv c x rs Sd Hm) as [I O]. split.
  - intros o f g Hf Hg. by apply (proj2 (bop_ok c o x f g Sd I (O f Hf) (O g Hg))).
  - intros i t e Hi Ht He. by apply (proj2 (BE_Ite_ok c x i t e Sd I (O i Hi) (O t Ht) (O e He))).
Qed.
Lemma thm_bclean c x rs K : sound c -> made c x rs -> closed K x -> (forall f, f ∈ rs -> f.2 ∈ K) ->
  made c (BE_Clean K x) rs /\ same_val x (BE_Clean K x) rs /\ forall p, ok (BE_Clean K x) p <-> ok x p /\ p ∈ K.
Proof.
  intros Sd Hm HK HR. destruct (made_inv c x rs Sd Hm) as [I O]. split_and!.
  - eapply made_step; [done|by apply st_clean].
  - intros f Hf E a Ha. apply (clean_val x K HK); [by apply HR|done].
  - intros p. split.
    + intros [r [Hr Hp]%clean_lookup]. split; [by eexists|done].
    + intros [[r Hr] Hp]. exists r. by apply clean_lookup.
Qed.
Lemma thm_bsubst c fuel x rs sub l l' x' : sound c -> made c x rs -> (forall v g, (v, g) ∈ sub -> g ∈ rs) -> (forall f, f ∈ l -> f ∈ rs) ->
  bsubstitute c fuel sub l x = Some (Some l', x') ->
  made c x' (rs ++ l') /\ same_val x x' rs /\
  Forall2 (fun f r => forall E E', (forall v g, (v, g) ∈ sub -> val x E g (E' v)) -> (forall v, v ∉ sub.*1 -> E' v = E v) ->
    forall a, val x E' f a -> val x' E r a) l l'.
Proof.
  intros Sd Hm Hs Hl E. destruct (made_inv c x rs Sd Hm) as [I O].
  destruct (bsubst_ok c fuel sub l x l' x' Sd I) as (_&I1&G1&O1&F); [intros v g Hv; by eapply O, Hs|intros f Hf; by apply O, Hl|done|].
  split_and!; [eapply made_step; [done|by apply (st_subst c x rs fuel sub l)]|by apply grow_same|]. eapply Forall2_impl; [exact F|]. intros f r H E0 E' H1 H2 a. by apply H.
Qed.
Lemma thm_bsubst_total c x rs sub l : sound c -> no_clash c -> made c x rs -> (forall v g, (v, g) ∈ sub -> g ∈ rs) -> (forall f, f ∈ l -> f ∈ rs) ->
  exists n0, forall fuel, (n0 <= fuel)%nat -> exists o x', bsubstitute c fuel sub l x = Some (o, x') /\ (o = None <-> ~ NoDup sub.*1).
Proof.
  intros Sd NC Hm Hs Hl. destruct (made_inv c x rs Sd Hm) as [I O].
  apply bsubst_total; try done; [intros v g Hv; by eapply O, Hs|intros f Hf; by apply O, Hl].
Qed.

(** * Both packages together *)
(** Nothing but a conversion writes a BDD into a node. *)
Definition calm {A} (m : X A) : Prop := forall x a x', m x = Some (a, x') ->
  forall p r f, b_heap x' !! p = Some r -> b_bdd r = Some f -> b_heap x !! p = Some r.
Lemma calm_ret {A} (a : A) : calm (xret a).
Proof. intros x b x' [= <- <-]. done. Qed.
Lemma calm_none {A} : calm (fun _ => None : option (A * bx)).
Proof. intros x b x' [=]. Qed.
Lemma calm_bind {A B} (m : X A) (k : A -> X B) : calm m -> (forall a, calm (k a)) -> calm (xbind m k).
Proof.
  intros Hm Hk x b x' H p r f Hp Hf. unfold xbind in H. destruct (m x) as [[a x1]|] eqn:E; [|done].
  apply (Hm x a x1 E p r f); [|done]. by apply (Hk a x1 b x' H p r f).
Qed.
Lemma calm_var c v : calm (BE_Var c v).
Proof.
  intros x a x' H p r f Hp Hf. unfold BE_Var in H. destruct (b_uniq x !! NVar v); [by injection H as <- <-|].
  destruct (get_be_node x) as [[q fr] nx]. injection H as <- <-. cbn [b_heap] in Hp.
  apply lookup_insert_Some in Hp as [[<- <-]|[_ Hp]]; [done|done].
Qed.
Lemma calm_cand c ll lr chain : calm (find_cand c ll lr chain).
Proof.
  induction chain as [|q chain IH]; cbn [find_cand]; [apply calm_ret|]. intros x a x'. destruct (b_heap x !! q) as [r|]; [|done].
  apply (calm_bind (SAT_and_is_same c ll lr (b_sat r))).
  - intros y b y' H. unfold SAT_and_is_same in H. destruct (_ || _); [done|]. by injection H as <- <-.
  - intros []; [apply calm_ret|done].
Qed.
Lemma calm_find c l r : calm (find_insert_and c l r).
Proof.
  intros x a x' H. unfold find_insert_and in H. destruct (b_uniq x !! NAnd l r); [by injection H as <- <-|].
  destruct (b_heap x !! l.2) as [pl|]; [|done]. destruct (b_heap x !! r.2) as [pr|]; [|done]. revert x a x' H.
  assert (Q : forall x1 sgl il ir sg, calm (do cand <- find_cand c il ir sgl;
       match cand with
       | Some p => xret (false, p)
       | None => fun x =>
         let '(p, fr, nx) := get_be_node x in
         let nv := Z.max (b_nv x) (Z.max (Z.abs il) (Z.abs ir) + 1) + 1 in
         Some ((false, p), mkX (<[p := mkB (NAnd l r) nv sg None]> (b_heap x)) (<[NAnd l r := p]> (b_uniq x)) (<[sg := default [] (b_sigs x1 !! sg) ++ [p]]> (b_sigs x)) fr nx nv
           (and_clauses nv il ir ++ b_cls x) (b_tick x))
       end)).
  { intros x1 sgl il ir sg. apply calm_bind; [apply calm_cand|]. intros [q|]; [apply calm_ret|]. intros x a x' H p r0 f Hp Hf.
    destruct (get_be_node x) as [[q fr] nx]. injection H as <- <-. cbn [b_heap] in Hp.
    apply lookup_insert_Some in Hp as [[<- <-]|[_ Hp]]; done. }
  intros x a x' H. exact (Q x _ _ _ _ x a x' H).
Qed.
Lemma calm_and c f g : calm (be_and c f g).
Proof.
  intros x a x'. unfold be_and. repeat match goal with |- context [if decide ?P then _ else _] => destruct (decide P); [by intros [= <- <-]|] end.
  destruct (c_swap c (b_tick x) f g); apply calm_find.
Qed.
Lemma calm_or c f g : calm (BE_Or c f g).
Proof. apply calm_bind; [apply calm_and|]. intros. apply calm_ret. Qed.
Lemma calm_ite c i t e : calm (BE_Ite c i t e).
Proof.
  apply calm_bind; [apply calm_and|]. intros. apply calm_bind; [apply calm_and|]. intros. apply calm_bind; [apply calm_or|]. intros.
  destruct (c_redundant c); [|apply calm_ret]. apply calm_bind; [apply calm_and|]. intros. apply calm_or.
Qed.
Lemma calm_op c o f g : calm (bop_fn c o f g).
Proof.
  destruct o; cbn [bop_fn]; [apply calm_and|apply calm_or| | | |apply calm_and];
    (apply calm_bind; [apply calm_and|intros; first [apply calm_ret|apply calm_bind; [apply calm_and|intros; apply calm_or]]]).
Qed.
Lemma calm_subst c sub fuel : forall be memo, calm (be_subst c fuel sub be memo).
Proof.
  induction fuel as [|fuel IH]; intros be memo; cbn [be_subst]; [apply calm_none|]. intros x a x'.
  destruct (decide _); [by intros [= <- <-]|]. destruct (b_heap x !! be.2) as [b|]; [|done]. destruct (memo !! b_node b); [by intros [= <- <-]|].
  destruct (b_node b) as [|v|l r] eqn:Hn; [done|by intros [= <- <-]|].
  apply (calm_bind (be_subst c fuel sub l memo)); [done|]. intros pl. apply calm_bind; [done|]. intros pr.
  apply calm_bind; [destruct (decide _); [apply calm_ret|apply calm_and]|]. intros. apply calm_ret.
Qed.
Lemma calm_subst_list c sub fuel l : forall memo, calm (subst_list c fuel sub l memo).
Proof.
  induction l as [|b l IH]; intros memo; cbn [subst_list]; [apply calm_ret|]. apply calm_bind; [apply calm_subst|]. intros.
  apply calm_bind; [apply IH|]. intros. apply calm_ret.
Qed.
Lemma calm_bsubst c fuel sub l : calm (bsubstitute c fuel sub l).
Proof. unfold bsubstitute. destruct (mk_subst sub ∅); [|apply calm_ret]. apply calm_bind; [apply calm_subst_list|]. intros. apply calm_ret. Qed.
Lemma step_cache c x rs x' rs' : bstep c x rs x' rs' -> forall p r f, b_heap x' !! p = Some r -> b_bdd r = Some f -> b_heap x !! p = Some r.
Proof.
  intros H. destruct H as [v r x' E|f Hf|o f g r x' Hf Hg E|i t e r x' Hi Ht He E|fuel sub l l' x' Hs Hl E|K HK HR|rs' Hd]; try done.
  - by apply (calm_var c v x r x').
  - by apply (calm_op c o f g x r x').
  - by apply (calm_ite c i t e x r x').
  - by apply (calm_bsubst c fuel sub l x (Some l') x').
  - intros p r f [Hp _]%clean_lookup _. done.
Qed.
(** Old nodes keep their values backwards too. *)
Lemma step_back c x rs x' rs' p E a : sound c -> bstep c x rs x' rs' -> inv c x -> (forall f, f ∈ rs -> ok x f.2) -> ok x p -> ev (b_heap x') E p a -> ev (b_heap x) E p a.
Proof.
  intros Sd H I O Op Ha. destruct (i_val c x I p Op E) as [b Hb].
  assert (Q : grow x x' -> ev (b_heap x) E p a). { intros G. pose proof (ev_mono _ _ _ _ _ G Hb) as Hb'. by rewrite (ev_fun _ _ _ _ _ Ha Hb'). }
  destruct H as [v r x' E1|f Hf|o f g r x' Hf Hg E1|i t e r x' Hi Ht He E1|fuel sub l l' x' Hs Hl E1|K HK HR|rs' Hd]; try done.
  - destruct (BE_Var_ok c v x I) as (r1&x1&E2&I1&G1&V1). rewrite E1 in E2. injection E2 as <- <-. by apply Q.
  - by destruct (proj1 (bop_ok c o x f g Sd I (O f Hf) (O g Hg)) r x' E1) as (I1&G1&O1&_); apply Q.
  - by destruct (proj1 (BE_Ite_ok c x i t e Sd I (O i Hi) (O t Ht) (O e He)) r x' E1) as (I1&G1&O1&_); apply Q.
  - destruct (bsubst_ok c fuel sub l x l' x' Sd I) as (_&I1&G1&O1&_); [intros v g Hv; by eapply O, Hs|intros f Hf; by apply O, Hl|done|by apply Q].
  - by apply (clean_ev' x K).
Qed.

Definition cached (x : bx) (f : fml) : Prop := exists p r, b_heap x !! p = Some r /\ b_bdd r = Some f.
(** A program holding the expressions [rb] and the BDDs [rs] whose conversions
    have empty substitution lists; BDDs kept in nodes are roots of the BDD
    package (bexpr.c 1383). *)
Inductive both (c : cfg) : bx -> bst -> list bref -> list fml -> Prop :=
| both_init s rs : reached s rs -> both c (be_init c) s [BTRUE; BFALSE] rs
| both_be x s rb rs x' rb' : both c x s rb rs -> bstep c x rb x' rb' -> both c x' s rb' rs
| both_bdd x s rb rs s' rs' : both c x s rb rs -> reached s' rs' -> (forall f, cached x f -> f ∈ rs') -> kept s s' (filter (fun f => f ∈ rs') rs) -> both c x s' rb rs'
| both_conv fuel x s rb rs f g x' s' rs' : both c x s rb rs -> f ∈ rb -> be2bdd fuel ∅ f x s = Some (g, x', s') ->
    reached s' rs' -> (forall h, h ∈ rs -> h ∈ rs') -> (forall f, cached x' f -> f ∈ rs') -> both c x' s' rb rs'.

Lemma be2bdd_mono sub fuel : forall fuel' be x s r, (fuel <= fuel')%nat -> be2bdd fuel sub be x s = Some r -> be2bdd fuel' sub be x s = Some r.
Proof.
  induction fuel as [|fuel IH]; intros [|fuel'] be x s r Hf; cbn [be2bdd]; try done; try lia.
  destruct (decide _); [done|]. destruct (decide _); [done|]. destruct (b_heap x !! be.2) as [b|]; [|done]. destruct (b_bdd b); [done|].
  destruct (b_node b) as [|v|l r0]; try done.
  destruct (be2bdd fuel sub l x s) as [[[fl x1] s1]|] eqn:E1; [|done]. rewrite (IH fuel' l x s _ ltac:(lia) E1).
  destruct (be2bdd fuel sub r0 x1 s1) as [[[fr x2] s2]|] eqn:E2; [|done]. rewrite (IH fuel' r0 x1 s1 _ ltac:(lia) E2). done.
Qed.
Lemma conv_any c sub fuel x s rs be g x' s' : inv c x -> reached s rs -> (forall v g, sub !! v = Some g -> g ∈ rs) -> cache_ok sub rs x s -> ok x be.2 ->
  be2bdd fuel sub be x s = Some (g, x', s') -> conv_post c sub rs x s be g x' s'.
Proof.
  intros I R Hs Hc O E. destruct (i_val c x I be.2 O (fun _ => true)) as [a Ha].
  destruct (be2bdd_ok c sub _ _ _ _ Ha) as [n0 H]. destruct (H (n0 + fuel)%nat x s rs be) as (g1&x1&s1&E1&P); try done; [lia|by eauto|].
  rewrite (be2bdd_mono sub fuel (n0 + fuel) be x s _ ltac:(lia) E) in E1. by injection E1 as <- <- <-.
Qed.
Lemma made_set_bdds c fuel sub rb : forall be x s g x' s', made c x rb -> be2bdd fuel sub be x s = Some (g, x', s') -> made c x' rb.
Proof.
  induction fuel as [|fuel IH]; intros be x s g x' s' Hm; cbn [be2bdd]; [done|].
  destruct (decide _); [by intros [= <- <- <-]|]. destruct (decide _); [by intros [= <- <- <-]|]. destruct (b_heap x !! be.2) as [b|]; [|done].
  destruct (b_bdd b) as [f|]; [destruct (sign be.1 f s) as [[? ?]|]; [by intros [= <- <- <-]|done]|].
  destruct (b_node b) as [|v|l r0]; try done.
  - destruct (sub !! v) as [f|]; [|destruct (B_Var v s) as [[f s1]|]; [|done]].
    + destruct (sign be.1 f s) as [[? ?]|]; [|done]. intros [= <- <- <-]. by apply made_bdd.
    + destruct (sign be.1 f s1) as [[? ?]|]; [|done]. intros [= <- <- <-]. by apply made_bdd.
  - destruct (be2bdd fuel sub l x s) as [[[fl x1] s1]|] eqn:E1; [|done]. destruct (be2bdd fuel sub r0 x1 s1) as [[[fr x2] s2]|] eqn:E2; [|done].
    destruct (B_And fl fr s2) as [[f s3]|]; [|done]. destruct (sign be.1 f s3) as [[? ?]|]; [|done]. intros [= <- <- <-].
    apply made_bdd. eapply IH; [|exact E2]. by eapply IH.
Qed.
Lemma both_inv c x s rb rs : sound c -> both c x s rb rs -> made c x rb /\ reached s rs /\ cache_ok ∅ rs x s.
Proof.
  intros Sd. induction 1 as [s rs R|x s rb rs x' rb' _ (M&R&C) St|x s rb rs s' rs' _ (M&R&C) R' Hi Kp|fuel x s rb rs f g x' s' rs' _ (M&R&C) Hf E R' Hi Hc].
  - split_and!; [constructor|done|]. intros p r f Hp Hf. cbn in Hp. apply lookup_singleton_Some in Hp as [<- <-]. done.
  - split_and!; [by eapply made_step|done|]. intros p r f Hp Hf. destruct (made_inv c x rb Sd M) as [I O].
    pose proof (step_cache c x rb x' rb' St p r f Hp Hf) as Hp'. destruct (C p r f Hp' Hf) as [Hin Hd]. split; [done|].
    intros E E' a HE Ha. apply (Hd E E' a HE). eapply step_back; try done. by eexists.
  - split_and!; [done|done|]. intros p r f Hp Hf. destruct (C p r f Hp Hf) as [Hin Hd].
    assert (Hin' : f ∈ rs') by (apply Hi; by exists p, r). split; [done|]. intros E E' a HE Ha.
    rewrite Kp by (by apply elem_of_list_filter). apply (Hd E E' a); [|done]. intros v. specialize (HE v). by rewrite lookup_empty in *.
  - destruct (made_inv c x rb Sd M) as [I O].
    destruct (conv_any c ∅ fuel x s rs f g x' s' I R) as (rs1&R1&Kp&Hg&I'&G1&G2&C1&D); try done; [by apply O|].
    split_and!; [by eapply made_set_bdds|done|]. intros p r h Hp Hh. split; [apply Hc; by exists p, r|].
    destruct (C1 p r h Hp Hh) as [_ Hd]. done.
Qed.
Lemma thm_be2bdd c x s rb rs f : sound c -> both c x s rb rs -> f ∈ rb -> exists n0, forall fuel, (n0 <= fuel)%nat ->
  exists g x' s' rs', be2bdd fuel ∅ f x s = Some (g, x', s') /\ both c x' s' rb (rs ++ rs') /\ g ∈ rs ++ rs' /\ kept s s' rs /\ same_val x x' rb /\
    forall E a, val x E f a -> den s' g E = a.
Proof.
  intros Sd HB Hf. destruct (both_inv c x s rb rs Sd HB) as (M&R&C). destruct (made_inv c x rb Sd M) as [I O].
  destruct (i_val c x I f.2 (O f Hf) (fun _ => true)) as [a Ha]. destruct (be2bdd_ok c ∅ _ _ _ _ Ha) as [n0 H]. exists n0. intros fuel Hn.
  destruct (H fuel x s rs f) as (g&x'&s'&E&rs'&R'&Kp&Hg&I'&G1&G2&C1&D); try done; [by eauto|].
  exists g, x', s', rs'. split_and!; [done| |done|done|by apply grow_same|].
  - eapply both_conv; try done; [intros h Hh; apply elem_of_app; by left|]. intros h (p&r&Hp&Hh). by apply (C1 p r h).
  - intros E0 a0 Ha0. apply (D E0 E0); [|done]. intros v. by rewrite lookup_empty.
Qed.
(** With a substitution list, in a state where no node has a BDD yet. *)
Lemma thm_be2bdd_sub c x s rb rs sub f : sound c -> made c x rb -> reached s rs -> (forall g, ~ cached x g) -> f ∈ rb -> (forall v g, sub !! v = Some g -> g ∈ rs) ->
  exists n0, forall fuel, (n0 <= fuel)%nat -> exists g x' s', be2bdd fuel sub f x s = Some (g, x', s') /\ kept s s' rs /\
    forall E E' a, (forall v, E' v = match sub !! v with Some h => den s h E | None => E v end) -> val x E' f a -> den s' g E = a.
Proof.
  intros Sd M R NC Hf Hs. destruct (made_inv c x rb Sd M) as [I O].
  destruct (i_val c x I f.2 (O f Hf) (fun _ => true)) as [a Ha]. destruct (be2bdd_ok c sub _ _ _ _ Ha) as [n0 H]. exists n0. intros fuel Hn.
  destruct (H fuel x s rs f) as (g&x'&s'&E&rs'&R'&Kp&Hg&I'&G1&G2&C1&D); try done.
  { intros p r h Hp Hh. exfalso. apply (NC h). by exists p, r. } { by eauto. }
  exists g, x', s'. done.
Qed.
Lemma thm_bdd2be c x s rb rs f : sound c -> made c x rb -> reached s rs -> f ∈ rs -> exists n0, forall fuel, (n0 <= fuel)%nat ->
  (forall r memo x', bdd2bexpr c fuel s f ∅ x = Some ((r, memo), x') -> same_val x x' rb /\ forall E, val x' E r (den s f E)) /\
  (no_clash c -> is_Some (bdd2bexpr c fuel s f ∅ x)).
Proof.
  intros Sd M R Hf. destruct (made_inv c x rb Sd M) as [I O]. destruct (reached_WF s rs R) as [W L].
  destruct (bdd2bexpr_ok c s f Sd W (L f Hf)) as [n0 H]. exists n0. intros fuel Hn. destruct (H fuel x ∅ Hn I) as [P T].
  { intros i r Hi. by rewrite lookup_empty in Hi. }
  split; [|done]. intros r memo x' E. destruct (P r memo x' E) as (I'&G&_&_&V). split; [by apply grow_same|done].
Qed.
