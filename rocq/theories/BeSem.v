(** Meaning of and-inverter graphs, the invariant of their tables, and its
    preservation by every operation of BeModel. *)
From stdpp Require Import gmap strings list.
From Coq Require Import NArith ZArith Lia.
From Verif Require Import BddModel BeModel.
Open Scope Z_scope.

(** Value of the node at an address under an assignment of the variables. *)
Inductive ev (h : gmap N brec) (E : string -> bool) : N -> bool -> Prop :=
| ev_one p r : h !! p = Some r -> b_node r = NOne -> ev h E p true
| ev_var p r v : h !! p = Some r -> b_node r = NVar v -> ev h E p (E v)
| ev_and p r f g a b : h !! p = Some r -> b_node r = NAnd f g -> ev h E f.2 a -> ev h E g.2 b -> ev h E p (xorb f.1 a && xorb g.1 b).
(** Value of an expression. *)
Definition val (x : bx) (E : string -> bool) (f : bref) (b : bool) : Prop := ev (b_heap x) E f.2 (xorb f.1 b).

Lemma ev_fun h E p a b : ev h E p a -> ev h E p b -> a = b.
Proof.
  intros H. revert b. induction H as [p r Hp Hn|p r v Hp Hn|p r f g a b Hp Hn _ IH1 _ IH2]; intros b' H';
    inversion H' as [q r' Hp' Hn'|q r' v' Hp' Hn'|q r' f' g' a' b'' Hp' Hn' Va Vb]; subst;
    rewrite Hp in Hp'; injection Hp' as <-; rewrite Hn in Hn'; try discriminate Hn'; [done| |].
  - by injection Hn' as <-.
  - injection Hn' as <- <-. by rewrite (IH1 _ Va), (IH2 _ Vb).
Qed.
Lemma ev_mono h h' E p a : (forall p r, h !! p = Some r -> exists r', h' !! p = Some r' /\ b_node r' = b_node r) -> ev h E p a -> ev h' E p a.
Proof.
  intros X. induction 1 as [p r Hp Hn|p r v Hp Hn|p r f g a b Hp Hn _ IH1 _ IH2];
    destruct (X p r Hp) as (r'&Hp'&Hn'); rewrite Hn in Hn'; econstructor; eauto.
Qed.
Lemma val_fun x E f a b : val x E f a -> val x E f b -> a = b.
Proof. unfold val. intros H1 H2. pose proof (ev_fun _ _ _ _ _ H1 H2). destruct f.1, a, b; done. Qed.
Lemma val_pos x E p a : ev (b_heap x) E p a -> val x E (false, p) a.
Proof. unfold val. cbn [fst snd]. by rewrite xorb_false_l. Qed.
Lemma val_not x E f a : val x E f a -> val x E (bref_not f) (negb a).
Proof. unfold val. cbn. destruct f as [n p]. cbn. by destruct n, a. Qed.
Lemma val_not' x E f a : val x E f (negb a) -> val x E (bref_not f) a.
Proof. intros H%val_not. by rewrite negb_involutive in H. Qed.

Definition grow (x x' : bx) : Prop := forall p r, b_heap x !! p = Some r ->
  exists r', b_heap x' !! p = Some r' /\ b_node r' = b_node r.
Lemma grow_refl x : grow x x. Proof. intros p r H. by exists r. Qed.
Lemma grow_trans x y z : grow x y -> grow y z -> grow x z.
Proof. intros H1 H2 p r H. destruct (H1 p r H) as (r'&H'&E). destruct (H2 p r' H') as (r''&H''&E'). exists r''. split; [done|congruence]. Qed.
Lemma val_grow x x' E f a : grow x x' -> val x E f a -> val x' E f a.
Proof. intros G. by apply ev_mono. Qed.

(** Solver assignments. *)
Definition lit_true (A : Z -> bool) (l : Z) : bool := if l <? 0 then negb (A (- l)) else A l.
Definition sat_all (A : Z -> bool) (cs : list (list Z)) : Prop := forall c, c ∈ cs -> exists l, l ∈ c /\ lit_true A l = true.
(** A solver whose answer "unsatisfiable" is right. *)
Definition sound (c : cfg) : Prop := forall t cs as_, c_unsat c t cs as_ = true ->
  forall A, sat_all A cs -> exists l, l ∈ as_ /\ lit_true A l = false.

Definition ok (x : bx) (p : N) : Prop := is_Some (b_heap x !! p).
Record inv (c : cfg) (x : bx) : Prop := mkInv {
  i_zero : exists r, b_heap x !! 0%N = Some r /\ b_node r = NOne /\ b_sig r = c_tsig c /\ b_sat r = 0;
  i_one : forall p r, b_heap x !! p = Some r -> b_node r = NOne -> p = 0%N;
  i_val : forall p, ok x p -> forall E, exists a, ev (b_heap x) E p a;
  i_uniq : forall n p, b_uniq x !! n = Some p -> exists r, b_heap x !! p = Some r /\ b_node r = n;
  i_sig : forall s l p, b_sigs x !! s = Some l -> p ∈ l -> exists r, b_heap x !! p = Some r /\ b_sig r = s;
  i_sat : forall E, exists A, sat_all A (b_cls x) /\ forall p r a, b_heap x !! p = Some r -> p <> 0%N -> ev (b_heap x) E p a -> A (b_sat r) = a;
  i_idx : forall p r, b_heap x !! p = Some r -> p <> 0%N -> 0 < b_sat r <= b_nv x;
  i_cls : forall cl l, cl ∈ b_cls x -> l ∈ cl -> Z.abs l <= b_nv x;
  i_free : forall p, p ∈ b_free x -> b_heap x !! p = None /\ (p < b_next x)%N;
  i_nd : NoDup (b_free x);
  i_next : forall p, ok x p -> (p < b_next x)%N;
  i_nv : 0 <= b_nv x }.

Lemma inv_init c : inv c (be_init c).
Proof.
  assert (S0 : forall p r, b_heap (be_init c) !! p = Some r -> p = 0%N /\ r = mkB NOne 0 (c_tsig c) None).
  { intros p r H. cbn in H. apply lookup_singleton_Some in H as [<- <-]. done. }
  constructor; cbn [b_heap b_uniq b_sigs b_free b_next b_nv b_cls be_init].
  - eexists. split; [apply lookup_singleton|done].
  - intros p r H _. by apply S0 in H as [-> _].
  - intros p [r H] E. apply S0 in H as [-> ->]. exists true. econstructor; [apply lookup_singleton|done].
  - intros n p H. by rewrite lookup_empty in H.
  - intros n l p H. by rewrite lookup_empty in H.
  - intros E. exists (fun _ => true). split; [intros cl H; by apply elem_of_nil in H|]. intros p r a H. by apply S0 in H as [-> _].
  - intros p r H. by apply S0 in H as [-> _].
  - intros cl l H. by apply elem_of_nil in H.
  - intros p H. by apply elem_of_nil in H.
  - constructor.
  - intros p [r H]. apply S0 in H as [-> _]. lia.
  - lia.
Qed.

(** A new node. *)
Definition fresh_at (x : bx) (p : N) (fr : list N) (nx : N) : Prop :=
  b_heap x !! p = None /\ (p < nx)%N /\ (b_next x <= nx)%N /\ NoDup fr /\ forall q, q ∈ fr -> q ∈ b_free x /\ q <> p.
Lemma get_fresh c x : inv c x -> let '(p, fr, nx) := get_be_node x in fresh_at x p fr nx.
Proof.
  intros I. unfold get_be_node. pose proof (i_free c x I) as F. pose proof (i_nd c x I) as D.
  destruct (b_free x) as [|p fr] eqn:Ef; unfold fresh_at; rewrite Ef.
  - split_and!; try lia; [|constructor|set_solver].
    destruct (b_heap x !! b_next x) eqn:H; [|done]. assert (O : ok x (b_next x)) by (by eexists). apply (i_next c x I) in O. lia.
  - apply NoDup_cons in D as [D1 D2]. destruct (F p) as [F1 F2]; [set_solver|]. split_and!; try done; try lia.
    intros q Hq. split; [set_solver|]. intros ->. done.
Qed.
Lemma ev_insert h E p r q a : h !! p = None -> ev h E q a -> ev (<[p := r]> h) E q a.
Proof.
  intros H. apply ev_mono. intros q' r' H'. exists r'. split; [|done]. rewrite lookup_insert_ne; [done|]. congruence.
Qed.
Lemma ev_old (h : gmap N brec) E p r q a : h !! p = None -> (exists b, ev h E q b) -> ev (<[p := r]> h) E q a -> ev h E q a.
Proof.
  intros H [b Hb] H'. pose proof (ev_insert h E p r q b H Hb) as H2. by rewrite (ev_fun _ _ _ _ _ H' H2).
Qed.

(** Adding a node whose value is given by [F] and whose variable is new. *)
Lemma inv_add c x p fr nx n sg uq sgs nv cl :
  inv c x -> fresh_at x p fr nx -> n <> NOne ->
  (forall E, exists a, ev (<[p := mkB n nv sg None]> (b_heap x)) E p a) ->
  b_nv x < nv ->
  uq = <[n := p]> (b_uniq x) ->
  (forall s l q, sgs !! s = Some l -> q ∈ l -> (q = p /\ s = sg) \/ exists l', b_sigs x !! s = Some l' /\ q ∈ l') ->
  (forall k l, k ∈ cl -> l ∈ k -> Z.abs l <= nv) ->
  (forall E A a, sat_all A (b_cls x) -> (forall p r a, b_heap x !! p = Some r -> p <> 0%N -> ev (b_heap x) E p a -> A (b_sat r) = a) ->
     ev (<[p := mkB n nv sg None]> (b_heap x)) E p a -> A nv = a -> sat_all A cl) ->
  let x' := mkX (<[p := mkB n nv sg None]> (b_heap x)) uq sgs fr nx nv (cl ++ b_cls x) (b_tick x) in
  inv c x' /\ grow x x'.
Proof.
  intros I (Hp&Hlt&Hnx&Hnd&Hfr) Hn Hev Hnv -> Hsg Hcl Hsat x'.
  assert (Old : forall q r, b_heap x !! q = Some r -> b_heap x' !! q = Some r).
  { intros q r H. cbn. rewrite lookup_insert_ne; [done|congruence]. }
  assert (Hp0 : p <> 0%N). { destruct (i_zero c x I) as (r&Hr&_). congruence. }
  assert (G : grow x x'). { intros q r H. exists r. by rewrite (Old q r H). }
  split; [|done]. constructor; cbn [b_heap b_uniq b_sigs b_free b_next b_nv b_cls x'].
  - destruct (i_zero c x I) as (r&Hr&?). exists r. split; [by apply Old|done].
  - intros q r H Hq. apply lookup_insert_Some in H as [[<- <-]|[_ H]]; [done|]. by apply (i_one c x I q r).
  - intros q [r H] E. unfold x' in H. cbn [b_heap] in H. apply lookup_insert_Some in H as [[<- <-]|[Hne H]]; [apply Hev|].
    destruct (i_val c x I q) with E as [a Ha]; [by eexists|]. exists a. by apply ev_insert.
  - intros m q H. apply lookup_insert_Some in H as [[<- <-]|[_ H]].
    + eexists. split; [apply lookup_insert|done].
    + destruct (i_uniq c x I m q H) as (r&Hr&E). exists r. split; [by apply Old|done].
  - intros s l q Hs Hq. destruct (Hsg s l q Hs Hq) as [[-> ->]|(l'&Hl'&Hq')].
    + eexists. split; [apply lookup_insert|done].
    + destruct (i_sig c x I s l' q Hl' Hq') as (r&Hr&E). exists r. split; [by apply Old|done].
  - intros E. destruct (i_sat c x I E) as (A&HA1&HA2). destruct (Hev E) as [a Ha].
    pose (A' := fun k => if k =? nv then a else A k).
    assert (L : forall l, Z.abs l <= b_nv x -> lit_true A' l = lit_true A l).
    { intros l Hl. unfold lit_true, A'. destruct (l <? 0).
      - destruct (Z.eqb_spec (- l) nv); [lia|done].
      - destruct (Z.eqb_spec l nv); [lia|done]. }
    assert (S1 : sat_all A' (b_cls x)).
    { intros k Hk. destruct (HA1 k Hk) as (l&Hl&Tl). exists l. split; [done|]. rewrite L; [done|]. by apply (i_cls c x I k). }
    assert (S2 : forall q r b, b_heap x !! q = Some r -> q <> 0%N -> ev (b_heap x) E q b -> A' (b_sat r) = b).
    { intros q r b Hq Hq0 Hb. unfold A'. pose proof (i_idx c x I q r Hq Hq0). destruct (Z.eqb_spec (b_sat r) nv); [lia|]. by apply (HA2 q). }
    exists A'. split.
    + intros k [Hk|Hk]%elem_of_app; [|by apply S1]. apply (Hsat E A' a); try done. unfold A'. by rewrite Z.eqb_refl.
    + intros q r b H Hq0 Hb. apply lookup_insert_Some in H as [[<- <-]|[Hne H]].
      * cbn. unfold A'. rewrite Z.eqb_refl. by apply (ev_fun _ _ _ _ _ Ha Hb).
      * apply (S2 q r); try done. eapply ev_old; [done| |apply Hb]. apply (i_val c x I). by eexists.
  - intros q r H Hq0. apply lookup_insert_Some in H as [[<- <-]|[Hne H]]; cbn.
    + pose proof (i_nv c x I). lia.
    + pose proof (i_idx c x I q r H Hq0). lia.
  - intros k l [Hk|Hk]%elem_of_app Hl; [by apply (Hcl k)|]. pose proof (i_cls c x I k l Hk Hl). lia.
  - intros q Hq. destruct (Hfr q Hq) as [H1 H2]. destruct (i_free c x I q H1) as [H3 H4]. split; [|lia].
    by rewrite lookup_insert_ne.
  - done.
  - intros q [r H]. unfold x' in H. cbn [b_heap] in H. apply lookup_insert_Some in H as [[<- <-]|[Hne H]]; [done|].
    assert (O : ok x q) by (by eexists). apply (i_next c x I) in O. lia.
  - pose proof (i_nv c x I). lia.
Qed.

Lemma same_state c x t : inv c x -> inv c (mkX (b_heap x) (b_uniq x) (b_sigs x) (b_free x) (b_next x) (b_nv x) (b_cls x) t).
Proof. intros []. by constructor. Qed.

Lemma BE_Var_ok c v x : inv c x -> exists f x', BE_Var c v x = Some (f, x') /\ inv c x' /\ grow x x' /\ forall E, val x' E f (E v).
Proof.
  intros I. unfold BE_Var. destruct (b_uniq x !! NVar v) as [p|] eqn:U.
  - destruct (i_uniq c x I _ p U) as (r&Hr&En). do 2 eexists. split_and!; [done|done|apply grow_refl|].
    intros E. apply val_pos. by econstructor.
  - pose proof (get_fresh c x I) as F. destruct (get_be_node x) as [[p fr] nx]. do 2 eexists. split; [done|].
    assert (V : forall E, ev (<[p := mkB (NVar v) (b_nv x + 1) (c_vsig c v) None]> (b_heap x)) E p (E v)).
    { intros E. econstructor; [apply lookup_insert|done]. }
    destruct (inv_add c x p fr nx (NVar v) (c_vsig c v) (<[NVar v := p]> (b_uniq x)) (b_sigs x) (b_nv x + 1) []) as [I' G]; try done.
    + intros E. exists (E v). apply V.
    + lia.
    + intros s l q H1 H2. right. by exists l.
    + intros k l Hk. by apply elem_of_nil in Hk.
    + intros E A a _ _ _ _ k Hk. by apply elem_of_nil in Hk.
    + split_and!; [exact I'|exact G|]. intros E. apply val_pos. apply V.
Qed.

Lemma lit_of_true A n i : 0 < i -> lit_true A (lit_of n i) = xorb n (A i).
Proof.
  intros H. unfold lit_true, lit_of. destruct n.
  - destruct (Z.ltb_spec (- i) 0); [|lia]. rewrite Z.opp_involutive. by destruct (A i).
  - destruct (Z.ltb_spec i 0); [lia|]. by destruct (A i).
Qed.
Lemma lit_opp A l : l <> 0 -> lit_true A (- l) = negb (lit_true A l).
Proof.
  intros H. unfold lit_true. destruct (Z.ltb_spec (- l) 0), (Z.ltb_spec l 0); try lia.
  - by rewrite Z.opp_involutive.
  - by rewrite negb_involutive.
Qed.
(** The three queries prove that the candidate is the conjunction. *)
Lemma same_sound c l r k x b x' A : sound c -> SAT_and_is_same c l r k x = Some (b, x') ->
  x' = mkX (b_heap x) (b_uniq x) (b_sigs x) (b_free x) (b_next x) (b_nv x) (b_cls x) (S (S (S (b_tick x)))) /\
  (b = true -> sat_all A (b_cls x) -> lit_true A k = lit_true A l && lit_true A r).
Proof.
  intros Sd. unfold SAT_and_is_same.
  destruct (Z.eqb_spec l 0); [done|]. destruct (Z.eqb_spec r 0); [done|]. destruct (Z.eqb_spec k 0); [done|].
  cbn [orb]. intros [= <- <-]. split; [done|]. intros [[H1 H2]%andb_prop H3]%andb_prop HA.
  destruct (Sd _ _ _ H1 A HA) as (a&Ia&Ta), (Sd _ _ _ H2 A HA) as (b&Ib&Tb), (Sd _ _ _ H3 A HA) as (d&Id&Td).
  apply elem_of_list_In in Ia, Ib, Id. cbn [In] in Ia, Ib, Id.
  assert (Ia' : a = l \/ a = r \/ a = - k) by intuition congruence.
  assert (Ib' : b = - l \/ b = k) by intuition congruence. assert (Id' : d = - r \/ d = k) by intuition congruence. clear Ia Ib Id.
  pose proof (lit_opp A l n) as O1. pose proof (lit_opp A r n0) as O2. pose proof (lit_opp A k n1) as O3.
  destruct Ia' as [->|[->| ->]], Ib' as [-> | ->], Id' as [-> | ->]; destruct (lit_true A l), (lit_true A r), (lit_true A k); cbn in *; congruence.
Qed.
Lemma find_cand_ok c ll lr chain : sound c -> forall x o x', inv c x ->
  find_cand c ll lr chain x = Some (o, x') ->
  (exists t, x' = mkX (b_heap x) (b_uniq x) (b_sigs x) (b_free x) (b_next x) (b_nv x) (b_cls x) t) /\
  forall p, o = Some p -> exists r, b_heap x !! p = Some r /\ b_sat r <> 0 /\
    forall A, sat_all A (b_cls x) -> lit_true A (b_sat r) = lit_true A ll && lit_true A lr.
Proof.
  intros Sd. induction chain as [|p chain IH]; intros x o x' I; cbn [find_cand].
  - intros [= <- <-]. split; [|done]. exists (b_tick x). by destruct x.
  - destruct (b_heap x !! p) as [r|] eqn:Hp; [|done]. unfold xbind.
    destruct (SAT_and_is_same c ll lr (b_sat r) x) as [[b x1]|] eqn:Es; [|done].
    destruct (same_sound c ll lr (b_sat r) x b x1 (fun _ => true) Sd Es) as [-> _].
    assert (Hall : forall A, b = true -> sat_all A (b_cls x) -> lit_true A (b_sat r) = lit_true A ll && lit_true A lr).
    { intros A. by apply (same_sound c ll lr (b_sat r) x b _ A Sd Es). }
    assert (Hnz : b_sat r <> 0).
    { unfold SAT_and_is_same in Es. destruct (Z.eqb_spec (b_sat r) 0); [|done]. by rewrite !orb_true_r in Es. }
    destruct b.
    + intros [= <- <-]. split; [by eexists|]. intros q [= <-]. exists r. split_and!; try done. intros A. by apply Hall.
    + intros H. destruct (IH _ o x' (same_state c x _ I) H) as [[t ->] Hq]. split; [by eexists|]. exact Hq.
Qed.
(** Nothing goes wrong when no candidate is the constant node. *)
Lemma find_cand_total c ll lr chain : ll <> 0 -> lr <> 0 -> forall x,
  (forall p, p ∈ chain -> exists r, b_heap x !! p = Some r /\ b_sat r <> 0) -> is_Some (find_cand c ll lr chain x).
Proof.
  intros Hl Hr. induction chain as [|p chain IH]; intros x H; cbn [find_cand]; [done|].
  destruct (H p) as (r&->&Hz); [set_solver|]. unfold xbind, SAT_and_is_same.
  destruct (Z.eqb_spec ll 0); [done|]. destruct (Z.eqb_spec lr 0); [done|]. destruct (Z.eqb_spec (b_sat r) 0); [done|]. cbn [orb].
  destruct (_ && _); [done|]. apply IH. cbn. intros q Hq. apply H. set_solver.
Qed.

Definition no_clash (c : cfg) : Prop := forall n m s t, c_asig c n m s t <> c_tsig c.

Lemma find_insert_and_ok c f g x r x' : sound c -> inv c x -> ok x f.2 -> ok x g.2 -> f.2 <> 0%N -> g.2 <> 0%N ->
  find_insert_and c f g x = Some (r, x') ->
  inv c x' /\ grow x x' /\ r.2 <> 0%N /\ forall E a b, val x E f a -> val x E g b -> val x' E r (a && b).
Proof.
  intros Sd I [rf Hf] [rg Hg] Nf Ng. unfold find_insert_and.
  destruct (b_uniq x !! NAnd f g) as [p|] eqn:U.
  { intros [= <- <-]. destruct (i_uniq c x I _ p U) as (q&Hq&En). split_and!; [done|apply grow_refl| |].
    - cbn. intros ->. destruct (i_zero c x I) as (z&Hz&Ez&_). congruence.
    - intros E a b Ha Hb. apply val_pos. unfold val in Ha, Hb.
      pose proof (ev_and _ E p q f g _ _ Hq En Ha Hb) as V. clear -V. by destruct f.1, g.1, a, b. }
  rewrite Hf, Hg. unfold xbind. set (il := lit_of f.1 (b_sat rf)). set (ir := lit_of g.1 (b_sat rg)).
  set (sg := c_asig c f.1 g.1 (b_sig rf) (b_sig rg)).
  destruct (find_cand c il ir (default [] (b_sigs x !! sg)) x) as [[o x1]|] eqn:Ec; [|done].
  pose proof (i_idx c x I f.2 rf Hf Nf) as Bf. pose proof (i_idx c x I g.2 rg Hg Ng) as Bg.
  destruct (find_cand_ok c il ir _ Sd x o x1 I Ec) as [[t ->] Ho].
  destruct o as [p|].
  - intros [= <- <-]. destruct (Ho p eq_refl) as (q&Hq&Hz&HA).
    assert (Np : p <> 0%N). { intros ->. destruct (i_zero c x I) as (z&Hz0&_&_&Ez). congruence. }
    split_and!; [by apply same_state|intros q' r' H'; by exists r'|done|].
    intros E a b Ha Hb. apply val_pos. unfold val in Ha, Hb. cbn [b_heap].
    destruct (i_sat c x I E) as (A&S1&S2). destruct (i_val c x I p) with E as [v Hv]; [by eexists|].
    pose proof (S2 p q v Hq Np Hv) as Ev. pose proof (S2 _ _ _ Hf Nf Ha) as Ef. pose proof (S2 _ _ _ Hg Ng Hb) as Eg.
    pose proof (i_idx c x I p q Hq Np) as Bp. specialize (HA A S1). unfold il, ir in HA.
    rewrite !lit_of_true in HA by lia. change (b_sat q) with (lit_of false (b_sat q)) in HA. rewrite lit_of_true in HA by lia.
    rewrite Ev, Ef, Eg in HA. replace (a && b) with v; [done|]. destruct f.1, g.1, a, b, v; done.
  - set (x1 := mkX _ _ _ _ _ _ _ t). assert (I1 : inv c x1) by by apply same_state.
    pose proof (get_fresh c x1 I1) as F. destruct (get_be_node x1) as [[p fr] nx]. intros [= <- <-].
    cbn [b_heap b_uniq b_sigs b_nv b_cls b_tick x1].
    set (nv := Z.max (b_nv x) (Z.max (Z.abs il) (Z.abs ir) + 1) + 1).
    assert (Lf : Z.abs il <= b_nv x) by (unfold il, lit_of; destruct f.1; lia).
    assert (Lg : Z.abs ir <= b_nv x) by (unfold ir, lit_of; destruct g.1; lia).
    assert (Hp : b_heap x !! p = None) by apply F.
    assert (V : forall E a b, ev (b_heap x) E f.2 a -> ev (b_heap x) E g.2 b ->
      ev (<[p := mkB (NAnd f g) nv sg None]> (b_heap x)) E p (xorb f.1 a && xorb g.1 b)).
    { intros E a b Ha Hb. eapply ev_and; [apply lookup_insert|done| |]; by apply ev_insert. }
    destruct (inv_add c x1 p fr nx (NAnd f g) sg (<[NAnd f g := p]> (b_uniq x)) (<[sg := default [] (b_sigs x !! sg) ++ [p]]> (b_sigs x)) nv
      (and_clauses nv il ir)) as [I' G]; try done.
    + intros E. destruct (i_val c x I f.2) with E as [a Ha]; [by eexists|]. destruct (i_val c x I g.2) with E as [b Hb]; [by eexists|].
      eexists. by apply V.
    + cbn. unfold nv. lia.
    + intros s l q H Hq. cbn. apply lookup_insert_Some in H as [[<- <-]|[_ H]]; [|right; by exists l].
      apply elem_of_app in Hq as [Hq| ->%elem_of_list_singleton]; [|by left]. right.
      destruct (b_sigs x !! sg) as [l'|]; cbn in Hq; [by exists l'|by apply elem_of_nil in Hq].
    + intros k l Hk Hl. assert (l = - nv \/ l = nv \/ l = il \/ l = ir \/ l = - il \/ l = - ir) by
        (apply elem_of_list_In in Hk; cbn [In and_clauses] in Hk; destruct Hk as [<-|[<-|[<-|[]]]]; apply elem_of_list_In in Hl; cbn [In] in Hl; clear -Hl; intuition congruence).
      pose proof (i_nv c x I). unfold nv in *. lia.
    + cbn. intros E A v _ S2 Hv Ev.
      destruct (i_val c x I f.2) with E as [a Ha]; [by eexists|]. destruct (i_val c x I g.2) with E as [b Hb]; [by eexists|].
      rewrite (ev_fun _ _ _ _ _ Hv (V E a b Ha Hb)) in Ev.
      pose proof (S2 _ _ _ Hf Nf Ha) as Ef. pose proof (S2 _ _ _ Hg Ng Hb) as Eg.
      assert (Tl : lit_true A il = xorb f.1 a). { unfold il. rewrite lit_of_true, Ef by lia. done. }
      assert (Tr : lit_true A ir = xorb g.1 b). { unfold ir. rewrite lit_of_true, Eg by lia. done. }
      assert (Zl : il <> 0) by (unfold il, lit_of; destruct f.1; lia). assert (Zr : ir <> 0) by (unfold ir, lit_of; destruct g.1; lia).
      assert (Hnv : 0 < nv) by (pose proof (i_nv c x I); unfold nv; lia).
      assert (Tn : lit_true A nv = xorb f.1 a && xorb g.1 b). { change nv with (lit_of false nv). rewrite lit_of_true by done. cbn [lit_of]. rewrite Ev. by destruct (_ && _). }
      intros k Hk. unfold and_clauses in Hk.
      apply elem_of_list_In in Hk. cbn [In] in Hk.
      assert (Hk' : k = [- nv; il] \/ k = [- nv; ir] \/ k = [nv; - il; - ir]) by intuition congruence. clear Hk.
      assert (On : lit_true A (- nv) = negb (lit_true A nv)) by (apply lit_opp; lia).
      assert (Ol : lit_true A (- il) = negb (lit_true A il)) by by apply lit_opp.
      assert (Or : lit_true A (- ir) = negb (lit_true A ir)) by by apply lit_opp.
      clearbody nv il ir. clear -Hk' Tl Tr Tn On Ol Or.
      assert (Q : forall (l : Z) (k : list Z), l ∈ k -> lit_true A l = true -> exists l, l ∈ k /\ lit_true A l = true) by (intros l0 k0 ? ?; by exists l0).
      destruct (xorb f.1 a), (xorb g.1 b); cbn in Tn; rewrite Tn in On; rewrite Tl in Ol; rewrite Tr in Or; cbn in On, Ol, Or; destruct Hk' as [->|[->| ->]];
        first [ by apply (Q nv); [apply elem_of_list_In; cbn [In]; tauto|] | by apply (Q (- nv)); [apply elem_of_list_In; cbn [In]; tauto|]
              | by apply (Q il); [apply elem_of_list_In; cbn [In]; tauto|] | by apply (Q ir); [apply elem_of_list_In; cbn [In]; tauto|]
              | by apply (Q (- il)); [apply elem_of_list_In; cbn [In]; tauto|] | by apply (Q (- ir)); [apply elem_of_list_In; cbn [In]; tauto|] ].
    + split_and!; [exact I'|exact G| |].
      * cbn. intros ->. destruct (i_zero c x I) as (z&Hz&_). congruence.
      * intros E a b Ha Hb. apply val_pos. unfold val in Ha, Hb. cbn [b_heap].
        pose proof (V E _ _ Ha Hb) as W. clear -W. by destruct f.1, g.1, a, b.
Qed.
Lemma find_insert_and_total c f g x : no_clash c -> inv c x -> ok x f.2 -> ok x g.2 -> f.2 <> 0%N -> g.2 <> 0%N ->
  is_Some (find_insert_and c f g x).
Proof.
  intros NC I [rf Hf] [rg Hg] Nf Ng. unfold find_insert_and. destruct (b_uniq x !! NAnd f g); [done|].
  rewrite Hf, Hg. unfold xbind.
  pose proof (i_idx c x I f.2 rf Hf Nf) as Bf. pose proof (i_idx c x I g.2 rg Hg Ng) as Bg.
  edestruct (find_cand_total c (lit_of f.1 (b_sat rf)) (lit_of g.1 (b_sat rg)) (default [] (b_sigs x !! c_asig c f.1 g.1 (b_sig rf) (b_sig rg)))) as [[o x1] ->].
  - unfold lit_of. destruct f.1; lia.
  - unfold lit_of. destruct g.1; lia.
  - intros p Hp. destruct (b_sigs x !! _) as [l|] eqn:El; cbn in Hp; [|by apply elem_of_nil in Hp].
    destruct (i_sig c x I _ l p El Hp) as (r&Hr&Es). exists r. split; [done|].
    destruct (decide (p = 0%N)) as [->|Np]; [|pose proof (i_idx c x I p r Hr Np); lia].
    destruct (i_zero c x I) as (z&Hz&_&Ez&_). rewrite Hz in Hr. injection Hr as ->. rewrite Es in Ez. by apply NC in Ez.
  - destruct o; [done|]. by destruct (get_be_node x1) as [[p fr] nx].
Qed.

Lemma val_TRUE c x E : inv c x -> val x E BTRUE true.
Proof. intros I. destruct (i_zero c x I) as (z&Hz&En&_). unfold val. cbn. by eapply ev_one. Qed.
Lemma val_FALSE c x E : inv c x -> val x E BFALSE false.
Proof. intros I. destruct (i_zero c x I) as (z&Hz&En&_). unfold val. cbn. by eapply ev_one. Qed.
Lemma ref_zero (f : bref) : f.2 = 0%N -> f = BTRUE \/ f = BFALSE.
Proof. destruct f as [[] p]; cbn; intros ->; [by right|by left]. Qed.
Lemma val_total c x f E : inv c x -> ok x f.2 -> exists a, val x E f a.
Proof.
  intros I O. destruct (i_val c x I f.2 O E) as [a Ha]. exists (xorb f.1 a). unfold val. by destruct f.1, a.
Qed.
Lemma ok_grow x x' p : grow x x' -> ok x p -> ok x' p.
Proof. intros G [r H]. destruct (G p r H) as (r'&H'&_). by eexists. Qed.
Lemma val_ok x E f a : val x E f a -> ok x f.2.
Proof. unfold val. intros H. inversion H; by eexists. Qed.

(** A computation giving an expression for the function [F]. *)
Definition makes (c : cfg) (m : X bref) (x : bx) (F : (string -> bool) -> bool -> Prop) : Prop :=
  (forall r x', m x = Some (r, x') -> inv c x' /\ grow x x' /\ ok x' r.2 /\ forall E a, F E a -> val x' E r a) /\
  (no_clash c -> is_Some (m x)).
Lemma be_and_ok c f g x : sound c -> inv c x -> ok x f.2 -> ok x g.2 ->
  makes c (be_and c f g) x (fun E v => exists a b, val x E f a /\ val x E g b /\ v = a && b).
Proof.
  intros Sd I Of Og.
  assert (O0 : ok x 0%N). { destruct (i_zero c x I) as (z&Hz&_). by eexists. }
  assert (K : forall r x', Some (r, x) = Some (r, x') -> ok x r.2 -> (forall E a b, val x E f a -> val x E g b -> val x E r (a && b)) ->
     inv c x' /\ grow x x' /\ ok x' r.2 /\ forall E v, (exists a b, val x E f a /\ val x E g b /\ v = a && b) -> val x' E r v).
  { intros r x' [= <-] Or Hv. split_and!; [done|apply grow_refl|done|]. intros E v (a&b&Ha&Hb&->). by apply Hv. }
  unfold be_and, makes. repeat match goal with |- context [if decide ?P then _ else _] => let Hd := fresh "Hd" in destruct (decide P) as [Hd|Hd] end.
  - split; [|done]. intros r x' H. assert (r = BFALSE) as -> by congruence. apply K; [done|done|]. intros E a b Ha Hb.
    rewrite Hd in Ha. rewrite (val_fun _ _ _ _ _ Ha (val_FALSE c x E I)). by apply (val_FALSE c).
  - split; [|done]. intros r x' H. assert (r = BFALSE) as -> by congruence. apply K; [done|done|]. intros E a b Ha Hb.
    rewrite Hd0 in Hb. rewrite (val_fun _ _ _ _ _ Hb (val_FALSE c x E I)), andb_false_r. by apply (val_FALSE c).
  - split; [|done]. intros r x' H. assert (r = g) as -> by congruence. apply K; [done|done|]. intros E a b Ha Hb.
    rewrite Hd1 in Ha. by rewrite (val_fun _ _ _ _ _ Ha (val_TRUE c x E I)).
  - split; [|done]. intros r x' H. assert (r = f) as -> by congruence. apply K; [done|done|]. intros E a b Ha Hb.
    rewrite Hd2 in Hb. by rewrite (val_fun _ _ _ _ _ Hb (val_TRUE c x E I)), andb_true_r.
  - split; [|done]. intros r x' H. assert (r = f) as -> by congruence. apply K; [done|done|]. intros E a b Ha Hb.
    rewrite <- Hd3 in Hb. rewrite (val_fun _ _ _ _ _ Hb Ha). by destruct a.
  - split; [|done]. intros r x' H. assert (r = BFALSE) as -> by congruence. apply K; [done|done|]. intros E a b Ha Hb.
    apply val_not in Hb. rewrite <- Hd4 in Hb. rewrite (val_fun _ _ _ _ _ Ha Hb). destruct b; by apply (val_FALSE c).
  - assert (Nf : f.2 <> 0%N) by (intros [?|?]%ref_zero; congruence). assert (Ng : g.2 <> 0%N) by (intros [?|?]%ref_zero; congruence).
    split.
    + intros r x' H. destruct (c_swap c (b_tick x) f g).
      * destruct (find_insert_and_ok c g f x r x' Sd I Og Of Ng Nf H) as (I'&G&_&Hv). split_and!; try done.
        -- destruct (val_total c x f (fun _ => true) I Of) as [a Ha], (val_total c x g (fun _ => true) I Og) as [b Hb].
           eapply val_ok, Hv; eauto.
        -- intros E v (a&b&Ha&Hb&->). rewrite andb_comm. by apply Hv.
      * destruct (find_insert_and_ok c f g x r x' Sd I Of Og Nf Ng H) as (I'&G&_&Hv). split_and!; try done.
        -- destruct (val_total c x f (fun _ => true) I Of) as [a Ha], (val_total c x g (fun _ => true) I Og) as [b Hb].
           eapply val_ok, Hv; eauto.
        -- intros E v (a&b&Ha&Hb&->). by apply Hv.
    + intros NC. destruct (c_swap c (b_tick x) f g); by apply find_insert_and_total.
Qed.
Lemma makes_impl c m x (F G : (string -> bool) -> bool -> Prop) : makes c m x F -> (forall E a, G E a -> F E a) -> makes c m x G.
Proof. intros [H T] HG. split; [|done]. intros r x' E. destruct (H r x' E) as (I&Gr&O&V). split_and!; try done. auto. Qed.
Lemma makes_bind c m k x F G : makes c m x F ->
  (forall r x', inv c x' -> grow x x' -> ok x' r.2 -> (forall E a, F E a -> val x' E r a) -> makes c (k r) x' G) -> makes c (xbind m k) x G.
Proof.
  intros [H T] Hk. unfold xbind. split.
  - intros r x'. destruct (m x) as [[r1 x1]|] eqn:E1; [|done]. destruct (H r1 x1 eq_refl) as (I1&G1&O1&V1).
    intros E2. destruct (Hk r1 x1 I1 G1 O1 V1) as [H2 _]. destruct (H2 r x' E2) as (I2&G2&O2&V2).
    split_and!; try done. by eapply grow_trans.
  - intros NC. destruct (T NC) as [[r1 x1] E1]. rewrite E1. destruct (H r1 x1 E1) as (I1&G1&O1&V1). by apply (Hk r1 x1 I1 G1 O1 V1).
Qed.
Lemma makes_ret c x r (F : (string -> bool) -> bool -> Prop) : inv c x -> ok x r.2 -> (forall E a, F E a -> val x E r a) -> makes c (xret r) x F.
Proof. intros I O V. split; [|done]. intros r' x' [= <- <-]. split_and!; try done. apply grow_refl. Qed.

Ltac okg := match goal with
  | G : grow ?a ?b |- ok ?b _ => apply (ok_grow a b _ G); assumption
  | G : grow ?a ?b |- val ?b _ _ _ => apply (val_grow a b _ _ _ G); assumption
  end.
Section ops.
  Context (c : cfg) (x : bx) (Sd : sound c) (I : inv c x).
  Definition two (f g : bref) (o : bool -> bool -> bool) : (string -> bool) -> bool -> Prop :=
    fun E v => exists a b, val x E f a /\ val x E g b /\ v = o a b.
  Lemma BE_And_ok f g : ok x f.2 -> ok x g.2 -> makes c (BE_And c f g) x (two f g andb).
  Proof. intros. by apply be_and_ok. Qed.
  Lemma BE_Nor_ok f g : ok x f.2 -> ok x g.2 -> makes c (BE_Nor c f g) x (two f g (fun a b => negb (a || b))).
  Proof.
    intros Of Og. eapply makes_impl; [by apply be_and_ok|]. intros E v (a&b&Ha&Hb&->).
    exists (negb a), (negb b). split_and!; [by apply val_not|by apply val_not|]. by destruct a, b.
  Qed.
  Lemma BE_Nand_ok f g : ok x f.2 -> ok x g.2 -> makes c (BE_Nand c f g) x (two f g (fun a b => negb (a && b))).
  Proof.
    intros Of Og. eapply makes_bind; [by apply be_and_ok|]. intros r x' I' G O V. apply makes_ret; [done|done|].
    intros E v (a&b&Ha&Hb&->). apply val_not, V. by exists a, b.
  Qed.
End ops.
Lemma BE_Or_ok c x f g : sound c -> inv c x -> ok x f.2 -> ok x g.2 -> makes c (BE_Or c f g) x (two x f g orb).
Proof.
  intros Sd I Of Og. eapply makes_bind; [by apply be_and_ok|]. intros r x' I' G O V. apply makes_ret; [done|done|].
  intros E v (a&b&Ha&Hb&->). apply val_not', V. exists (negb a), (negb b). split_and!; [by apply val_not|by apply val_not|]. by destruct a, b.
Qed.
Lemma BE_Xor_ok c x f g : sound c -> inv c x -> ok x f.2 -> ok x g.2 -> makes c (BE_Xor c f g) x (two x f g xorb).
Proof.
  intros Sd I Of Og. eapply makes_bind; [by apply be_and_ok|]. intros r x1 I1 G1 O1 V1.
  eapply makes_bind; [apply be_and_ok; try done; okg|]. intros r2 x2 I2 G2 O2 V2.
  eapply makes_impl; [apply BE_Or_ok; try done; okg|].
  intros E v (a&b&Ha&Hb&->). exists (negb a && b), (a && negb b). split_and!; [| |by destruct a, b].
  - eapply val_grow; [done|]. apply V1. exists (negb a), b. split_and!; [by apply val_not|done|done].
  - apply V2. exists a, (negb b). split_and!; [okg| |done]. eapply val_grow; [done|]. by apply val_not.
Qed.
Lemma BE_Xnor_ok c x f g : sound c -> inv c x -> ok x f.2 -> ok x g.2 -> makes c (BE_Xnor c f g) x (two x f g eqb).
Proof.
  intros Sd I Of Og. eapply makes_bind; [by apply be_and_ok|]. intros r x1 I1 G1 O1 V1.
  eapply makes_bind; [apply be_and_ok; try done; okg|]. intros r2 x2 I2 G2 O2 V2.
  eapply makes_impl; [apply BE_Or_ok; try done; okg|].
  intros E v (a&b&Ha&Hb&->). exists (negb a && negb b), (a && b). split_and!; [| |by destruct a, b].
  - eapply val_grow; [done|]. apply V1. exists (negb a), (negb b). split_and!; [by apply val_not|by apply val_not|done].
  - apply V2. exists a, b. split_and!; [okg|okg|done].
Qed.
Lemma BE_Ite_ok c x i t e : sound c -> inv c x -> ok x i.2 -> ok x t.2 -> ok x e.2 ->
  makes c (BE_Ite c i t e) x (fun E v => exists a b d, val x E i a /\ val x E t b /\ val x E e d /\ v = if a then b else d).
Proof.
  intros Sd I Oi Ot Oe. eapply makes_bind; [by apply be_and_ok|]. intros r1 x1 I1 G1 O1 V1.
  eapply makes_bind; [apply be_and_ok; try done; okg|]. intros r2 x2 I2 G2 O2 V2.
  pose proof (grow_trans _ _ _ G1 G2) as G02.
  eapply makes_bind; [apply BE_Or_ok; try done; okg|]. intros r3 x3 I3 G3 O3 V3.
  pose proof (grow_trans _ _ _ G02 G3) as G03.
  assert (R : forall E a b d, val x E i a -> val x E t b -> val x E e d -> val x3 E r3 (if a then b else d)).
  { intros E a b d Ha Hb Hd. apply V3. exists (a && b), (negb a && d). split_and!; [| |by destruct a, b, d].
    - apply (val_grow _ _ _ _ _ G2), V1. by exists a, b.
    - apply V2. exists (negb a), d. split_and!; [|okg|done]. apply (val_grow _ _ _ _ _ G1). by apply val_not. }
  destruct (c_redundant c).
  - eapply makes_bind; [apply be_and_ok; try done; okg|]. intros r4 x4 I4 G4 O4 V4.
    eapply makes_impl; [apply BE_Or_ok; try done; okg|].
    intros E v (a&b&d&Ha&Hb&Hd&->). exists (if a then b else d), (b && d). split_and!.
    + apply (val_grow _ _ _ _ _ G4). by apply R.
    + apply V4. exists b, d. split_and!; [okg|okg|done].
    + by destruct a, b, d.
  - apply makes_ret; [done|done|]. intros E v (a&b&d&Ha&Hb&Hd&->). by apply R.
Qed.
