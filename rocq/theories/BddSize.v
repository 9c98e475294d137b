(** Support of a set of formulas: B_Size, B_Width, Get_Var_Name and the builtin
    depends of /repo/src/bin/fl/new_bdd.c. *)
From stdpp Require Import gmap strings list.
From Coq Require Import NArith Lia.
From Verif Require Import BddModel BddWf BddOps BddVar BddDen BddQuant.
Open Scope N_scope.
Local Arguments N.mul : simpl never.
Local Arguments N.add : simpl never.

(** ** Model *)

(** bdd_size_tbl (visited formulas) and bddwidth. *)
Record szst := mkSz { visited : gset fml; width : gmap N N }.
Definition width_of (z : szst) (v : N) : N := default 0 (width z !! v).

(** new_bdd.c 797-813 (B_Size). *)
Fixpoint b_size_rec (fuel : nat) (s : bst) (f : fml) (z : szst) : option szst :=
  match fuel with
  | O => None
  | S fuel =>
    if decide (f.2 = 0) then Some z else
    if decide (f ∈ visited z) then Some z else
    match nodes s !! f.2 with
    | None => None
    | Some n =>
      match b_size_rec fuel s (pos n.1.2) z with
      | None => None
      | Some z1 =>
        match b_size_rec fuel s (pos n.2) z1 with
        | None => None
        | Some z2 => Some (mkSz ({[f]} ∪ visited z2)
                                (<[n.1.1 := width_of z2 n.1.1 + 1]> (width z2)))
        end
      end
    end
  end.
Definition B_Size (s : bst) (f : fml) (z : szst) : option szst :=
  b_size_rec (S (length (ord s))) s f z.
(** new_bdd.c 788-795 (Reset_BDD_Size). *)
Definition reset_sz : szst := mkSz ∅ ∅.
Fixpoint size_all (s : bst) (fs : list fml) (z : szst) : option szst :=
  match fs with
  | [] => Some z
  | f :: fs => match B_Size s f z with Some z => size_all s fs z | None => None end
  end.

(** The search loop shared by B_Width (760-769) and Get_Var_Name (771-780):
    the variable at position [p]; falling off the end is the DIE call. *)
Definition var_at (s : bst) (p : N) : option N :=
  match list_find (fun o => o = p) (ord s) with Some (i, _) => Some (N.of_nat i) | None => None end.

(** new_bdd.c 1574-1595 (depends): the Boolean leaves of the argument are [fs]. *)
Fixpoint scan (s : bst) (z : szst) (k : nat) (p : N) : option (list string) :=
  match k with
  | O => Some []
  | S k =>
    match var_at s p with
    | None => None
    | Some v =>
      match scan s z k (p + 1) with
      | None => None
      | Some rest =>
        if decide (0 < width_of z v) then
          match vnames s !! N.to_nat v with Some x => Some (x :: rest) | None => None end
        else Some rest
      end
    end
  end.
Definition depends (fs : list fml) : M (list string) := fun s =>
  match size_all s fs reset_sz with
  | None => None
  | Some z => match scan s z (length (ord s)) 0 with Some l => Some (l, s) | None => None end
  end.

(** ** The traversal computes the support *)
Definition top (s : bst) (f : fml) (v : N) : Prop := exists l r, nodes s !! f.2 = Some (v, l, r).
Definition closed (s : bst) (z : szst) : Prop := forall f, f ∈ visited z -> live s f /\
  exists v l r, nodes s !! f.2 = Some (v, l, r) /\
    (l.2 = 0 \/ pos l ∈ visited z) /\ (r.2 = 0 \/ pos r ∈ visited z).
Definition counted (s : bst) (z : szst) : Prop :=
  forall v, 0 < width_of z v <-> exists f, f ∈ visited z /\ top s f v.

Lemma dep_bnot s f v : WFn s -> live s f ->
  dep (fun e => sem s e (bnot f)) v <-> dep (fun e => sem s e f) v.
Proof.
  intros W L. split; intros [e He]; exists e; rewrite ?sem_bnot in * by done;
    intros H; apply He; [by rewrite H|].
  by destruct (sem s (upd e v true) f), (sem s (upd e v false) f).
Qed.
Lemma dep_pos s f v : WFn s -> live s f ->
  dep (fun e => sem s e (pos f)) v <-> dep (fun e => sem s e f) v.
Proof.
  intros W L. destruct f as [[] i]; [|done].
  rewrite <- (dep_bnot s (true, i) v) by done. done.
Qed.

Lemma closed_dep s z : WFn s -> closed s z -> forall f, live s f -> (f.2 = 0 \/ f ∈ visited z) ->
  forall v, dep (fun e => sem s e f) v -> exists g, g ∈ visited z /\ top s g v.
Proof.
  intros W HC.
  assert (forall f, live s f -> forall b, (f.2 = 0 \/ (b, f.2) ∈ visited z) ->
    forall v, dep (fun e => sem s e (b, f.2)) v -> exists g, g ∈ visited z /\ top s g v) as H.
  { refine (lvl_ind s _ W _ _).
    - intros b c _ v Hd. by apply dep_const in Hd.
    - intros n i v l r E IHl IHr b Hin w Hd. cbn [fst snd] in *.
      destruct Hin as [->|Hin]; [by rewrite (wf_zero _ W) in E|].
      destruct (HC _ Hin) as (_&v'&l'&r'&E'&Hl&Hr). cbn in E'. rewrite E in E'. injection E' as <- <- <-.
      apply (dep_node s b i v l r W E) in Hd as [->|[Hd|Hd]].
      + exists (b, i). split; [done|]. by exists l, r.
      + pose proof (wf_node _ W _ _ _ _ E) as (_&_&_&Ll&Lr&_).
        apply (IHl false); [done|]. by apply (dep_pos s l).
      + pose proof (wf_node _ W _ _ _ _ E) as (_&_&_&Ll&Lr&_).
        apply (IHr false); [done|]. by apply (dep_pos s r). }
  intros f L Hin v. specialize (H f L f.1). destruct f. by apply H.
Qed.

Definition sz_ok (s : bst) (z z' : szst) (f : fml) : Prop :=
  closed s z' /\ counted s z' /\ visited z ⊆ visited z' /\ (f.2 = 0 \/ f ∈ visited z') /\
  forall g, g ∈ visited z' -> g ∈ visited z \/
    forall v, dep (fun e => sem s e g) v -> dep (fun e => sem s e f) v.

Lemma b_size_rec_spec s fuel : WFn s -> forall f z, live s f -> closed s z -> counted s z ->
  (N.to_nat (nvars s - lvl s f) < fuel)%nat ->
  exists z', b_size_rec fuel s f z = Some z' /\ sz_ok s z z' f.
Proof.
  intros W. induction fuel as [|fuel IH]; intros f z L HC HK Hfuel; [lia|]. cbn [b_size_rec].
  destruct (decide (f.2 = 0)) as [Hf|Hf].
  { exists z. split; [done|]. split_and!; try done; by left. }
  destruct (decide (f ∈ visited z)) as [Hin|Hin].
  { exists z. split; [done|]. split_and!; try done; [by right|by left]. }
  destruct (live_cases _ _ L) as [?|(v&l&r&E)]; [done|]. rewrite E. cbn [fst snd].
  pose proof (wf_node _ W _ _ _ _ E) as (Hv&_&_&Ll&Lr&Ol&Or&_).
  assert (lvl s f = ORDER s v) as Hlf by (unfold lvl; by rewrite E).
  pose proof (ORDER_lt_nvars _ _ W Hv). pose proof (lvl_le s l W). pose proof (lvl_le s r W).
  destruct (IH (pos l) z) as (z1&->&HC1&HK1&Hs1&Hi1&Hd1); try done.
  { rewrite lvl_pos. lia. }
  destruct (IH (pos r) z1) as (z2&->&HC2&HK2&Hs2&Hi2&Hd2); try done.
  { rewrite lvl_pos. lia. }
  eexists. split; [done|]. cbn [visited].
  assert (f ∉ visited z2) as Hnew.
  { intros Hin2. destruct (Hd2 _ Hin2) as [Hin1|Hdd]; [destruct (Hd1 _ Hin1) as [?|Hdd]; [done|]|].
    - assert (dep (fun e => sem s e f) v) as Hdv.
      { destruct f as [n i]. apply (dep_node s n i v l r W E). by left. }
      apply Hdd in Hdv. rewrite dep_pos in Hdv by done. destruct Hdv as [e He]. apply He.
      by rewrite !(sem_upd_above s v _ W Hv l).
    - assert (dep (fun e => sem s e f) v) as Hdv.
      { destruct f as [n i]. apply (dep_node s n i v l r W E). by left. }
      apply Hdd in Hdv. rewrite dep_pos in Hdv by done. destruct Hdv as [e He]. apply He.
      by rewrite !(sem_upd_above s v _ W Hv r). }
  unfold sz_ok. cbn [visited]. split_and!.
  - intros g Hg. cbn [visited] in *. apply elem_of_union in Hg as [->%elem_of_singleton|Hg].
    + split; [done|]. exists v, l, r. split; [done|].
      assert (forall k, k.2 = 0 \/ pos k ∈ visited z2 -> k.2 = 0 \/ pos k ∈ {[f]} ∪ visited z2) as Hk.
      { intros k [?|?]; [by left|right]. by apply elem_of_union_r. }
      split; apply Hk; [|done]. destruct Hi1 as [?|Hi1]; [by left|right]. by apply Hs2.
    + destruct (HC2 g Hg) as (Lg&v'&l'&r'&E'&Hl'&Hr'). split; [done|]. exists v', l', r'.
      split; [done|]. split; [destruct Hl' as [?|?]|destruct Hr' as [?|?]]; try (by left);
        right; by apply elem_of_union_r.
  - intros w. unfold width_of. cbn [width visited].
    destruct (decide (w = v)) as [->|Hne].
    + rewrite lookup_insert. cbn. split; [|lia]. intros _. exists f. split; [|by exists l, r].
      apply elem_of_union_l. by apply elem_of_singleton.
    + rewrite lookup_insert_ne by done. fold (width_of z2 w). rewrite (HK2 w). split.
      * intros (g&Hg&Ht). exists g. split; [|done]. by apply elem_of_union_r.
      * intros (g&Hg&Ht). apply elem_of_union in Hg as [->%elem_of_singleton|Hg]; [|eauto].
        destruct Ht as (?&?&Et). congruence.
  - intros g Hg. apply elem_of_union_r. auto.
  - right. apply elem_of_union_l. by apply elem_of_singleton.
  - intros g Hg. apply elem_of_union in Hg as [->%elem_of_singleton|Hg]; [by right|].
    destruct f as [n i]. cbn in E.
    destruct (Hd2 _ Hg) as [Hg1|Hdd]; [destruct (Hd1 _ Hg1) as [?|Hdd]; [by left|]|].
    + right. intros w Hw. apply (dep_node s n i v l r W E). right. left.
      apply (dep_pos s l); [done|done|]. by apply Hdd.
    + right. intros w Hw. apply (dep_node s n i v l r W E). right. right.
      apply (dep_pos s r); [done|done|]. by apply Hdd.
Qed.

Lemma size_all_spec s fs : WFn s -> forall z, Forall (live s) fs -> closed s z -> counted s z ->
  exists z', size_all s fs z = Some z' /\ closed s z' /\ counted s z' /\
    visited z ⊆ visited z' /\ (forall f, f ∈ fs -> f.2 = 0 \/ f ∈ visited z') /\
    forall g, g ∈ visited z' -> g ∈ visited z \/ exists f, f ∈ fs /\
      forall v, dep (fun e => sem s e g) v -> dep (fun e => sem s e f) v.
Proof.
  intros W. induction fs as [|f fs IH]; intros z HL HC HK; cbn [size_all].
  { exists z. split_and!; try done. { by intros ? ?%elem_of_nil. } by left. }
  apply Forall_cons in HL as [L HL].
  destruct (b_size_rec_spec s (S (length (ord s))) W f z L HC HK) as (z1&E1&HC1&HK1&Hs1&Hi1&Hd1).
  { unfold nvars. lia. }
  unfold B_Size. rewrite E1.
  destruct (IH z1 HL HC1 HK1) as (z2&E2&HC2&HK2&Hs2&Hi2&Hd2).
  exists z2. split_and!; try done.
  - by etrans.
  - intros g [->|Hg]%elem_of_cons; [|auto]. destruct Hi1 as [?|?]; [by left|right; auto].
  - intros g Hg. destruct (Hd2 g Hg) as [Hg1|(k&Hk&Hd)].
    + destruct (Hd1 g Hg1) as [?|Hd]; [by left|right]. exists f. split; [left|done].
    + right. exists k. split; [by right|done].
Qed.

(** ** Scanning the variable order *)
Lemma var_at_spec s p : WFn s -> p < nvars s -> exists v, var_at s p = Some v /\ v < nvars s /\ ORDER s v = p.
Proof.
  intros W Hp. unfold var_at.
  destruct (list_find (fun o => o = p) (ord s)) as [[i y]|] eqn:E.
  - apply list_find_Some in E as (Hi&->&_). exists (N.of_nat i). split; [done|].
    assert (N.of_nat i < nvars s) by (apply lookup_lt_Some in Hi; unfold nvars; lia).
    split; [done|]. unfold ORDER. rewrite Nat2N.id. by apply nth_lookup_Some.
  - apply list_find_None in E. rewrite Forall_forall in E. exfalso.
    (* pigeonhole: ord is an injection of nvars values into nvars *)
    assert (NoDup (ord s)) as Hnd.
    { apply NoDup_alt. intros i j o Hi Hj.
      pose proof (lookup_lt_Some _ _ _ Hi). pose proof (lookup_lt_Some _ _ _ Hj).
      assert (N.of_nat i = N.of_nat j); [|lia].
      apply (wf_ord_inj _ W); [unfold nvars; lia|unfold nvars; lia|].
      unfold ORDER. rewrite !Nat2N.id. by erewrite !nth_lookup_Some by done. }
    assert (forall o, o ∈ ord s -> o < nvars s) as Hlt.
    { intros o Ho. apply elem_of_list_lookup in Ho as [i Hi].
      pose proof (lookup_lt_Some _ _ _ Hi).
      pose proof (wf_ord_lt _ W (N.of_nat i)) as Hw. unfold ORDER in Hw. rewrite Nat2N.id in Hw.
      erewrite nth_lookup_Some in Hw by done. apply Hw. unfold nvars. lia. }
    set (R := filter (fun o => o <> p) (N.of_nat <$> seq 0 (length (ord s)))).
    assert (ord s ⊆+ R) as Hsub.
    { apply NoDup_submseteq; [done|]. intros o Ho. apply elem_of_list_filter. split; [by apply E|].
      apply elem_of_list_fmap. exists (N.to_nat o). split; [lia|]. apply elem_of_seq.
      specialize (Hlt o Ho). unfold nvars in Hlt. lia. }
    apply submseteq_length in Hsub.
    assert (length R < length (ord s))%nat; [|lia]. unfold R.
    eapply Nat.lt_le_trans; [apply (filter_length_lt _ _ p)|].
    + apply elem_of_list_fmap. exists (N.to_nat p). split; [lia|]. apply elem_of_seq. unfold nvars in Hp. lia.
    + by intros ?.
    + rewrite fmap_length, seq_length. done.
Qed.

Lemma scan_spec s z k p : WF s -> p + N.of_nat k = nvars s -> exists l, scan s z k p = Some l /\
  forall x, x ∈ l <-> exists v, v < nvars s /\ p <= ORDER s v /\ 0 < width_of z v /\
    vnames s !! N.to_nat v = Some x.
Proof.
  intros W. revert p. induction k as [|k IH]; intros p Hp; cbn [scan].
  { exists []. split; [done|]. intros x. split; [by intros ?%elem_of_nil|].
    intros (v&Hv&Ho&_). pose proof (ORDER_lt_nvars _ _ W Hv). lia. }
  destruct (var_at_spec s p W) as (v&->&Hv&Ho); [lia|].
  destruct (IH (p + 1)) as (l&->&Hl); [lia|].
  assert (Hw : forall w, w < nvars s -> p <= ORDER s w -> w = v \/ p + 1 <= ORDER s w).
  { intros w Hw Hle. destruct (N.eq_dec (ORDER s w) p) as [Heq|]; [left|right; lia].
    apply (wf_ord_inj _ W); try done. lia. }
  destruct (lookup_lt_is_Some_2 (vnames s) (N.to_nat v)) as [x Hx].
  { rewrite (wf_len _ W). unfold nvars in Hv. lia. }
  destruct (decide (0 < width_of z v)) as [Hz|Hz].
  - rewrite Hx. eexists. split; [done|]. intros y. rewrite elem_of_cons, Hl. split.
    + intros [->|(w&?&?&?&?)]; [exists v|exists w]; split_and!; try done; lia.
    + intros (w&Hw1&Hw2&Hw3&Hw4). destruct (Hw w Hw1 Hw2) as [->|]; [left; congruence|right; eauto].
  - eexists. split; [done|]. intros y. rewrite Hl. split.
    + intros (w&?&?&?&?). exists w. split_and!; try done; lia.
    + intros (w&Hw1&Hw2&Hw3&Hw4). destruct (Hw w Hw1 Hw2) as [->|]; [done|]. eauto.
Qed.

(** ** Dependence by name *)
Definition nupd (E : nenv) (x : string) (b : bool) : nenv := fun y => if String.eqb y x then b else E y.
Definition ndep (F : bfun) (x : string) : Prop := exists E, F (nupd E x true) <> F (nupd E x false).

Lemma env_of_nupd s E x v b : WF s -> vnames s !! N.to_nat v = Some x ->
  forall w, env_of s (nupd E x b) w = upd (env_of s E) v b w \/ ~ w < nvars s.
Proof.
  intros W Hx w. destruct (decide (w < nvars s)) as [Hw|]; [left|by right].
  unfold env_of, upd. destruct (lookup_lt_is_Some_2 (vnames s) (N.to_nat w)) as [y Hy].
  { rewrite (wf_len _ W). unfold nvars in Hw. lia. }
  rewrite Hy. unfold nupd. destruct (String.eqb_spec y x) as [->|Hne]; case_decide as Hd; try done.
  - exfalso. apply Hd. apply N2Nat.inj. by eapply NoDup_lookup; [apply (wf_names _ W)|..].
  - subst. congruence.
Qed.
Lemma ndep_dep s f x : WF s -> live s f -> ndep (den s f) x <->
  exists v, vnames s !! N.to_nat v = Some x /\ dep (fun e => sem s e f) v.
Proof.
  intros W L. split.
  - intros [E HE]. destruct (decide (x ∈ vnames s)) as [Hx|Hx].
    + apply elem_of_list_lookup in Hx as [i Hi]. exists (N.of_nat i). rewrite Nat2N.id.
      split; [done|]. exists (env_of s E). unfold den in HE.
      assert (forall b, sem s (env_of s (nupd E x b)) f = sem s (upd (env_of s E) (N.of_nat i) b) f) as Hs.
      { intros b. apply sem_env_ext; [done| |done]. intros w Hw.
        destruct (env_of_nupd s E x (N.of_nat i) b W) with (w := w) as [?|?]; [by rewrite Nat2N.id|done|done]. }
      by rewrite <- !Hs.
    + exfalso. apply HE. unfold den. apply sem_env_ext; [done| |done]. intros w Hw. unfold env_of.
      destruct (vnames s !! N.to_nat w) as [y|] eqn:Ey; [|done]. unfold nupd.
      destruct (String.eqb_spec y x) as [->|]; [|done]. exfalso. apply Hx. by eapply elem_of_list_lookup_2.
  - intros (v&Hx&[e He]). destruct (env_of_surj s e W) as [E HE]. exists E. unfold den.
    assert (forall b, sem s (env_of s (nupd E x b)) f = sem s (upd e v b) f) as Hs; [|by rewrite !Hs].
    intros b. apply sem_env_ext; [done| |done]. intros w Hw.
    destruct (env_of_nupd s E x v b W Hx w) as [->|?]; [|done]. unfold upd. case_decide; [done|auto].
Qed.

Lemma depends_spec s fs : WF s -> Forall (live s) fs -> exists l, depends fs s = Some (l, s) /\
  forall x, x ∈ l <-> exists f, f ∈ fs /\ ndep (den s f) x.
Proof.
  intros W HL. unfold depends.
  destruct (size_all_spec s fs W reset_sz HL) as (z&->&HC&HK&_&Hi&Hd).
  { intros f Hf. by apply elem_of_empty in Hf. }
  { intros v. unfold width_of, reset_sz. cbn. rewrite lookup_empty. cbn. split; [lia|].
    intros (f&Hf&_). by apply elem_of_empty in Hf. }
  destruct (scan_spec s z (length (ord s)) 0 W) as (l&->&Hl); [unfold nvars; lia|].
  exists l. split; [done|]. intros x. rewrite Hl. rewrite Forall_forall in HL. split.
  - intros (v&Hv&_&Hw&Hx). apply HK in Hw as (g&Hg&l'&r'&E).
    destruct (Hd g Hg) as [Hb|(f&Hf&Hdd)]; [by apply elem_of_empty in Hb|].
    exists f. split; [done|]. apply ndep_dep; [done|auto|]. exists v. split; [done|].
    apply Hdd. destruct g as [n i]. apply (dep_node s n i v l' r' W E). by left.
  - intros (f&Hf&Hn). apply ndep_dep in Hn as (v&Hx&Hdv); [|done|auto].
    exists v. assert (v < nvars s) by (by eapply dep_lt; [..|exact Hdv]; auto).
    split_and!; try done; [lia|]. apply HK.
    by eapply (closed_dep s z W HC f); [auto|auto|].
Qed.
