(** Variable reordering: /repo/src/bin/fl/new_bdd.c 3046-3500.

    Simplifications: the chains of the unique table of the upper variable are
    visited in the order of [map_to_list] instead of hash-bucket order (the
    nodes present at the start, flagged "moving", are exactly the ones
    treated).  [Bdec_ref_cnt] unlinks a dead entry before visiting its sons
    instead of after; the recursion never reaches the entry again.
    The choice of positions by the sifting search (re_order) depends on node
    counts; here the sequence of exchanges is arbitrary. *)
From stdpp Require Import gmap strings list.
From Coq Require Import NArith Lia.
From Verif Require Import BddModel BddWf BddOps BddVar BddQuant BddDen BddGc BddSize.
Open Scope N_scope.
Local Arguments N.mul : simpl never.
Local Arguments N.add : simpl never.

Definition rst : Type := bst * (N -> N).

Definition with_tables (s : bst) (nd : gmap N node) (u : gmap node N) (fr : list N) : bst :=
  mkSt nd u fr (size s) (ord s) (vnames s) (vtbl s) (cache s).

(** new_bdd.c 2461-2525 with the reference counts of the sons (2506-2514). *)
Definition find_insert_rc (v : N) (l r : fml) (st : rst) : option (fml * rst) :=
  match find_insert v l r st.1 with
  | None => None
  | Some (f, s') =>
    let rc := match nodes st.1 !! f.2, nodes s' !! f.2 with
              | None, Some (_, a, b) => rinc (rinc (rset st.2 f.2 0) a.2) b.2
              | _, _ => st.2
              end in
    Some (f, (s', rc))
  end.

(** new_bdd.c 3462-3520 (Bdec_ref_cnt). *)
Fixpoint bdec (fuel : nat) (i : N) (st : rst) : option rst :=
  if decide (i = 0) then Some st else
  if decide (st.2 i = RCMAX) then Some st else
  if decide (st.2 i = 0) then None else
  let rc := rset st.2 i (st.2 i - 1) in
  if decide (st.2 i = 1) then
    match fuel with
    | O => None
    | S fuel =>
      match nodes st.1 !! i with
      | None => None
      | Some (v, l, r) =>
        let s1 := with_tables st.1 (delete i (nodes st.1)) (delete (v, l, r) (uniq st.1)) (free st.1) in
        match bdec fuel l.2 (s1, rc) with
        | None => None
        | Some st2 =>
          match bdec fuel r.2 st2 with
          | None => None
          | Some st3 => Some (with_tables st3.1 (nodes st3.1) (uniq st3.1) (i :: free st3.1), st3.2)
          end
        end
      end
    end
  else Some (st.1, rc).

(** f2var, f2lson, f2rson (new_bdd.c 3427-3450) of a son that is a node of
    variable [y], with the complement mark of the right son pushed down. *)
Definition at_var (s : bst) (y : N) (c : fml) : option (fml * fml) :=
  match nodes s !! c.2 with
  | Some (v, a, b) => if decide (v = y) then
      Some (if c.1 then (bnot a, bnot b) else (a, b)) else None
  | None => None
  end.

(** new_bdd.c 3315-3416: one iteration of the loop of swap_down on a moving
    node; the four cases are selected by which sons are at the next variable. *)
Definition swap_node (x y cur : N) (st : rst) : option rst :=
  match nodes st.1 !! cur with
  | None => None
  | Some (_, l, r) =>
    match at_var st.1 y l, at_var st.1 y r with
    | None, None => Some st
    | ol, or_ =>
      let la := match ol with Some p => p.1 | None => l end in
      let lb := match ol with Some p => p.2 | None => l end in
      let ra := match or_ with Some p => p.1 | None => r end in
      let rb := match or_ with Some p => p.2 | None => r end in
      match find_insert_rc x la ra st with
      | None => None
      | Some (nl, st1) =>
        match find_insert_rc x lb rb st1 with
        | None => None
        | Some (nr, st2) =>
          if decide (nl = nr) then None else
          let s2 := st2.1 in
          let s3 := with_tables s2 (<[cur := (y, nl, nr)]> (nodes s2))
                      (<[(y, nl, nr) := cur]> (delete (x, l, r) (uniq s2))) (free s2) in
          let rc3 := rinc (rinc st2.2 nl.2) nr.2 in
          match bdec (length (ord s3)) l.2 (s3, rc3) with
          | None => None
          | Some st4 => bdec (length (ord s3)) r.2 st4
          end
        end
      end
    end
  end.

Fixpoint swap_nodes (x y : N) (todo : list N) (st : rst) : option rst :=
  match todo with
  | [] => Some st
  | cur :: todo => match swap_node x y cur st with None => None | Some st' => swap_nodes x y todo st' end
  end.

Definition at_x (s : bst) (x : N) : list N :=
  map fst (filter (fun p => p.2.1.1 = x) (map_to_list (nodes s))).

(** new_bdd.c 3287-3425 (swap_down).  [rev] is the table position -> variable
    (rev_table); reading outside it is [None]. *)
Definition swap_down (p : nat) (st : rst * list N) : option (rst * list N) :=
  match st.2 !! p, st.2 !! S p with
  | Some x, Some y =>
    match swap_nodes x y (at_x st.1.1 x) st.1 with
    | None => None
    | Some (s, rc) =>
      let o := <[N.to_nat x := ORDER s y]> (<[N.to_nat y := ORDER s x]> (ord s)) in
      Some (mkSt (nodes s) (uniq s) (free s) (size s) o (vnames s) (vtbl s) (cache s), rc,
            <[p := y]> (<[S p := x]> st.2))
    end
  | _, _ => None
  end.

(** new_bdd.c 3276-3285 (do_swap_down): exchange two neighbouring pairs. *)
Fixpoint swaps (ps : list nat) (st : rst * list N) : option (rst * list N) :=
  match ps with
  | [] => Some st
  | p :: ps => match swap_down p st with None => None | Some st' => swaps ps st' end
  end.
Definition do_swap_down (p : nat) := swaps [S p; S (S p); p; S p].

(** Initial rev_table (re_order, new_bdd.c 3058-3064). *)
Definition rev_of (s : bst) : list N :=
  foldl (fun l v => <[N.to_nat (ORDER s v) := v]> l) (replicate (length (ord s)) 0)
        (map N.of_nat (seq 0 (length (ord s)))).

(** garbage_collect with reordering (new_bdd.c 2823-2840): collect, exchange,
    erase the cache. *)
Definition erase_cache (s : bst) : bst :=
  mkSt (nodes s) (uniq s) (free s) (size s) (ord s) (vnames s) (vtbl s) ∅.
Definition gc_reorder (s : bst) (roots : list fml) (ps : list nat) : option bst :=
  match gc s roots with
  | None => None
  | Some (s1, rc) =>
    match swaps ps ((s1, rc), rev_of s1) with
    | None => None
    | Some ((s2, _), _) => Some (erase_cache s2)
    end
  end.

Lemma bdec_free : forall fuel i st st', bdec fuel i st = Some st' -> forall j, j ∈ free st.1 -> j ∈ free st'.1.
Proof.
  induction fuel as [|fu IHf]; intros i0 st st' E0 j0 Hj0; cbn [bdec] in E0.
  - destruct (decide _); [by injection E0 as <-|]. destruct (decide _); [by injection E0 as <-|].
    destruct (decide _); [done|]. destruct (decide _); [done|]. by injection E0 as <-.
  - destruct (decide _); [by injection E0 as <-|]. destruct (decide _); [by injection E0 as <-|].
    destruct (decide _); [done|]. destruct (decide _); [|by injection E0 as <-].
    destruct (nodes st.1 !! i0) as [[[v0 l0] r0]|]; [|done].
    destruct (bdec fu l0.2 _) as [st2|] eqn:Ea; [|done]. destruct (bdec fu r0.2 st2) as [st3|] eqn:Eb; [|done].
    injection E0 as <-. cbn. right. eapply IHf; [exact Eb|]. eapply IHf; [exact Ea|]. done.
Qed.

(** ** Invariant of the exchange *)
Section Swap.
Context (s0 : bst) (x y p : N) (pin : N -> Prop) (ext : N -> N).
Context (W0 : WFn s0) (Hx : x < nvars s0) (Hy : y < nvars s0) (Ox : ORDER s0 x = p) (Oy : ORDER s0 y = p + 1).
Context (ext_pin : forall j, 1 <= ext j -> pin j).

Definition no (v : N) : N := if decide (v = x) then p + 1 else if decide (v = y) then p else ORDER s0 v.
Definition nl (s : bst) (c : fml) : N := match nodes s !! c.2 with Some (v, _, _) => no v | None => nvars s0 end.
Definition lowf (s : bst) (c : fml) : Prop :=
  c.2 = 0 \/ exists v l r, nodes s !! c.2 = Some (v, l, r) /\ p + 1 < ORDER s0 v.
(** a low formula or a node of variable [z] with low sons *)
Definition via (s : bst) (z : N) (c : fml) : Prop :=
  lowf s c \/ exists a b, nodes s !! c.2 = Some (z, a, b) /\ lowf s a /\ lowf s b.
Definition Sf (S : N -> env -> bool) (c : fml) (e : env) : bool := xorb c.1 (S c.2 e).

Record inv (s : bst) (rc : N -> N) (todo : list N) (O : gset N) (S : N -> env -> bool) (pend : N -> N) : Prop := {
  i_ord : ord s = ord s0;
  i_vn : vnames s = vnames s0;
  i_vt : vtbl s = vtbl s0;
  i_zero : nodes s !! 0 = None;
  i_node : forall i v l r, nodes s !! i = Some (v, l, r) ->
     v < nvars s0 /\ l.1 = false /\ l <> r /\ live s l /\ live s r /\ i < size s;
  i_lev : forall i v l r, nodes s !! i = Some (v, l, r) ->
     (no v < nl s l /\ no v < nl s r) \/ (v = x /\ i ∈ todo);
  i_y : forall i l r, nodes s !! i = Some (y, l, r) -> via s x l /\ via s x r;
  i_todo : forall i, i ∈ todo -> exists l r, nodes s !! i = Some (x, l, r) /\ via s y l /\ via s y r;
  i_ndt : NoDup todo;
  i_uniq : forall n i, uniq s !! n = Some i <-> nodes s !! i = Some n;
  i_nodup : NoDup (free s);
  i_free : forall i, i ∈ free s -> nodes s !! i = None /\ i <> 0 /\ i < size s;
  i_size : 0 < size s;
  i_S0 : forall e, S 0 e = false;
  i_S : forall i v l r e, nodes s !! i = Some (v, l, r) -> S i e = if e v then Sf S l e else Sf S r e;
  i_O : forall i, i ∈ O -> is_Some (nodes s !! i) /\ is_Some (nodes s0 !! i) /\ forall e, S i e = sem s0 e (false, i);
  i_nx : forall i v l r, nodes s !! i = Some (v, l, r) -> v <> x -> i ∈ O;
  i_tO : forall i, i ∈ todo -> i ∈ O;
  i_rc : forall j, is_Some (nodes s !! j) -> rc j = RCMAX \/ indeg (nodes s) j + ext j + pend j <= rc j;
  i_pend : forall j, 1 <= pend j -> is_Some (nodes s !! j);
  i_pin : forall j, pin j -> j ∈ O /\ (rc j = RCMAX \/ 1 <= ext j)
}.

Lemma x_ne_y : x <> y.
Proof. intros E. rewrite E in Ox. lia. Qed.

Lemma no_low v : p + 1 < ORDER s0 v -> no v = ORDER s0 v.
Proof.
  intros H. unfold no. destruct (decide (v = x)) as [->|]; [lia|].
  destruct (decide (v = y)) as [->|]; [lia|done].
Qed.
Lemma no_cases v : v < nvars s0 -> no v < nvars s0.
Proof.
  intros H. unfold no. pose proof (wf_ord_lt _ W0 x Hx). pose proof (wf_ord_lt _ W0 y Hy).
  pose proof (wf_ord_lt _ W0 v H). destruct (decide _); [lia|]. destruct (decide _); lia.
Qed.
Lemma no_inj v w : v < nvars s0 -> w < nvars s0 -> no v = no w -> v = w.
Proof.
  assert (forall u, u < nvars s0 -> u = x /\ no u = p + 1 \/ u = y /\ no u = p \/
    no u = ORDER s0 u /\ ORDER s0 u <> p /\ ORDER s0 u <> p + 1) as H.
  { intros u Hu. unfold no. destruct (decide (u = x)) as [|Hux]; [by left|right].
    destruct (decide (u = y)) as [|Huy]; [by left|right]. split_and!; [done|intros E..].
    - apply Hux. apply (wf_ord_inj _ W0); [done..|]. lia.
    - apply Huy. apply (wf_ord_inj _ W0); [done..|]. lia. }
  intros Hv Hw E.
  destruct (H v Hv) as [[? ?]|[[? ?]|(?&?&?)]], (H w Hw) as [[? ?]|[[? ?]|(?&?&?)]]; try congruence; try lia.
  apply (wf_ord_inj _ W0); [done..|]. lia.
Qed.
Lemma no_x : no x = p + 1.
Proof. unfold no. by rewrite decide_True. Qed.
Lemma no_y : no y = p.
Proof. unfold no. pose proof x_ne_y. rewrite decide_False by done. by rewrite decide_True. Qed.
(** a variable strictly below the upper of the two levels is low or [x] *)
Lemma no_gt v : v < nvars s0 -> p < no v -> v = x \/ p + 1 < ORDER s0 v.
Proof.
  intros Hv H. destruct (decide (v = x)); [by left|right].
  destruct (decide (v = y)) as [->|]; [rewrite no_y in H; lia|].
  unfold no in H. rewrite !decide_False in H by done.
  assert (ORDER s0 v <> p + 1); [|lia]. intros E. apply n0. apply (wf_ord_inj _ W0); [done..|]. lia.
Qed.

Lemma nl_low s c : lowf s c -> nodes s !! 0 = None -> p + 1 < nl s c.
Proof.
  intros [H|(v&l&r&E&H)] Hz; unfold nl.
  - rewrite H, Hz. pose proof (wf_ord_lt _ W0 y Hy). lia.
  - rewrite E. by rewrite no_low.
Qed.
Lemma low_nl s rc todo O S pend c : inv s rc todo O S pend -> live s c -> p + 1 < nl s c -> lowf s c.
Proof.
  intros I [H|[[[v l] r] E]] Hn; [by left|right]. exists v, l, r. split; [done|].
  unfold nl in Hn. rewrite E in Hn. destruct (i_node _ _ _ _ _ _ I _ _ _ _ E) as (Hv&_).
  destruct (no_gt v Hv) as [->|?]; [lia|rewrite no_x in Hn; lia|done].
Qed.

(** sons of a low node are low *)
Lemma low_sons s rc todo O S pend i v l r : inv s rc todo O S pend ->
  nodes s !! i = Some (v, l, r) -> p + 1 < ORDER s0 v -> lowf s l /\ lowf s r /\ no v < nl s l /\ no v < nl s r.
Proof.
  intros I E Hv. destruct (i_node _ _ _ _ _ _ I _ _ _ _ E) as (_&_&_&Ll&Lr&_).
  destruct (i_lev _ _ _ _ _ _ I _ _ _ _ E) as [[A B]|[-> _]]; [|lia].
  rewrite no_low in A, B by done.
  split_and!; [..|by rewrite no_low|by rewrite no_low]; eapply low_nl; try done; lia.
Qed.

Lemma low_ind s rc todo O S pend (P : fml -> Prop) : inv s rc todo O S pend ->
  (forall b, P (b, 0)) ->
  (forall n i v l r, nodes s !! i = Some (v, l, r) -> p + 1 < ORDER s0 v -> P l -> P r -> P (n, i)) ->
  forall c, lowf s c -> P c.
Proof.
  intros I H0 HN.
  assert (forall k c, (N.to_nat (nvars s0 - nl s c) < k)%nat -> lowf s c -> P c) as H.
  { induction k as [|k IH]; intros c Hk L; [lia|]. destruct c as [n i].
    destruct L as [E|(v&l&r&E&Hv)]; cbn in E; [rewrite E; apply H0|].
    destruct (low_sons _ _ _ _ _ _ _ _ _ _ I E Hv) as (Ll&Lr&Nl&Nr).
    destruct (i_node _ _ _ _ _ _ I _ _ _ _ E) as (Hvn&_).
    pose proof (no_cases v Hvn). unfold nl at 1 in Hk. cbn in Hk. rewrite E in Hk.
    apply (HN n i v l r E Hv); apply IH; try done; lia. }
  intros c L. by apply (H (Datatypes.S (N.to_nat (nvars s0 - nl s c)))); [lia|].
Qed.

Lemma low_indep s rc todo O S pend w b : inv s rc todo O S pend -> w = x \/ w = y ->
  forall c, lowf s c -> forall e, Sf S c (upd e w b) = Sf S c e.
Proof.
  intros I Hw. refine (low_ind s rc todo O S pend _ I _ _).
  - intros t e. unfold Sf. cbn. by rewrite !(i_S0 _ _ _ _ _ _ I).
  - intros n i v l r E Hv IHl IHr e. unfold Sf at 1 2. cbn [fst snd].
    rewrite !(i_S _ _ _ _ _ _ I _ _ _ _ _ E), IHl, IHr.
    rewrite upd_ne; [done|]. intros ->. destruct Hw; subst; lia.
Qed.

(** original entries are distinguished by their functions *)
Lemma O_canon s rc todo O S pend c d : inv s rc todo O S pend ->
  (c.2 = 0 \/ c.2 ∈ O) -> (d.2 = 0 \/ d.2 ∈ O) -> (forall e, Sf S c e = Sf S d e) -> c = d.
Proof.
  intros I Hc Hd H.
  assert (forall f : fml, f.2 = 0 \/ f.2 ∈ O -> live s0 f /\ forall e, sem s0 e f = Sf S f e) as HO.
  { intros [b i] [E|E]; cbn in E.
    - subst. split; [apply live_const|]. intros e. rewrite sem_const. unfold Sf. cbn. rewrite (i_S0 _ _ _ _ _ _ I). by destruct b.
    - destruct (i_O _ _ _ _ _ _ I _ E) as (_&L&HS). split; [by right|]. intros e.
      rewrite sem_neg; [|done|by right]. unfold Sf. cbn. by rewrite HS. }
  destruct (HO c Hc) as [Lc Ec]. destruct (HO d Hd) as [Ld Ed].
  apply (canonical s0 W0); [done|done|]. intros e. by rewrite Ec, Ed.
Qed.
Lemma low_O s rc todo O S pend c : inv s rc todo O S pend -> lowf s c -> c.2 = 0 \/ c.2 ∈ O.
Proof.
  intros I [H|(v&l&r&E&H)]; [by left|right]. eapply (i_nx _ _ _ _ _ _ I); [done|]. intros ->. lia.
Qed.

(** *** Releasing references *)
Lemma via_del s i z c : nodes s !! c.2 <> None -> c.2 <> i -> 
  (forall a b, nodes s !! c.2 = Some (z, a, b) -> a.2 <> i /\ b.2 <> i) ->
  forall s', nodes s' = delete i (nodes s) -> via s z c -> via s' z c.
Proof.
  intros Hc Hi Hab s' Hs'.
  assert (forall d, d.2 <> i -> lowf s d -> lowf s' d) as HL.
  { intros d Hd [?|(v&l&r&E&?)]; [by left|right]. exists v, l, r. split; [|done].
    rewrite Hs', lookup_delete_ne by done. done. }
  intros [H|(a&b&E&Ha&Hb)]; [left; by apply HL|right]. exists a, b.
  destruct (Hab _ _ E) as [? ?]. split_and!; [|by apply HL|by apply HL].
  by rewrite Hs', lookup_delete_ne by done.
Qed.

Lemma via_z s z i : via s z (false, i) -> i = 0 \/ exists v l r, nodes s !! i = Some (v, l, r).
Proof.
  intros [[H|(v&l&r&E&_)]|(a&b&E&_)]; [by left|right..]; [by exists v, l, r|by exists z, a, b].
Qed.

Lemma inv_del s rc todo O S pend i v l r : inv s rc todo O S pend ->
  nodes s !! i = Some (v, l, r) -> indeg (nodes s) i = 0 -> ext i = 0 -> pend i = 0 ->
  rc i <> RCMAX -> v <> x ->
  inv (with_tables s (delete i (nodes s)) (delete (v, l, r) (uniq s)) (free s)) (rset rc i 0) todo
      (O ∖ {[i]}) S (fun j => pend j + edges (v, l, r) j - (if decide (j = 0) then pend j + edges (v, l, r) j else 0)).
Proof.
  intros I E Hin He Hp Hrc Hvx.
  set (s' := with_tables s (delete i (nodes s)) (delete (v, l, r) (uniq s)) (free s)).
  pose proof (indeg_zero _ _ Hin) as Hson.
  assert (forall j n, nodes s' !! j = Some n <-> nodes s !! j = Some n /\ j <> i) as HN.
  { intros j n. cbn. rewrite lookup_delete_Some. intuition congruence. }
  assert (forall c, live s c -> c.2 <> i -> live s' c) as HL.
  { intros c [?|[n Hn]] Hc; [by left|right]. exists n. by apply HN. }
  assert (forall c, c.2 <> i -> nl s' c = nl s c) as Hnl.
  { intros c Hc. unfold nl. cbn. by rewrite lookup_delete_ne. }
  assert (i <> 0) as Hi0. { intros ->. rewrite (i_zero _ _ _ _ _ _ I) in E. done. }
  assert (forall c z, live s c -> c.2 <> i -> via s z c -> via s' z c) as HV.
  { intros c z Lc Hc Hv. destruct Hv as [[H|(w&a&b&Ec&Hw)]|(a&b&Ec&Ha&Hb)].
    - by left; left.
    - left. right. exists w, a, b. split; [|done]. by apply HN.
    - right. exists a, b. destruct (Hson _ _ _ _ Ec) as [Hai Hbi].
      assert (forall d, d.2 <> i -> lowf s d -> lowf s' d) as HLw.
      { intros d Hd [?|(w&l'&r'&Ed&?)]; [by left|right]. exists w, l', r'. split; [|done]. by apply HN. }
      split_and!; [by apply HN|by apply HLw|by apply HLw]. }
  constructor.
  - apply (i_ord _ _ _ _ _ _ I).
  - apply (i_vn _ _ _ _ _ _ I).
  - apply (i_vt _ _ _ _ _ _ I).
  - cbn. rewrite lookup_delete_ne by done. apply (i_zero _ _ _ _ _ _ I).
  - intros j w a b Ej. apply HN in Ej as [Ej Hj]. destruct (Hson _ _ _ _ Ej).
    destruct (i_node _ _ _ _ _ _ I _ _ _ _ Ej) as (?&?&?&?&?&?). split_and!; try done; by apply HL.
  - intros j w a b Ej. apply HN in Ej as [Ej Hj]. destruct (Hson _ _ _ _ Ej).
    rewrite !Hnl by done. by eapply (i_lev _ _ _ _ _ _ I).
  - intros j a b Ej. apply HN in Ej as [Ej Hj]. destruct (Hson _ _ _ _ Ej).
    destruct (i_node _ _ _ _ _ _ I _ _ _ _ Ej) as (?&?&?&?&?&?).
    destruct (i_y _ _ _ _ _ _ I _ _ _ Ej). split; by apply HV.
  - intros j Hj. destruct (i_todo _ _ _ _ _ _ I j Hj) as (a&b&Ej&Va&Vb). destruct (Hson _ _ _ _ Ej).
    destruct (i_node _ _ _ _ _ _ I _ _ _ _ Ej) as (?&?&?&?&?&?).
    exists a, b. split_and!; [|by apply HV|by apply HV]. apply HN. split; [done|]. intros ->. congruence.
  - apply (i_ndt _ _ _ _ _ _ I).
  - intros n j. rewrite HN. cbn. rewrite lookup_delete_Some, (i_uniq _ _ _ _ _ _ I). split.
    + intros [Hn Ej]. split; [done|]. intros ->. congruence.
    + intros [Ej Hj]. split; [|done]. intros <-. apply Hj.
      apply (i_uniq _ _ _ _ _ _ I) in Ej. apply (i_uniq _ _ _ _ _ _ I) in E. congruence.
  - apply (i_nodup _ _ _ _ _ _ I).
  - intros j Hj. destruct (i_free _ _ _ _ _ _ I j Hj) as (?&?&?). split_and!; [|done..].
    cbn. apply lookup_delete_None. by right.
  - apply (i_size _ _ _ _ _ _ I).
  - apply (i_S0 _ _ _ _ _ _ I).
  - intros j w a b e Ej. apply HN in Ej as [Ej Hj]. by apply (i_S _ _ _ _ _ _ I).
  - intros j Hj. apply elem_of_difference in Hj as [Hj Hji].
    destruct (i_O _ _ _ _ _ _ I j Hj) as ([n ?]&?&?). split_and!; [|done..].
    exists n. apply HN. set_solver.
  - intros j w a b Ej Hw. apply HN in Ej as [Ej Hj]. apply elem_of_difference.
    split; [by eapply (i_nx _ _ _ _ _ _ I)|set_solver].
  - intros j Hj. apply elem_of_difference. split; [by apply (i_tO _ _ _ _ _ _ I)|].
    destruct (i_todo _ _ _ _ _ _ I j Hj) as (a&b&Ej&_). intros Hji. apply elem_of_singleton in Hji as ->. congruence.
  - intros j [n Hj]. apply HN in Hj as [Hj Hji]. unfold rset. rewrite decide_False by done.
    destruct (i_rc _ _ _ _ _ _ I j) as [?|Hc]; [by eexists|by left|right].
    cbn [nodes s' with_tables]. rewrite (indeg_delete _ _ _ j E) in Hc. destruct (decide (j = 0)); lia.
  - intros j Hj. destruct (decide (j = 0)); [lia|].
    assert (is_Some (nodes s !! j) /\ j <> i) as [[n' En] Hji].
    { assert (1 <= pend j \/ 1 <= edges (v, l, r) j) as [H|H] by lia.
      - split; [by apply (i_pend _ _ _ _ _ _ I)|]. intros ->. lia.
      - destruct (i_node _ _ _ _ _ _ I _ _ _ _ E) as (_&_&_&Ll&Lr&_).
        destruct (Hson _ _ _ _ E) as [Hli Hri].
        unfold edges in H. cbn in H.
        destruct (N.eqb_spec l.2 j) as [<-|]; [destruct Ll as [?|?]; done|].
        destruct (N.eqb_spec r.2 j) as [<-|]; [destruct Lr as [?|?]; done|]. cbn in H. lia. }
    exists n'. by apply HN.
  - intros j Hj. destruct (i_pin _ _ _ _ _ _ I j Hj) as [HO Hr].
    assert (j <> i) as Hji. { intros ->. destruct Hr; [done|lia]. }
    unfold rset. rewrite decide_False by done. split; [set_solver|done].
Qed.

Lemma inv_push s rc todo O S pend i : inv s rc todo O S pend -> nodes s !! i = None -> i <> 0 -> i < size s ->
  i ∉ free s -> inv (with_tables s (nodes s) (uniq s) (i :: free s)) rc todo O S pend.
Proof.
  intros I Hn H0 Hs Hf. destruct I. constructor; try done.
  - cbn. by apply NoDup_cons.
  - intros j Hj. cbn in Hj. apply elem_of_cons in Hj as [->|Hj]; [done|]. by apply i_free0.
Qed.

Lemma inv_pend s rc todo O S pend pend' : inv s rc todo O S pend -> (forall j, pend' j = pend j) ->
  inv s rc todo O S pend'.
Proof.
  intros I H. destruct I. constructor; try done.
  - intros j Hj. rewrite H. by apply i_rc0.
  - intros j. rewrite H. apply i_pend0.
Qed.

Lemma bdec_spec : forall fuel i s rc todo O S pend,
  inv s rc todo O S (fun j => pend j + (if decide (j = 0) then 0 else b2n (i =? j))) -> via s y (false, i) ->
  pend 0 = 0 ->
  (match nodes s !! i with Some (v, _, _) => N.to_nat (nvars s0 - no v) < fuel \/ v = y /\ N.to_nat (nvars s0 - p) - 1 < fuel | None => True end)%nat ->
  exists s' rc' O', bdec fuel i (s, rc) = Some (s', rc') /\ inv s' rc' todo O' S pend /\
    nodes s' ⊆ nodes s /\ size s' = size s /\
    (forall j, is_Some (nodes s !! j) -> is_Some (nodes s' !! j) \/ j ∈ free s') /\
    (forall j, j ∈ free s' -> j ∈ free s \/ is_Some (nodes s !! j)).
Proof.
  induction fuel as [|fuel IH]; intros i s rc todo O S pend I V P0 Hf.
  all: assert (forall i v l r, nodes s !! i = Some (v, l, r) -> v < nvars s0) as Hvn
    by (intros; by eapply (i_node _ _ _ _ _ _ I)).
  { cbn [bdec]. destruct (decide (i = 0)) as [->|Hi].
    - exists s, rc, O. split_and!; try done.
      + eapply inv_pend; [done|]. intros j. cbv beta. destruct (decide (j = 0)); [lia|].
        rewrite (proj2 (N.eqb_neq 0 j)) by done. cbn. lia.
      + intros. by left.
      + intros. by left.
    - destruct (via_z _ _ _ V) as [?|(v&l&r&E)]; [done|]. rewrite E in Hf.
      pose proof (no_cases v (Hvn _ _ _ _ E)). pose proof (wf_ord_lt _ W0 x Hx).
      pose proof (wf_ord_lt _ W0 y Hy). lia. }
  cbn [bdec fst snd]. destruct (decide (i = 0)) as [->|Hi].
  { exists s, rc, O. split_and!; try done.
    - eapply inv_pend; [done|]. intros j. cbv beta. destruct (decide (j = 0)); [lia|].
      rewrite (proj2 (N.eqb_neq 0 j)) by done. cbn. lia.
    - intros. by left.
    - intros. by left. }
  destruct (via_z _ _ _ V) as [?|(v&l&r&E)]; [done|].
  assert (forall q : N -> N, (forall j, q j + (if decide (j = 0) then 0 else b2n (i =? j)) = pend j + (if decide (j = 0) then 0 else b2n (i =? j)) -> q j = pend j)) as _ by (intros; lia).
  destruct (decide (rc i = RCMAX)) as [Hm|Hm].
  { exists s, rc, O. split_and!; try done; [|intros; by left|intros; by left].
    destruct I. constructor; try done.
    - intros j Hj. destruct (i_rc0 j Hj) as [?|?]; [by left|right]. cbn in *. lia.
    - intros j Hj. apply i_pend0. lia. }
  pose proof (i_rc _ _ _ _ _ _ I i (mk_is_Some _ _ E)) as [?|Hrc]; [done|].
  rewrite (decide_False (P := i = 0)) in Hrc by done. rewrite N.eqb_refl in Hrc. cbn [b2n] in Hrc.
  destruct (decide (rc i = 0)) as [Hz|Hz]; [lia|].
  destruct (decide (rc i = 1)) as [H1|H1].
  2:{ exists s, (rset rc i (rc i - 1)), O. split_and!; try done; [|intros; by left|intros; by left].
    destruct I. constructor; try done.
    - intros j Hj. unfold rset. destruct (decide (j = i)) as [->|Hji]; [right; lia|].
      destruct (i_rc0 j Hj) as [?|?]; [by left|right]. cbn in *. lia.
    - intros j Hj. apply i_pend0. lia.
    - intros j Hj. destruct (i_pin0 j Hj) as [? Hr]. split; [done|]. unfold rset.
      destruct (decide (j = i)) as [->|]; [|done]. right. destruct Hr; done. }
  rewrite E. rewrite E in Hf. rewrite H1. change (1 - 1) with 0.
  assert (v <> x /\ lowf s l /\ lowf s r /\ (v = y \/ p + 1 < ORDER s0 v)) as (Hvx&Ll&Lr&Hcase).
  { destruct V as [[?|(w&a&b&E'&Hw)]|(a&b&E'&Ha&Hb)]; [done| |]; cbn in E'; rewrite E in E'; injection E' as Ev <- <-.
    - subst w. destruct (low_sons _ _ _ _ _ _ _ _ _ _ I E Hw) as (?&?&_). split_and!; try done; [|by right]. intros ->. lia.
    - split_and!; try done; [|by left]. intros Evx. apply x_ne_y. congruence. }
  assert (inv s rc todo O S pend) as I'.
  { destruct I. constructor; try done.
    - intros j Hj. destruct (i_rc0 j Hj) as [?|?]; [by left|right]. cbn in *. lia.
    - intros j Hj. apply i_pend0. lia. }
  set (s1 := with_tables s (delete i (nodes s)) (delete (v, l, r) (uniq s)) (free s)).
  assert (pend i = 0) as Hpi by lia. assert (indeg (nodes s) i = 0) as Hdi by lia.
  pose proof (inv_del s rc todo O S pend i v l r I' E Hdi ltac:(lia) Hpi Hm Hvx) as I1. fold s1 in I1.
  destruct (indeg_zero _ _ Hdi _ _ _ _ E) as [Hli Hri].
  assert (forall c, c.2 <> i -> lowf s c -> lowf s1 c) as HL1.
  { intros d Hd [?|(w&l'&r'&Ed&?)]; [by left|right]. exists w, l', r'. split; [|done].
    cbn. by rewrite lookup_delete_ne. }
  assert (forall c (s' : bst), lowf s c -> nodes s' ⊆ nodes s -> no v < nl s c ->
     match nodes s' !! c.2 with Some (w, _, _) => (N.to_nat (nvars s0 - no w) < fuel \/ w = y /\ N.to_nat (nvars s0 - p) - 1 < fuel)%nat | None => True end) as HF.
  { intros c s' Lc Hs Hno. destruct (nodes s' !! c.2) as [[[w a] b]|] eqn:Ec; [|done].
    pose proof (lookup_weaken _ _ _ _ Ec Hs) as Ec'. unfold nl in Hno. rewrite Ec' in Hno.
    pose proof (no_cases w (Hvn _ _ _ _ Ec')). left.
    destruct Hf as [Hf|[-> Hf]]; [lia|]. rewrite no_y in Hno. 
    assert (p + 1 < no w) as Hw.
    { pose proof (nl_low s c Lc (i_zero _ _ _ _ _ _ I)) as HH. unfold nl in HH. by rewrite Ec' in HH. }
    lia. }
  assert (no v < nl s l /\ no v < nl s r) as [Nl Nr].
  { destruct (i_lev _ _ _ _ _ _ I' _ _ _ _ E) as [?|[? _]]; done. }
  destruct (IH l.2 s1 (rset rc i 0) todo (O ∖ {[i]}) S (fun j => pend j + (if decide (j = 0) then 0 else b2n (r.2 =? j))))
    as (s2&rc2&O2&E2&I2&Hs2&Hz2&Hk2&Hf2).
  { eapply inv_pend; [apply I1|]. intros j. unfold edges. cbn. destruct (decide (j = 0)) as [->|]; lia. }
  { left. destruct (HL1 l Hli Ll) as [?|?]; [by left|by right]. }
  { rewrite P0, decide_True by done. done. }
  { apply (HF l s1 Ll); [|done]. cbn. apply delete_subseteq. }
  rewrite E2.
  destruct (IH r.2 s2 rc2 todo O2 S pend I2) as (s3&rc3&O3&E3&I3&Hs3&Hz3&Hk3&Hf3).
  { left. destruct (decide (r.2 = 0)) as [?|Hr0]; [by left|].
    assert (is_Some (nodes s2 !! r.2)) as [nd Er].
    { apply (i_pend _ _ _ _ _ _ I2). rewrite decide_False by done. rewrite N.eqb_refl. cbn. lia. }
    right. destruct (HL1 r Hri Lr) as [?|(w&a&b&Er1&Hw)]; [done|]. exists w, a, b. split; [|done].
    cbn. rewrite Er. pose proof (lookup_weaken _ _ _ _ Er Hs2). congruence. }
  { done. }
  { apply (HF r s2 Lr); [|done]. etrans; [done|]. cbn. apply delete_subseteq. }
  rewrite E3. cbn [fst snd].
  assert (nodes s3 !! i = None) as Hi3.
  { apply eq_None_not_Some. intros [n En]. pose proof (lookup_weaken _ _ _ _ (lookup_weaken _ _ _ _ En Hs3) Hs2) as A.
    cbn in A. by rewrite lookup_delete in A. }
  assert (i ∉ free s3) as Hif.
  { intros HH. apply Hf3 in HH as [HH|[n HH]].
    - apply Hf2 in HH as [HH|[n HH]].
      + cbn in HH. apply (i_free _ _ _ _ _ _ I) in HH as [HH _]. congruence.
      + cbn in HH. by rewrite lookup_delete in HH.
    - pose proof (lookup_weaken _ _ _ _ HH Hs2) as A. cbn in A. by rewrite lookup_delete in A. }
  eexists _, _, _. split; [done|]. split_and!.
  - apply inv_push; [done|done|done| |done]. rewrite Hz3, Hz2. cbn.
    by eapply (i_node _ _ _ _ _ _ I).
  - cbn. etrans; [done|]. etrans; [done|]. cbn. apply delete_subseteq.
  - cbn. by rewrite Hz3, Hz2.
  - intros j Hj. cbn. destruct (decide (j = i)) as [->|Hji]; [right; left|].
    assert (is_Some (nodes s1 !! j)) as Hj1 by (cbn; by rewrite lookup_delete_ne).
    destruct (Hk2 j Hj1) as [Hj2|Hj2].
    + destruct (Hk3 j Hj2) as [?|?]; [by left|right; by right].
    + right. right. by apply (bdec_free _ _ _ _ E3).
  - intros j Hj. cbn in Hj. apply elem_of_cons in Hj as [->|Hj]; [right; by eexists|].
    apply Hf3 in Hj as [Hj|[n Hj]].
    + apply Hf2 in Hj as [Hj|[n Hj]]; [by left|]. right. cbn in Hj. apply lookup_delete_Some in Hj as [_ Hj]. by eexists.
    + right. pose proof (lookup_weaken _ _ _ _ Hj Hs2) as A. cbn in A. apply lookup_delete_Some in A as [_ A]. by eexists.
Qed.

(** *** Creating a node of the upper variable over low sons *)
Definition zpend : N -> N := fun _ => 0.

Lemma Sf_bnot S c e : Sf S (bnot c) e = negb (Sf S c e).
Proof. unfold Sf, bnot. cbn. by destruct c.1, (S c.2 e). Qed.
Lemma lowf_bnot s c : lowf s (bnot c) <-> lowf s c.
Proof. done. Qed.

Lemma inv_grow s rc todo O S : inv s rc todo O S zpend -> free s = [] ->
  inv (grow_MainTbl s) rc todo O S zpend /\ free (grow_MainTbl s) <> [].
Proof.
  intros I Hf. pose proof (i_size _ _ _ _ _ _ I) as Hsz. split.
  - destruct I. constructor; try done.
    + intros i v l r E. destruct (i_node0 _ _ _ _ E) as (?&?&?&?&?&?). split_and!; try done. cbn. lia.
    + cbn. apply NoDup_fmap_2_strong; [|apply NoDup_ListNoDup, seq_NoDup]. intros; lia.
    + intros i Hi. cbn in Hi. apply elem_of_list_fmap in Hi as (k&->&Hk).
      apply elem_of_seq in Hk. cbn. split; [|lia].
      destruct (nodes s !! (size s + N.of_nat k)) as [[[v l] r]|] eqn:E; [|done].
      destruct (i_node0 _ _ _ _ E) as (_&_&_&_&_&?). lia.
    + cbn. lia.
  - cbn. destruct (N.to_nat (size s)) eqn:E; [lia|done].
Qed.

Lemma lowf_mono s s' c : nodes s ⊆ nodes s' -> lowf s c -> lowf s' c.
Proof.
  intros H [?|(v&l&r&E&?)]; [by left|right]. exists v, l, r. split; [|done]. by eapply lookup_weaken.
Qed.
Lemma via_mono s s' z c : nodes s ⊆ nodes s' -> via s z c -> via s' z c.
Proof.
  intros H [?|(a&b&E&?&?)]; [left; by eapply lowf_mono|right]. exists a, b.
  split_and!; [by eapply lookup_weaken|by eapply lowf_mono..].
Qed.
Lemma lowf_live s c : lowf s c -> live s c.
Proof. intros [?|(v&l&r&E&_)]; [by left|right; by eexists]. Qed.
Lemma live_nodes s s' c : nodes s ⊆ nodes s' -> live s c -> live s' c.
Proof. intros H [?|[n E]]; [by left|right]. exists n. by eapply lookup_weaken. Qed.

Lemma inv_add s rc todo O S i fr a b : inv s rc todo O S zpend -> free s = i :: fr ->
  uniq s !! (x, a, b) = None -> a.1 = false -> a <> b -> lowf s a -> lowf s b ->
  exists S', inv (add_node s i (x, a, b) fr) (rinc (rinc (rset rc i 0) a.2) b.2) todo O S' zpend /\
    (forall j, j <> i -> forall e, S' j e = S j e) /\
    (forall e, S' i e = if e x then Sf S a e else Sf S b e).
Proof.
  intros I Hf Hu Ha Hab La Lb.
  destruct (i_free _ _ _ _ _ _ I i) as (Hi&Hi0&His); [rewrite Hf; left|].
  exists (fun (j : N) (e : env) => if decide (j = i) then if e x then Sf S a e else Sf S b e else S j e).
  set (S' := fun (j : N) (e : env) => if decide (j = i) then if e x then Sf S a e else Sf S b e else S j e).
  assert (forall j, j <> i -> forall e, S' j e = S j e) as HS'.
  { intros j Hj e. unfold S'. by rewrite decide_False. }
  assert (forall c, live s c -> c.2 <> i) as Hlv.
  { intros c [?|[n En]] E; [congruence|]. rewrite E in En. congruence. }
  assert (forall c e, live s c -> Sf S' c e = Sf S c e) as HSf.
  { intros c e Lc. unfold Sf. rewrite HS'; [done|by apply Hlv]. }
  split_and!; [|done|intros e; unfold S'; by rewrite decide_True].
  set (s' := add_node s i (x, a, b) fr).
  assert (nodes s ⊆ nodes s') as Hsub by (cbn; by apply insert_subseteq).
  assert (forall j n, nodes s' !! j = Some n -> j = i /\ n = (x, a, b) \/ j <> i /\ nodes s !! j = Some n) as HN.
  { intros j n. cbn. rewrite lookup_insert_Some. intuition congruence. }
  assert (forall c, live s c -> nl s' c = nl s c) as Hnl.
  { intros c Lc. unfold nl. cbn. rewrite lookup_insert_ne; [done|]. intros E. by apply (Hlv c). }
  pose proof (lowf_live _ _ La) as LLa. pose proof (lowf_live _ _ Lb) as LLb.
  pose proof (i_zero _ _ _ _ _ _ I) as Hz.
  constructor.
  - apply (i_ord _ _ _ _ _ _ I).
  - apply (i_vn _ _ _ _ _ _ I).
  - apply (i_vt _ _ _ _ _ _ I).
  - cbn. by rewrite lookup_insert_ne by done.
  - intros j v l r E. apply HN in E as [[-> E]|[Hj E]].
    + injection E as -> -> ->. split_and!; try done; by eapply live_nodes.
    + destruct (i_node _ _ _ _ _ _ I _ _ _ _ E) as (?&?&?&?&?&?). split_and!; try done; by eapply live_nodes.
  - intros j v l r E. apply HN in E as [[-> E]|[Hj E]].
    + injection E as -> -> ->. left. rewrite !Hnl by done. rewrite no_x.
      split; by apply nl_low.
    + destruct (i_node _ _ _ _ _ _ I _ _ _ _ E) as (?&?&?&?&?&?). rewrite !Hnl by done.
      by eapply (i_lev _ _ _ _ _ _ I).
  - intros j l r E. apply HN in E as [[-> E]|[Hj E]].
    + injection E as E _ _. by destruct x_ne_y.
    + destruct (i_y _ _ _ _ _ _ I _ _ _ E). split; by eapply via_mono.
  - intros j Hj. destruct (i_todo _ _ _ _ _ _ I j Hj) as (l&r&E&?&?). exists l, r.
    split_and!; [by eapply lookup_weaken|by eapply via_mono..].
  - apply (i_ndt _ _ _ _ _ _ I).
  - intros n j. cbn. destruct (decide (n = (x, a, b))) as [->|Hn].
    + rewrite lookup_insert. split.
      * intros [= ->]. by rewrite lookup_insert.
      * intros E. destruct (decide (j = i)) as [->|]; [done|].
        rewrite lookup_insert_ne in E by done. apply (i_uniq _ _ _ _ _ _ I) in E. by rewrite Hu in E.
    + rewrite lookup_insert_ne by done. split.
      * intros E. apply (i_uniq _ _ _ _ _ _ I) in E. rewrite lookup_insert_ne; [done|].
        intros ->. by rewrite Hi in E.
      * intros E. destruct (decide (j = i)) as [->|].
        -- rewrite lookup_insert in E. by injection E as <-.
        -- rewrite lookup_insert_ne in E by done. by apply (i_uniq _ _ _ _ _ _ I).
  - cbn. pose proof (i_nodup _ _ _ _ _ _ I) as Hd. rewrite Hf in Hd. by apply NoDup_cons in Hd as [_ ?].
  - cbn. intros j Hj. pose proof (i_nodup _ _ _ _ _ _ I) as Hd. rewrite Hf in Hd.
    apply NoDup_cons in Hd as [Hni _].
    destruct (i_free _ _ _ _ _ _ I j) as (?&?&?); [rewrite Hf; by right|].
    split_and!; [|done..]. rewrite lookup_insert_ne; [done|]. by intros ->.
  - apply (i_size _ _ _ _ _ _ I).
  - intros e. rewrite HS' by done. apply (i_S0 _ _ _ _ _ _ I).
  - intros j v l r e E. apply HN in E as [[-> E]|[Hj E]].
    + injection E as -> -> ->. rewrite !HSf by done. unfold S'. by rewrite decide_True.
    + destruct (i_node _ _ _ _ _ _ I _ _ _ _ E) as (?&?&?&?&?&?). rewrite HS', !HSf by done.
      by apply (i_S _ _ _ _ _ _ I).
  - intros j Hj. destruct (i_O _ _ _ _ _ _ I j Hj) as ([n En]&?&HH). split_and!; [|done|].
    + exists n. by eapply lookup_weaken.
    + intros e. rewrite HS'; [apply HH|]. intros ->. congruence.
  - intros j v l r E Hv. apply HN in E as [[-> E]|[Hj E]].
    + injection E as E _ _. congruence.
    + by eapply (i_nx _ _ _ _ _ _ I).
  - apply (i_tO _ _ _ _ _ _ I).
  - assert (forall j, indeg (nodes s') j = edges (x, a, b) j + indeg (nodes s) j) as Hin.
    { intros j. cbn. by apply indeg_insert. }
    intros j [n E]. unfold zpend. rewrite Hin. destruct (decide (j = i)) as [->|Hji].
    + right. assert (indeg (nodes s) i = 0) as ->.
      { unfold indeg. assert (forall q, q ∈ map_to_list (nodes s) -> edges q.2 i = 0) as HE.
        { intros [k [[v l] r]] Hq. apply elem_of_map_to_list in Hq.
          destruct (i_node _ _ _ _ _ _ I _ _ _ _ Hq) as (?&?&?&Ll&Lr&?).
          unfold edges. cbn. rewrite (proj2 (N.eqb_neq _ _) (Hlv l Ll)), (proj2 (N.eqb_neq _ _) (Hlv r Lr)). done. }
        induction (map_to_list (nodes s)) as [|q qs IH]; [done|]. cbn. rewrite IH.
        - rewrite HE by left. done.
        - intros. apply HE. by right. }
      assert (ext i = 0) as ->.
      { destruct (decide (1 <= ext i)) as [H1|]; [|lia]. apply ext_pin in H1.
        apply (i_pin _ _ _ _ _ _ I) in H1 as [H1 _]. apply (i_O _ _ _ _ _ _ I) in H1 as [[n' H1] _]. congruence. }
      unfold edges. cbn [fst snd]. rewrite (proj2 (N.eqb_neq _ _) (Hlv a LLa)), (proj2 (N.eqb_neq _ _) (Hlv b LLb)).
      cbn. lia.
    + apply HN in E as [[? _]|[_ E]]; [done|].
      set (rc0 := rset rc i 0). assert (rc0 j = rc j) as Hr0 by (unfold rc0, rset; by rewrite decide_False).
      destruct (rinc_ge (rinc rc0 a.2) b.2 j) as [H1|H1]; [by left|].
      destruct (rinc_ge rc0 a.2 j) as [H2|H2]; [left; by apply rinc_max|].
      destruct (i_rc _ _ _ _ _ _ I j) as [H3|H3]; [by eexists|left; apply rinc_max, rinc_max; congruence|].
      right. unfold edges. cbn [fst snd]. unfold zpend in H3. lia.
  - unfold zpend. intros; lia.
  - intros j Hj. destruct (i_pin _ _ _ _ _ _ I j Hj) as [HO Hr]. split; [done|].
    destruct Hr as [Hr|?]; [left|by right]. apply rinc_max, rinc_max. unfold rset. rewrite decide_False; [done|].
    intros ->. apply (i_O _ _ _ _ _ _ I) in HO as [[n' H1] _]. congruence.
Qed.

Lemma fi_spec s rc todo O S a b : inv s rc todo O S zpend -> lowf s a -> lowf s b ->
  exists f s' rc' S', find_insert_rc x a b (s, rc) = Some (f, (s', rc')) /\
    inv s' rc' todo O S' zpend /\ nodes s ⊆ nodes s' /\
    (forall c e, live s c -> Sf S' c e = Sf S c e) /\
    (a = b /\ f = a \/ exists l r, nodes s' !! f.2 = Some (x, l, r) /\ lowf s' l /\ lowf s' r) /\
    f.1 = a.1 /\ (forall e, Sf S' f e = if e x then Sf S a e else Sf S b e).
Proof.
  intros I La Lb. unfold find_insert_rc. cbn [fst snd]. rewrite find_insert_unfold.
  destruct (decide (a = b)) as [<-|Hne].
  { exists a, s, (match nodes s !! a.2 with None => rc | _ => rc end), S. split_and!; try done.
    - by destruct (nodes s !! a.2).
    - by destruct (nodes s !! a.2).
    - by left.
    - intros e. by destruct (e x). }
  set (a' := if a.1 then bnot a else a). set (b' := if a.1 then bnot b else b).
  assert (a'.1 = false) as Ha' by (unfold a'; destruct a as [[] ?]; done).
  assert (a' <> b') as Hne'.
  { unfold a', b'. intros E. apply Hne. destruct a.1; [|done]. rewrite <- (bnot_inv a), E. apply bnot_inv. }
  assert (lowf s a') as La' by (unfold a'; by destruct a.1).
  assert (lowf s b') as Lb' by (unfold b'; by destruct a.1).
  assert (forall e : env, xorb a.1 (if e x then Sf S a' e else Sf S b' e) =
                    if e x then Sf S a e else Sf S b e) as Hsem.
  { intros e. unfold a', b'. destruct a.1.
    - rewrite !Sf_bnot. by destruct (e x), (Sf S a e), (Sf S b e).
    - by destruct (e x), (Sf S a e), (Sf S b e). }
  cbn zeta. fold a' b'. destruct (uniq s !! (x, a', b')) as [i|] eqn:Eu.
  - apply (i_uniq _ _ _ _ _ _ I) in Eu. cbn [snd]. rewrite Eu.
    exists (a.1, i), s, rc, S. split_and!; try done.
    + right. exists a', b'. done.
    + intros e. unfold Sf at 1. cbn. rewrite (i_S _ _ _ _ _ _ I _ _ _ _ _ Eu). apply Hsem.
  - set (s1 := match free s with [] => grow_MainTbl s | _ => s end).
    assert (inv s1 rc todo O S zpend /\ uniq s1 = uniq s /\ nodes s1 = nodes s /\ free s1 <> []) as (I1&U1&N1&F1).
    { unfold s1. destruct (free s) eqn:Ef.
      - destruct (inv_grow _ _ _ _ _ I Ef). split_and!; done.
      - rewrite Ef. split_and!; done. }
    destruct (free s1) as [|i fr] eqn:Ef1; [done|].
    assert (lowf s1 a') as La1 by (eapply lowf_mono; [|done]; by rewrite N1).
    assert (lowf s1 b') as Lb1 by (eapply lowf_mono; [|done]; by rewrite N1).
    destruct (inv_add s1 rc todo O S i fr a' b' I1 Ef1) as (S'&I2&HS1&HS2); try done; [by rewrite U1|].
    destruct (i_free _ _ _ _ _ _ I1 i) as (Hi&Hi0&His); [rewrite Ef1; left|]. rewrite N1 in Hi.
    cbn [snd]. rewrite Hi. assert (nodes (add_node s1 i (x, a', b') fr) !! i = Some (x, a', b')) as En
      by (cbn; by rewrite lookup_insert). rewrite En.
    assert (nodes s ⊆ nodes (add_node s1 i (x, a', b') fr)) as Hsub.
    { cbn. rewrite N1. by apply insert_subseteq. }
    eexists _, _, _, S'. split; [done|]. split_and!; try done.
    + intros c e Lc. unfold Sf. rewrite HS1; [done|]. intros E.
      destruct Lc as [?|[n Hn]]; [congruence|]. rewrite E in Hn. congruence.
    + right. exists a', b'. split_and!; [done|by eapply lowf_mono..].
    + intros e. unfold Sf at 1. cbn. rewrite HS2. apply Hsem.
Qed.

(** *** One moving node *)
Lemma inv_convert s rc todo O S cur l r nlf nrf : inv s rc (cur :: todo) O S zpend ->
  nodes s !! cur = Some (x, l, r) ->
  ~ (lowf s l /\ lowf s r) ->
  nlf.1 = false -> nlf <> nrf -> via s x nlf -> via s x nrf ->
  (forall e, S cur e = if e y then Sf S nlf e else Sf S nrf e) ->
  inv (with_tables s (<[cur := (y, nlf, nrf)]> (nodes s)) (<[(y, nlf, nrf) := cur]> (delete (x, l, r) (uniq s))) (free s))
    (rinc (rinc rc nlf.2) nrf.2) todo O S
    (fun j => (if decide (j = 0) then 0 else b2n (r.2 =? j)) + (if decide (j = 0) then 0 else b2n (l.2 =? j))).
Proof.
  intros I E Hnlow Hn1 Hne Vl Vr HS.
  set (s' := with_tables s (<[cur := (y, nlf, nrf)]> (nodes s)) (<[(y, nlf, nrf) := cur]> (delete (x, l, r) (uniq s))) (free s)).
  pose proof x_ne_y as Hxy.
  assert (forall j n, nodes s' !! j = Some n -> j = cur /\ n = (y, nlf, nrf) \/ j <> cur /\ nodes s !! j = Some n) as HN.
  { intros j n. cbn. rewrite lookup_insert_Some. intuition congruence. }
  assert (forall j n, j <> cur -> nodes s !! j = Some n -> nodes s' !! j = Some n) as HN2.
  { intros j n Hj Ej. cbn. by rewrite lookup_insert_ne. }
  assert (forall c, lowf s c -> c.2 <> cur) as Hlc.
  { intros c [H|(v&a&b&Ec&Hv)] Hc.
    - rewrite <- Hc, H in E. rewrite (i_zero _ _ _ _ _ _ I) in E. done.
    - rewrite Hc, E in Ec. injection Ec as <- _ _. lia. }
  assert (forall c, lowf s c -> lowf s' c) as HL.
  { intros c Lc. pose proof (Hlc c Lc). destruct Lc as [H'|(v&a&b&Ec&Hv)]; [by left|right].
    exists v, a, b. split; [by apply HN2|done]. }
  assert (forall c, via s y c -> c.2 <> cur) as Hvy.
  { intros c [Lc|(a&b&Ec&_)]; [by apply Hlc|]. intros Hc. rewrite Hc, E in Ec. injection Ec as Ec _ _. done. }
  assert (forall c, via s x c -> c.2 <> cur) as Hvx.
  { intros c [Lc|(a&b&Ec&La&Lb)]; [by apply Hlc|]. intros Hc. rewrite Hc, E in Ec. injection Ec as <- <-. tauto. }
  assert (forall c z, c.2 <> cur -> via s z c -> via s' z c) as HV.
  { intros c z Hc [Lc|(a&b&Ec&La&Lb)]; [left; by apply HL|right]. exists a, b.
    split_and!; [by apply HN2|by apply HL..]. }
  assert (forall c, live s c -> live s' c) as HLv.
  { intros c [?|[n En]]; [by left|right]. destruct (decide (c.2 = cur)) as [->|Hc].
    - cbn. rewrite lookup_insert. by eexists.
    - exists n. by apply HN2. }
  assert (forall c, c.2 <> cur -> nl s' c = nl s c) as Hnl.
  { intros c Hc. unfold nl. cbn. by rewrite lookup_insert_ne. }
  assert (forall c, c.2 = cur -> nl s c = p + 1 /\ nl s' c = p) as Hnlc.
  { intros c Hc. unfold nl. cbn. rewrite Hc, E, lookup_insert. split; [apply no_x|apply no_y]. }
  assert (forall c, via s x c -> live s c) as Vlive.
  { intros c [Lc|(a&b&Ec&_)]; [by apply lowf_live|right; by eexists]. }
  assert (forall c, via s x c -> p < nl s c) as Vnl.
  { intros c [Lc|(a&b&Ec&_)].
    - pose proof (nl_low _ _ Lc (i_zero _ _ _ _ _ _ I)). lia.
    - unfold nl. rewrite Ec, no_x. lia. }
  assert (cur ∈ O) as HcO by (apply (i_tO _ _ _ _ _ _ I); left).
  assert (cur ∉ todo) as Hct by (pose proof (i_ndt _ _ _ _ _ _ I) as Hd; by apply NoDup_cons in Hd as [? _]).
  assert (uniq s !! (y, nlf, nrf) = None) as Hu.
  { destruct (uniq s !! (y, nlf, nrf)) as [j|] eqn:Eu; [|done]. exfalso.
    apply (i_uniq _ _ _ _ _ _ I) in Eu.
    assert (j ∈ O) as HjO by (eapply (i_nx _ _ _ _ _ _ I); [done|done]).
    assert ((false, j) = (false, cur)) as Hjc.
    { eapply (O_canon _ _ _ _ _ _ _ _ I); [by right|by right|]. intros e. unfold Sf at 1 2. cbn.
      rewrite HS, (i_S _ _ _ _ _ _ I _ _ _ _ _ Eu). done. }
    injection Hjc as ->. rewrite E in Eu. injection Eu as Eu _ _. done. }
  destruct (i_node _ _ _ _ _ _ I _ _ _ _ E) as (_&Hl1&Hlr&Ll&Lr&Hcsz).
  constructor.
  - apply (i_ord _ _ _ _ _ _ I).
  - apply (i_vn _ _ _ _ _ _ I).
  - apply (i_vt _ _ _ _ _ _ I).
  - destruct (nodes s' !! 0) as [n|] eqn:E0; [|done]. exfalso. apply HN in E0 as [[E0 _]|[_ E0]].
    + rewrite <- E0, (i_zero _ _ _ _ _ _ I) in E. done.
    + by rewrite (i_zero _ _ _ _ _ _ I) in E0.
  - intros j v a b Ej. apply HN in Ej as [[-> Ej]|[Hj Ej]].
    + injection Ej as -> -> ->. split_and!; try done; by apply HLv, Vlive.
    + destruct (i_node _ _ _ _ _ _ I _ _ _ _ Ej) as (?&?&?&?&?&?). split_and!; try done; by apply HLv.
  - intros j v a b Ej. apply HN in Ej as [[-> Ej]|[Hj Ej]].
    + injection Ej as -> -> ->. left. rewrite !Hnl by (by apply Hvx). rewrite no_y. split; by apply Vnl.
    + destruct (i_lev _ _ _ _ _ _ I _ _ _ _ Ej) as [[A B]|[-> Ht]].
      * left. assert (forall c, no v < nl s c -> c = a \/ c = b -> no v < nl s' c) as HH.
        { intros c Hc Hcab. destruct (decide (c.2 = cur)) as [Hcc|Hcc]; [|by rewrite Hnl].
          destruct (Hnlc c Hcc) as [N1 N2]. rewrite N1 in Hc. rewrite N2.
          destruct (i_node _ _ _ _ _ _ I _ _ _ _ Ej) as (Hvn&_).
          assert (no v <> p); [|lia]. intros Hnp. assert (v = y) as ->.
          { apply no_inj; [done|done|]. by rewrite no_y. }
          destruct (i_y _ _ _ _ _ _ I _ _ _ Ej) as [Va Vb].
          destruct Hcab as [->| ->]; by apply Hvx in Hcc. }
        split; apply HH; auto.
      * right. split; [done|]. apply elem_of_cons in Ht as [->|?]; done.
  - intros j a b Ej. apply HN in Ej as [[-> Ej]|[Hj Ej]].
    + injection Ej as -> ->. split; apply HV; try done; by apply Hvx.
    + destruct (i_y _ _ _ _ _ _ I _ _ _ Ej) as [Va Vb]. split; apply HV; try done; by apply Hvx.
  - intros j Hj. destruct (i_todo _ _ _ _ _ _ I j) as (a&b&Ej&Va&Vb); [by right|]. exists a, b.
    split_and!; [|apply HV; [by apply Hvy|done]..]. apply HN2; [|done]. by intros ->.
  - pose proof (i_ndt _ _ _ _ _ _ I) as Hd. by apply NoDup_cons in Hd as [_ ?].
  - intros n j. cbn. destruct (decide (n = (y, nlf, nrf))) as [->|Hn].
    + rewrite lookup_insert. split.
      * intros [= <-]. by rewrite lookup_insert.
      * intros Ej. destruct (decide (j = cur)) as [->|Hj]; [done|].
        rewrite lookup_insert_ne in Ej by done. apply (i_uniq _ _ _ _ _ _ I) in Ej. by rewrite Hu in Ej.
    + rewrite lookup_insert_ne by done. rewrite lookup_delete_Some, (i_uniq _ _ _ _ _ _ I). split.
      * intros [Hn2 Ej]. rewrite lookup_insert_ne; [done|]. intros <-. congruence.
      * intros Ej. destruct (decide (j = cur)) as [->|Hj].
        -- rewrite lookup_insert in Ej. by injection Ej as <-.
        -- rewrite lookup_insert_ne in Ej by done. split; [|done]. intros <-. apply Hj.
           apply (i_uniq _ _ _ _ _ _ I) in Ej, E. congruence.
  - apply (i_nodup _ _ _ _ _ _ I).
  - intros j Hj. destruct (i_free _ _ _ _ _ _ I j Hj) as (?&?&?). split_and!; [|done..].
    cbn. rewrite lookup_insert_ne; [done|]. intros <-. congruence.
  - apply (i_size _ _ _ _ _ _ I).
  - apply (i_S0 _ _ _ _ _ _ I).
  - intros j v a b e Ej. apply HN in Ej as [[-> Ej]|[Hj Ej]].
    + injection Ej as -> -> ->. apply HS.
    + by apply (i_S _ _ _ _ _ _ I).
  - intros j Hj. destruct (i_O _ _ _ _ _ _ I j Hj) as ([n En]&?&?). split_and!; [|done..].
    destruct (decide (j = cur)) as [->|]; [cbn; rewrite lookup_insert; by eexists|]. exists n. by apply HN2.
  - intros j v a b Ej Hv. apply HN in Ej as [[-> Ej]|[Hj Ej]]; [done|]. by eapply (i_nx _ _ _ _ _ _ I).
  - intros j Hj. apply (i_tO _ _ _ _ _ _ I). by right.
  - intros j [n Ej]. pose proof (indeg_update (nodes s) cur _ (y, nlf, nrf) j E) as Hin.
    change (<[cur:=(y, nlf, nrf)]> (nodes s)) with (nodes s') in Hin.
    destruct (rinc_ge (rinc rc nlf.2) nrf.2 j) as [H1|H1]; [by left|].
    destruct (rinc_ge rc nlf.2 j) as [H2|H2]; [left; by apply rinc_max|].
    assert (is_Some (nodes s !! j)) as Hj.
    { apply HN in Ej as [[-> _]|[_ Ej]]; [by eexists|by eexists]. }
    destruct (i_rc _ _ _ _ _ _ I j Hj) as [H3|H3]; [left; by apply rinc_max, rinc_max|].
    right. unfold edges in Hin. cbn [fst snd] in Hin. unfold zpend in H3. destruct (decide (j = 0)); lia.
  - intros j Hj. destruct (decide (j = 0)); [lia|].
    assert (live s (false, j)) as [?|[n' En]]; [|done|].
    { destruct (N.eqb_spec r.2 j) as [<-|]; [destruct Lr; [by left|by right]|].
      destruct (N.eqb_spec l.2 j) as [<-|]; [destruct Ll; [by left|by right]|]. cbn in Hj. lia. }
    destruct (decide (j = cur)) as [->|]; [cbn; rewrite lookup_insert; by eexists|]. exists n'. by apply HN2.
  - intros j Hj. destruct (i_pin _ _ _ _ _ _ I j Hj) as [HO [Hr|Hr]]; split; try done; [left|by right].
    by apply rinc_max, rinc_max.
Qed.

Lemma at_var_spec s rc todo O S c : inv s rc todo O S zpend -> via s y c ->
  match at_var s y c with
  | None => lowf s c
  | Some (a, b) => ~ lowf s c /\ lowf s a /\ lowf s b /\ (c.1 = false -> a.1 = false) /\
      (forall e, Sf S c e = if e y then Sf S a e else Sf S b e) /\ a <> b
  end.
Proof.
  intros I V. unfold at_var. destruct (nodes s !! c.2) as [[[v a] b]|] eqn:E.
  - destruct (i_node _ _ _ _ _ _ I _ _ _ _ E) as (_&Ha&Hab&_).
    destruct (decide (v = y)) as [Hv|Hv].
    + assert (~ lowf s c) as Hn.
      { intros [H|(w&l&r&E'&Hw)].
        - rewrite H, (i_zero _ _ _ _ _ _ I) in E. done.
        - rewrite E in E'. injection E' as <- _ _. rewrite Hv in Hw. lia. }
      assert (lowf s a /\ lowf s b) as [La Lb].
      { destruct V as [?|(a'&b'&E'&?&?)]; [done|]. rewrite E in E'. injection E' as _ <- <-. done. }
      destruct c as [[] i]; cbn [fst snd] in *; split_and!; try done.
      * intros e. unfold Sf at 1. cbn. rewrite (i_S _ _ _ _ _ _ I _ _ _ _ _ E), !Sf_bnot, Hv.
        by destruct (e y), (Sf S a e), (Sf S b e).
      * intros H. apply Hab. rewrite <- (bnot_inv a), H. apply bnot_inv.
      * intros e. unfold Sf at 1. cbn. rewrite (i_S _ _ _ _ _ _ I _ _ _ _ _ E), Hv.
        by destruct (e y), (Sf S a e), (Sf S b e).
    + destruct V as [?|(a'&b'&E'&?&?)]; [done|]. rewrite E in E'. injection E' as E' _ _. congruence.
  - destruct V as [?|(a'&b'&E'&?&?)]; [done|]. congruence.
Qed.

Ltac lm := eapply lowf_mono; [|eassumption]; done.
Ltac lw := eapply lookup_weaken; [eassumption|]; done.
Lemma swap_node_spec s rc todo O S cur : inv s rc (cur :: todo) O S zpend ->
  exists s' rc' O' S', swap_node x y cur (s, rc) = Some (s', rc') /\ inv s' rc' todo O' S' zpend.
Proof.
  intros I. destruct (i_todo _ _ _ _ _ _ I cur) as (l&r&E&Vl&Vr); [left|].
  unfold swap_node. cbn [fst snd]. rewrite E.
  pose proof (at_var_spec _ _ _ _ _ _ I Vl) as Al. pose proof (at_var_spec _ _ _ _ _ _ I Vr) as Ar.
  destruct (i_node _ _ _ _ _ _ I _ _ _ _ E) as (_&Hl1&Hlr&Ll&Lr&_).
  set (la := match at_var s y l with Some q => q.1 | None => l end).
  set (lb := match at_var s y l with Some q => q.2 | None => l end).
  set (ra := match at_var s y r with Some q => q.1 | None => r end).
  set (rb := match at_var s y r with Some q => q.2 | None => r end).
  destruct (decide (at_var s y l = None /\ at_var s y r = None)) as [[Nl Nr]|Hsome].
  { (* does not depend on y *)
    rewrite Nl in Al |- *. rewrite Nr in Ar |- *. exists s, rc, O, S. split; [done|].
    pose proof (i_ndt _ _ _ _ _ _ I) as Hd. apply NoDup_cons in Hd as [Hct Hd].
    pose proof (i_zero _ _ _ _ _ _ I) as Hz.
    destruct I. constructor; try done.
    - intros i v a b Ei. destruct (i_lev0 _ _ _ _ Ei) as [?|[Hv Ht]]; [by left|].
      apply elem_of_cons in Ht as [->|Ht]; [|by right]. left.
      rewrite E in Ei. injection Ei as <- <- <-. rewrite no_x. split; by apply nl_low.
    - intros i Hi. apply i_todo0. by right.
    - intros i Hi. apply i_tO0. by right. }
  assert (lowf s la /\ lowf s lb /\ la.1 = false /\ (forall e, Sf S l e = if e y then Sf S la e else Sf S lb e) /\ lb.1 = lb.1)
    as (Lla&Llb&Hla&HSl&_).
  { unfold la, lb. destruct (at_var s y l) as [[a b]|]; cbn.
    - destruct Al as (?&?&?&?&?&?). split_and!; try done. auto.
    - split_and!; try done. intros e. by destruct (e y). }
  assert (lowf s ra /\ lowf s rb /\ (forall e, Sf S r e = if e y then Sf S ra e else Sf S rb e)) as (Lra&Lrb&HSr).
  { unfold ra, rb. destruct (at_var s y r) as [[a b]|]; cbn.
    - destruct Ar as (?&?&?&?&?&?). split_and!; done.
    - split_and!; try done. intros e. by destruct (e y). }
  assert (~ (lowf s l /\ lowf s r)) as Hnlow.
  { intros [Hl Hr]. apply Hsome. destruct (at_var s y l) as [[a b]|]; [tauto|].
    destruct (at_var s y r) as [[a b]|]; [tauto|done]. }
  assert (la = lb /\ ra = rb -> False) as Hdep.
  { intros [Eab Ecd]. apply Hsome. unfold la, lb, ra, rb in *. split.
    - destruct (at_var s y l) as [[a b]|]; [|done]. cbn in Eab. destruct Al as (_&_&_&_&_&?). done.
    - destruct (at_var s y r) as [[a b]|]; [|done]. cbn in Ecd. destruct Ar as (_&_&_&_&_&?). done. }
  destruct (fi_spec s rc (cur :: todo) O S la ra I Lla Lra) as (nlf&s1&rc1&S1&E1&I1&Hs1&HSf1&Hf1&Hn1&HSn1).
  assert (match at_var s y l, at_var s y r with
    | None, None => Some (s, rc)
    | _, _ =>
      match find_insert_rc x la ra (s, rc) with
      | None => None
      | Some (nl, st1) =>
        match find_insert_rc x lb rb st1 with
        | None => None
        | Some (nr, st2) =>
          if decide (nl = nr) then None else
          let s2 := st2.1 in
          let s3 := with_tables s2 (<[cur := (y, nl, nr)]> (nodes s2))
                      (<[(y, nl, nr) := cur]> (delete (x, l, r) (uniq s2))) (free s2) in
          let rc3 := rinc (rinc st2.2 nl.2) nr.2 in
          match bdec (length (ord s3)) l.2 (s3, rc3) with
          | None => None
          | Some st4 => bdec (length (ord s3)) r.2 st4
          end
        end
      end
    end = match at_var s y l, at_var s y r with
    | None, None => Some (s, rc)
    | _, _ => match find_insert_rc x lb rb (s1, rc1) with
        | None => None
        | Some (nr, st2) =>
          if decide (nlf = nr) then None else
          let s2 := st2.1 in
          let s3 := with_tables s2 (<[cur := (y, nlf, nr)]> (nodes s2))
                      (<[(y, nlf, nr) := cur]> (delete (x, l, r) (uniq s2))) (free s2) in
          let rc3 := rinc (rinc st2.2 nlf.2) nr.2 in
          match bdec (length (ord s3)) l.2 (s3, rc3) with
          | None => None
          | Some st4 => bdec (length (ord s3)) r.2 st4
          end
        end
    end) as Hgo.
  { rewrite E1. done. }
  assert (lowf s1 lb) as Llb1 by (by apply (lowf_mono s)). assert (lowf s1 rb) as Lrb1 by (by apply (lowf_mono s)).
  destruct (fi_spec s1 rc1 (cur :: todo) O S1 lb rb I1 Llb1 Lrb1) as (nrf&s2&rc2&S2&E2&I2&Hs2&HSf2&Hf2&Hn2&HSn2).
  rewrite E2 in Hgo. cbn [fst snd] in Hgo.
  assert (nodes s ⊆ nodes s2) as Hs12 by (by etrans).
  assert (live s1 nlf) as Lnlf.
  { destruct Hf1 as [[_ ->]|(a&b&Ef&_)]; [apply lowf_live; by apply (lowf_mono s)|right; by eexists]. }
  assert (forall e, Sf S2 nlf e = if e x then Sf S la e else Sf S ra e) as HSn1'.
  { intros e. rewrite HSf2 by done. apply HSn1. }
  assert (forall e, Sf S2 nrf e = if e x then Sf S lb e else Sf S rb e) as HSn2'.
  { intros e. rewrite HSn2. rewrite !HSf1 by (by apply lowf_live). done. }
  assert (nodes s2 !! cur = Some (x, l, r)) as Ecur by lw.
  assert (forall c e, lowf s c -> Sf S2 c e = Sf S c e) as HSS.
  { intros c e Lc. rewrite HSf2, HSf1; [done|by apply lowf_live|]. apply lowf_live. lm. }
  assert (nlf <> nrf) as Hne.
  { intros EQ. apply Hdep.
    assert (forall a b, lowf s a -> lowf s b -> (forall e, Sf S a e = Sf S b e) -> a = b) as HC.
    { intros a b La Lb HH. exact (O_canon _ _ _ _ _ _ a b I (low_O _ _ _ _ _ _ a I La) (low_O _ _ _ _ _ _ b I Lb) HH). }
    assert (forall e : env, (if e x then Sf S la e else Sf S ra e) = (if e x then Sf S lb e else Sf S rb e)) as HE.
    { intros e. rewrite <- HSn1', <- HSn2'. by rewrite EQ. }
    split; apply HC; try done; intros e.
    - pose proof (HE (upd e x true)) as HH. rewrite upd_eq in HH.
      rewrite (low_indep _ _ _ _ _ _ x true I), (low_indep _ _ _ _ _ _ x true I) in HH; auto.
    - pose proof (HE (upd e x false)) as HH. rewrite upd_eq in HH.
      rewrite (low_indep _ _ _ _ _ _ x false I), (low_indep _ _ _ _ _ _ x false I) in HH; auto. }
  rewrite decide_False in Hgo by done.
  assert (forall e, S2 cur e = if e y then Sf S2 nlf e else Sf S2 nrf e) as HScur.
  { intros e. rewrite (i_S _ _ _ _ _ _ I2 _ _ _ _ _ Ecur), HSn1', HSn2'.
    rewrite !HSf2, !HSf1 by (first [done|eapply live_nodes; [|eassumption]; done]). rewrite HSl, HSr. by destruct (e x), (e y). }
  assert (via s2 x nlf) as V1.
  { destruct Hf1 as [[_ ->]|(a&b&Ef&?&?)]; [left; lm|right]. exists a, b.
    split_and!; [lw|lm..]. }
  assert (via s2 x nrf) as V2.
  { destruct Hf2 as [[_ ->]|(a&b&Ef&?&?)]; [left; lm|right]. by exists a, b. }
  assert (~ (lowf s2 l /\ lowf s2 r)) as Hnlow2.
  { intros [Hl Hr]. apply Hnlow.
    assert (forall c, live s c -> lowf s2 c -> lowf s c) as HH.
    { intros c [?|[n En]] [?|(v&a&b&Ec&?)]; [by left..|]. pose proof (lookup_weaken _ _ _ _ En Hs12).
      right. exists v, a, b. split; [congruence|done]. }
    split; by apply HH. }
  pose proof (inv_convert s2 rc2 todo O S2 cur l r nlf nrf I2 Ecur Hnlow2 ltac:(congruence) Hne V1 V2 HScur) as I3.
  set (s3 := with_tables s2 _ _ _) in *.
  assert (ord s3 = ord s0) as Ho3 by apply (i_ord _ _ _ _ _ _ I3).
  assert (length (ord s3) = N.to_nat (nvars s0)) as Hlen by (rewrite Ho3; unfold nvars; lia).
  rewrite Hlen in Hgo. pose proof (wf_ord_lt _ W0 y Hy) as Hpn.
  assert (forall c, via s y c -> via s3 y c) as HV3.
  { assert (forall c, lowf s c -> lowf s3 c) as HL3.
    { intros c [?|(v&a&b&Ec&Hv)]; [by left|right]. exists v, a, b. split; [|done]. cbn.
      rewrite lookup_insert_ne; [lw|]. intros Hcc. rewrite <- Hcc, E in Ec. injection Ec as <- _ _. lia. }
    intros c [Lc|(a&b&Ec&La&Lb)]; [left; by apply HL3|right]. exists a, b. split_and!; [|by apply HL3..].
    cbn. rewrite lookup_insert_ne; [lw|]. intros Hcc. rewrite <- Hcc, E in Ec.
    injection Ec as Ec _ _. by apply x_ne_y. }
  assert (forall c s', nodes s' !! 0 = None -> via s' y c -> match nodes s' !! c.2 with
     Some (v, _, _) => (N.to_nat (nvars s0 - no v) < N.to_nat (nvars s0) \/ v = y /\ N.to_nat (nvars s0 - p) - 1 < N.to_nat (nvars s0))%nat | None => True end) as HF.
  { intros c s' Hz V. destruct (nodes s' !! c.2) as [[[v a] b]|] eqn:Ec; [|done].
    destruct V as [[H0|(w&a'&b'&Ew&Hw)]|(a'&b'&Ew&_)].
    - rewrite H0 in Ec. congruence.
    - rewrite Ec in Ew. injection Ew as <- _ _. left. rewrite no_low by done. lia.
    - rewrite Ec in Ew. injection Ew as Ew _ _. right. split; [done|]. lia. }
  destruct (bdec_spec (N.to_nat (nvars s0)) l.2 s3 (rinc (rinc rc2 nlf.2) nrf.2) todo O S2
    (fun j => if decide (j = 0) then 0 else b2n (r.2 =? j))) as (s4&rc4&O4&E4&I4&Hs4&_&_&_).
  { apply I3. }
  { destruct (HV3 l Vl) as [[?|?]|?]; [left; by left|left; by right|by right]. }
  { by rewrite decide_True. }
  { apply (HF l s3); [apply (i_zero _ _ _ _ _ _ I3)|by apply HV3]. }
  rewrite E4 in Hgo.
  assert (via s4 y r) as Vr4.
  { destruct (decide (r.2 = 0)) as [?|Hr0]; [left; by left|].
    assert (is_Some (nodes s4 !! r.2)) as [[[w a] b] Er].
    { apply (i_pend _ _ _ _ _ _ I4). rewrite decide_False by done. rewrite N.eqb_refl. cbn. lia. }
    pose proof (lookup_weaken _ _ _ _ Er Hs4) as Er3.
    assert (forall c, live s4 c -> lowf s3 c -> lowf s4 c) as HLL.
    { intros c [?|[n En]] [?|(v&l'&r'&Ec&Hv)]; [by left..|]. pose proof (lookup_weaken _ _ _ _ En Hs4).
      right. exists v, l', r'. split; [congruence|done]. }
    destruct (i_node _ _ _ _ _ _ I4 _ _ _ _ Er) as (_&_&_&La4&Lb4&_).
    destruct (HV3 r Vr) as [[?|(v&l'&r'&Ec&Hv)]|(a'&b'&Ec&La&Lb)]; [done| |].
    - left. right. exists v, l', r'. split; [congruence|done].
    - right. rewrite Er3 in Ec. injection Ec as -> -> ->. exists a', b'. split_and!; [done|by apply HLL..]. }
  destruct (bdec_spec (N.to_nat (nvars s0)) r.2 s4 rc4 todo O4 S2 zpend) as (s5&rc5&O5&E5&I5&_).
  { eapply inv_pend; [exact I4|]. intros j. unfold zpend. cbv beta. lia. }
  { destruct Vr4 as [[?|?]|?]; [left; by left|left; by right|by right]. }
  { done. }
  { apply (HF r s4); [apply (i_zero _ _ _ _ _ _ I4)|done]. }
  rewrite E5 in Hgo.
  exists s5, rc5, O5, S2. split; [|done].
  unfold la, lb, ra, rb in Hgo.
  clear -Hgo Hsome. destruct (at_var s y l) as [ql|], (at_var s y r) as [qr|]; try exact Hgo.
  exfalso. by apply Hsome.
Qed.

Lemma swap_nodes_spec : forall todo s rc O S, inv s rc todo O S zpend ->
  exists s' rc' O' S', swap_nodes x y todo (s, rc) = Some (s', rc') /\ inv s' rc' [] O' S' zpend.
Proof.
  induction todo as [|cur todo IH]; intros s rc O S I.
  - by exists s, rc, O, S.
  - cbn [swap_nodes]. destruct (swap_node_spec _ _ _ _ _ _ I) as (s1&rc1&O1&S1&->&I1). by eapply IH.
Qed.

(** Start and end of an exchange. *)
Lemma inv_start rc : (forall j, is_Some (nodes s0 !! j) -> rc j = RCMAX \/ indeg (nodes s0) j + ext j <= rc j) ->
  (forall j, pin j -> is_Some (nodes s0 !! j) /\ (rc j = RCMAX \/ 1 <= ext j)) ->
  inv s0 rc (at_x s0 x) (dom (nodes s0)) (fun i e => sem s0 e (false, i)) zpend.
Proof.
  intros Hrc Hpin.
  assert (forall i, i ∈ at_x s0 x <-> exists l r, nodes s0 !! i = Some (x, l, r)) as Hat.
  { intros i. unfold at_x. rewrite elem_of_list_fmap. split.
    - intros ([j [[v l] r]]&->&Hj). apply elem_of_list_filter in Hj as [Hv Hj]. cbn in *.
      apply elem_of_map_to_list in Hj. exists l, r. congruence.
    - intros (l&r&E). exists (i, (x, l, r)). split; [done|]. apply elem_of_list_filter. split; [done|].
      by apply elem_of_map_to_list. }
  assert (forall i v l r, nodes s0 !! i = Some (v, l, r) -> forall c, c = l \/ c = r -> live s0 c /\ ORDER s0 v < lvl s0 c) as HS.
  { intros i v l r E c Hc. destruct (wf_node _ W0 _ _ _ _ E) as (_&_&_&?&?&?&?&_). by destruct Hc as [->| ->]. }
  assert (forall c, live s0 c -> p + 1 < lvl s0 c -> lowf s0 c) as HL.
  { intros c [?|[[[v l] r] E]] Hc; [by left|right]. exists v, l, r. split; [done|].
    unfold lvl in Hc. by rewrite E in Hc. }
  assert (forall i l r, nodes s0 !! i = Some (y, l, r) -> lowf s0 l /\ lowf s0 r) as HY.
  { intros i l r E. split; apply HL; try (by eapply HS; [exact E|auto]); rewrite <- Oy; eapply HS; try exact E; auto. }
  constructor; try done.
  - apply (wf_zero _ W0).
  - intros i v l r E. destruct (wf_node _ W0 _ _ _ _ E) as (?&?&?&?&?&?&?&?). split_and!; done.
  - intros i v l r E. destruct (decide (v = x)) as [Hv|Hv].
    + right. split; [done|]. apply Hat. rewrite Hv in E. by eauto.
    + left. assert (forall c, c = l \/ c = r -> no v < nl s0 c) as HH.
      { intros c Hc. destruct (HS _ _ _ _ E c Hc) as [Lc Oc]. destruct (wf_node _ W0 _ _ _ _ E) as (Hvn&_).
        unfold nl, lvl in *. destruct (nodes s0 !! c.2) as [[[w a] b]|] eqn:Ec; [|by apply no_cases].
        destruct (wf_node _ W0 _ _ _ _ Ec) as (Hwn&_).
        unfold no. rewrite (decide_False (P := v = x)) by done.
        destruct (decide (v = y)) as [Hvy|Hvy]; destruct (decide (w = x)) as [Hwx|Hwx];
          try destruct (decide (w = y)) as [Hwy|Hwy];
          try rewrite Hvy in Oc; try rewrite Hwx in Oc; try rewrite Hwy in Oc; try lia.
        - assert (ORDER s0 v <> p); [|lia]. intros Hp. apply Hv.
          apply (wf_ord_inj _ W0); [done..|]. lia. }
      split; apply HH; auto.
  - intros i l r E. destruct (HY _ _ _ E). split; by left.
  - intros i Hi. apply Hat in Hi as (l&r&E). exists l, r. split; [done|].
    assert (forall c, c = l \/ c = r -> via s0 y c) as HH; [|split; apply HH; auto].
    intros c Hc. destruct (HS _ _ _ _ E c Hc) as [Lc Oc]. unfold lvl in Oc.
    destruct (nodes s0 !! c.2) as [[[w a] b]|] eqn:Ec.
    + destruct (wf_node _ W0 _ _ _ _ Ec) as (Hwn&_). destruct (decide (w = y)) as [Hw|Hw].
      * right. rewrite Hw in Ec. exists a, b. destruct (HY _ _ _ Ec). done.
      * left. right. exists w, a, b. split; [done|]. assert (ORDER s0 w <> p + 1); [|lia].
        intros Hp. apply Hw. apply (wf_ord_inj _ W0); [done..|]. lia.
    + left. destruct Lc as [?|[? ?]]; [by left|congruence].
  - unfold at_x. apply NoDup_fmap_2_strong.
    + intros [i1 n1] [i2 n2] H1 H2 Heq. cbn in Heq. subst.
      apply elem_of_list_filter in H1 as [_ H1]. apply elem_of_list_filter in H2 as [_ H2].
      apply elem_of_map_to_list in H1, H2. congruence.
    + apply NoDup_filter, NoDup_map_to_list.
  - apply (wf_uniq _ W0).
  - apply (wf_nodup _ W0).
  - apply (wf_free _ W0).
  - apply (wf_size _ W0).
  - intros i v l r e E. destruct (wf_node _ W0 _ _ _ _ E) as (_&_&_&Ll&Lr&_).
    rewrite (sem_pos_node _ _ _ _ _ _ W0 E). unfold Sf.
    destruct l as [bl il], r as [br ir]. rewrite (sem_neg s0 e bl il), (sem_neg s0 e br ir) by done. done.
  - intros i Hi. apply elem_of_dom in Hi. done.
  - intros i v l r E _. apply elem_of_dom. by eexists.
  - intros i Hi. apply Hat in Hi as (l&r&E). apply elem_of_dom. by eexists.
  - intros j Hj. unfold zpend. destruct (Hrc j Hj); [by left|right; lia].
  - intros j Hj. destruct (Hpin j Hj). split; [by apply elem_of_dom|done].
Qed.

Definition swap_ord (s : bst) : bst :=
  mkSt (nodes s) (uniq s) (free s) (size s)
    (<[N.to_nat x := ORDER s y]> (<[N.to_nat y := ORDER s x]> (ord s))) (vnames s) (vtbl s) (cache s).

Lemma swap_ord_ORDER s v : ord s = ord s0 -> v < nvars s0 -> ORDER (swap_ord s) v = no v.
Proof.
  intros Ho Hv. unfold ORDER at 1. cbn. unfold no. unfold ORDER. rewrite Ho. fold (ORDER s0 x) (ORDER s0 y) (ORDER s0 v).
  pose proof x_ne_y. unfold nvars in *.
  apply nth_lookup_Some. destruct (decide (v = x)) as [->|Hvx].
  - rewrite list_lookup_insert by (rewrite insert_length; lia). by rewrite <- Oy.
  - rewrite list_lookup_insert_ne by lia. destruct (decide (v = y)) as [->|Hvy].
    + rewrite list_lookup_insert by lia. by rewrite <- Ox.
    + rewrite list_lookup_insert_ne by lia. unfold ORDER.
      destruct (lookup_lt_is_Some_2 (ord s0) (N.to_nat v)) as [o Ho']; [lia|]. rewrite Ho'. f_equal. symmetry. by apply nth_lookup_Some.
Qed.

Lemma inv_end s rc O S : inv s rc [] O S zpend ->
  WFn (swap_ord s) /\ (forall i, i ∈ O -> is_Some (nodes s !! i) /\ forall b e, sem (swap_ord s) e (b, i) = sem s0 e (b, i)).
Proof.
  intros I. pose proof (i_ord _ _ _ _ _ _ I) as Ho.
  assert (nvars (swap_ord s) = nvars s0) as Hnv.
  { unfold nvars. cbn. rewrite !insert_length. by rewrite Ho. }
  assert (WFn (swap_ord s)) as W.
  { assert (forall c, live s c -> lvl (swap_ord s) c = nl s c) as Hlv.
    { intros c Lc. unfold lvl, nl. cbn [nodes swap_ord]. destruct (nodes s !! c.2) as [[[v l] r]|] eqn:E; [|done].
      apply swap_ord_ORDER; [done|]. by eapply (i_node _ _ _ _ _ _ I). }
    constructor.
    - apply (i_zero _ _ _ _ _ _ I).
    - intros i v l r E. cbn in E. destruct (i_node _ _ _ _ _ _ I _ _ _ _ E) as (Hv&?&?&Ll&Lr&?).
      rewrite Hnv, !Hlv, swap_ord_ORDER by done.
      destruct (i_lev _ _ _ _ _ _ I _ _ _ _ E) as [[? ?]|[_ Ht]]; [|by apply elem_of_nil in Ht].
      split_and!; done.
    - apply (i_uniq _ _ _ _ _ _ I).
    - apply (i_nodup _ _ _ _ _ _ I).
    - apply (i_free _ _ _ _ _ _ I).
    - apply (i_size _ _ _ _ _ _ I).
    - intros v. rewrite Hnv. intros Hv. rewrite swap_ord_ORDER by done. by apply no_cases.
    - intros v w. rewrite Hnv. intros Hv Hw. rewrite !swap_ord_ORDER by done. by apply no_inj. }
  split; [done|].
  assert (forall c, live (swap_ord s) c -> forall e, sem (swap_ord s) e c = Sf S c e) as HS.
  { refine (lvl_ind _ _ W _ _).
    - intros b e. rewrite sem_const. unfold Sf. cbn. rewrite (i_S0 _ _ _ _ _ _ I). by destruct b.
    - intros n i v l r E IHl IHr e. rewrite (sem_node _ _ _ _ _ _ _ W E), IHl, IHr.
      unfold Sf at 3. cbn [fst snd]. by rewrite (i_S _ _ _ _ _ _ I _ _ _ _ _ E). }
  intros i Hi. destruct (i_O _ _ _ _ _ _ I i Hi) as (HA&HB&HC). split; [done|]. intros b e.
  rewrite HS by (by right). unfold Sf. cbn [fst snd]. rewrite HC. symmetry. apply sem_neg; [done|by right].
Qed.

End Swap.

(** ** One exchange, sequences of exchanges *)
Definition revok (s : bst) (rev : list N) : Prop :=
  length rev = length (ord s) /\ forall v, v < nvars s -> rev !! N.to_nat (ORDER s v) = Some v.
Definition rcs (s : bst) (rc : N -> N) (pin : N -> Prop) (ext : N -> N) : Prop :=
  (forall j, is_Some (nodes s !! j) -> rc j = RCMAX \/ indeg (nodes s) j + ext j <= rc j) /\
  (forall j, pin j -> is_Some (nodes s !! j) /\ (rc j = RCMAX \/ 1 <= ext j)).
(** Specification of an exchange: positions [p] and [p+1] trade places. *)
Definition exch (rev : list N) (p : nat) : list N :=
  match rev !! p, rev !! S p with
  | Some x, Some y => <[p := y]> (<[S p := x]> rev)
  | _, _ => rev
  end.
Lemma exch_length rev p : length (exch rev p) = length rev.
Proof. unfold exch. destruct (rev !! p), (rev !! S p); try done. by rewrite !insert_length. Qed.

Lemma rev_inv s rev p x : WFn s -> revok s rev -> rev !! p = Some x -> x < nvars s /\ ORDER s x = N.of_nat p.
Proof.
  intros W [Hl Hr] Hp.
  (* the variables at their positions fill the whole table *)
  assert (N.of_nat p < nvars s) as Hpn by (apply lookup_lt_Some in Hp; unfold nvars; lia).
  destruct (var_at_spec s (N.of_nat p) W Hpn) as (v&_&Hv&Ho).
  pose proof (Hr v Hv) as Hrv. rewrite Ho, Nat2N.id in Hrv. rewrite Hp in Hrv. injection Hrv as ->. done.
Qed.

Lemma swap_down_spec s rc rev pin ext k : WFn s -> revok s rev -> rcs s rc pin ext ->
  (forall j, 1 <= ext j -> pin j) -> (S k < length (ord s))%nat ->
  exists s' rc', swap_down k ((s, rc), rev) = Some ((s', rc'), exch rev k) /\
    WFn s' /\ revok s' (exch rev k) /\ rcs s' rc' pin ext /\ length (ord s') = length (ord s) /\
    vnames s' = vnames s /\ vtbl s' = vtbl s /\
    (forall i, pin i -> forall b e, sem s' e (b, i) = sem s e (b, i)).
Proof.
  intros W R [Hrc Hpin] Hext Hk. pose proof R as [Rl Rr].
  destruct (lookup_lt_is_Some_2 rev k) as [x Ex]; [lia|].
  destruct (lookup_lt_is_Some_2 rev (S k)) as [y Ey]; [lia|].
  destruct (rev_inv _ _ _ _ W R Ex) as [Hx Ox]. destruct (rev_inv _ _ _ _ W R Ey) as [Hy Oy].
  assert (ORDER s y = N.of_nat k + 1) as Oy' by lia. clear Oy.
  unfold swap_down. cbn [fst snd]. rewrite Ex, Ey.
  pose proof (inv_start s x y (N.of_nat k) pin ext W Hx Hy Ox Oy' rc Hrc Hpin) as I0.
  destruct (swap_nodes_spec s x y (N.of_nat k) pin ext W Hx Hy Ox Oy' Hext _ _ _ _ _ I0)
    as (s1&rc1&O1&S1&E1&I1). rewrite E1.
  destruct (inv_end s x y (N.of_nat k) pin ext W Hx Hy Ox Oy' _ _ _ _ I1) as [W1 HO1].
  pose proof (i_ord _ _ _ _ _ _ _ _ _ _ _ _ I1) as Ho1.
  assert (forall v, v < nvars s -> ORDER (swap_ord x y s1) v = no s x y (N.of_nat k) v) as HO.
  { intros v Hv. by apply swap_ord_ORDER. }
  assert (length (ord (swap_ord x y s1)) = length (ord s)) as Hlen.
  { cbn. rewrite !insert_length. by rewrite Ho1. }
  assert (exch rev k = <[k := y]> (<[S k := x]> rev)) as Hex by (unfold exch; by rewrite Ex, Ey).
  exists (swap_ord x y s1), rc1. split; [rewrite Hex; done|]. split; [done|].
  split; [|split; [|split; [done|split; [|split]]]].
  - split; [by rewrite exch_length, Hlen|]. intros v Hv. unfold nvars in Hv. rewrite Hlen in Hv.
    rewrite HO by done. rewrite Hex. unfold no.
    assert (x <> y) as Hxy. { intros ->. lia. }
    destruct (decide (v = x)) as [->|Hvx].
    + rewrite list_lookup_insert_ne by lia. rewrite N2Nat.inj_add, Nat2N.id. change (N.to_nat 1) with 1%nat.
      rewrite Nat.add_1_r. rewrite list_lookup_insert by lia. done.
    + destruct (decide (v = y)) as [->|Hvy].
      * rewrite Nat2N.id. rewrite list_lookup_insert by (rewrite insert_length; lia). done.
      * pose proof (wf_ord_inj _ W v x Hv Hx). pose proof (wf_ord_inj _ W v y Hv Hy).
        assert (ORDER s v <> N.of_nat k) by (intros ?; apply Hvx; auto with lia).
        assert (ORDER s v <> N.of_nat k + 1) by (intros ?; apply Hvy; auto with lia).
        rewrite !list_lookup_insert_ne by lia. by apply Rr.
  - split.
    + intros j Hj. destruct (i_rc _ _ _ _ _ _ _ _ _ _ _ _ I1 j Hj) as [?|HH]; [by left|right].
      unfold zpend in HH. cbn in *. lia.
    + intros j Hj. destruct (i_pin _ _ _ _ _ _ _ _ _ _ _ _ I1 j Hj) as [HjO ?]. split; [|done].
      by apply HO1.
  - apply (i_vn _ _ _ _ _ _ _ _ _ _ _ _ I1).
  - apply (i_vt _ _ _ _ _ _ _ _ _ _ _ _ I1).
  - intros i Hi b e. destruct (i_pin _ _ _ _ _ _ _ _ _ _ _ _ I1 i Hi) as [HiO _]. by apply HO1.
Qed.

Lemma swaps_spec (pin : N -> Prop) (ext : N -> N) : (forall j, 1 <= ext j -> pin j) -> forall (ps : list nat) s rc rev, WFn s -> revok s rev -> rcs s rc pin ext ->
  (forall k, k ∈ ps -> (S k < length (ord s))%nat) ->
  exists s' rc', swaps ps ((s, rc), rev) = Some ((s', rc'), foldl exch rev ps) /\
    WFn s' /\ revok s' (foldl exch rev ps) /\ rcs s' rc' pin ext /\ length (ord s') = length (ord s) /\
    vnames s' = vnames s /\ vtbl s' = vtbl s /\
    (forall i, pin i -> forall b e, sem s' e (b, i) = sem s e (b, i)).
Proof.
  intros Hext. induction ps as [|k ps IH]; intros s rc rev W R C Hk.
  - exists s, rc. split_and!; try done; apply R || apply C.
  - cbn [swaps foldl].
    destruct (swap_down_spec s rc rev pin ext k W R C Hext) as (s1&rc1&->&W1&R1&C1&L1&V1&T1&S1); [apply Hk; left|].
    destruct (IH s1 rc1 (exch rev k) W1 R1 C1) as (s2&rc2&->&W2&R2&C2&L2&V2&T2&S2).
    { intros j Hj. rewrite L1. apply Hk. by right. }
    exists s2, rc2. refine (conj eq_refl (conj W2 (conj R2 (conj C2 (conj _ (conj _ (conj _ _))))))); try congruence.
    intros i Hi b e. by rewrite S2, S1.
Qed.

(** Initial reverse table. *)
Lemma rev_of_ok s : WFn s -> revok s (rev_of s).
Proof.
  intros W. unfold rev_of.
  assert (forall vs l, length l = length (ord s) -> NoDup vs -> (forall v, v ∈ vs -> v < nvars s) ->
    length (foldl (fun l v => <[N.to_nat (ORDER s v) := v]> l) l vs) = length (ord s) /\
    forall v, v < nvars s -> (v ∈ vs -> foldl (fun l v => <[N.to_nat (ORDER s v) := v]> l) l vs !! N.to_nat (ORDER s v) = Some v) /\
      (v ∉ vs -> foldl (fun l v => <[N.to_nat (ORDER s v) := v]> l) l vs !! N.to_nat (ORDER s v) = l !! N.to_nat (ORDER s v))) as H.
  { induction vs as [|w vs IH]; intros l Hl Hnd Hvs; cbn [foldl].
    - split; [done|]. intros v Hv. split; [by intros ?%elem_of_nil|done].
    - apply NoDup_cons in Hnd as [Hw Hnd].
      assert (w < nvars s) as Hwn by (apply Hvs; left).
      pose proof (wf_ord_lt _ W w Hwn) as Ow.
      destruct (IH (<[N.to_nat (ORDER s w) := w]> l)) as [A B].
      { by rewrite insert_length. } { done. } { intros. apply Hvs. by right. }
      split; [done|]. intros v Hv. destruct (B v Hv) as [B1 B2]. split.
      + intros Hi. apply elem_of_cons in Hi as [->|Hi]; [|by apply B1].
        rewrite B2 by done. apply list_lookup_insert. unfold nvars in *. lia.
      + intros Hi. apply not_elem_of_cons in Hi as [Hvw Hi]. rewrite B2 by done.
        apply list_lookup_insert_ne. intros E. apply Hvw. apply (wf_ord_inj _ W); [done..|]. lia. }
  assert (forall v, v ∈ map N.of_nat (seq 0 (length (ord s))) <-> v < nvars s) as Hin.
  { intros v. rewrite elem_of_list_fmap. unfold nvars. split.
    - intros (k&->&Hk). apply elem_of_seq in Hk. lia.
    - intros Hv. exists (N.to_nat v). split; [lia|]. apply elem_of_seq. lia. }
  destruct (H (map N.of_nat (seq 0 (length (ord s)))) (replicate (length (ord s)) 0)) as [A B].
  - apply replicate_length.
  - apply NoDup_fmap_2_strong; [|apply NoDup_ListNoDup, seq_NoDup]. intros; lia.
  - intros v. apply Hin.
  - split; [done|]. intros v Hv. apply B; [done|]. by apply Hin.
Qed.

Lemma revok_unique s r r' : WFn s -> revok s r -> revok s r' -> r = r'.
Proof.
  intros W R R'. apply list_eq_same_length with (length (ord s)); [apply R'|apply R|].
  intros i x z Hi Hx Hz. 
  destruct (rev_inv _ _ _ _ W R Hx) as [Hxn Ox]. destruct (rev_inv _ _ _ _ W R' Hz) as [Hzn Oz].
  apply (wf_ord_inj _ W); [done..|]. congruence.
Qed.

(** Collection followed by any sequence of exchanges. *)
Lemma gc_reorder_spec s roots ps : WF s -> (forall f, f ∈ roots -> live s f) ->
  (forall k, k ∈ ps -> (S k < length (ord s))%nat) ->
  exists s', gc_reorder s roots ps = Some s' /\ WF s' /\ vnames s' = vnames s /\ vtbl s' = vtbl s /\
    rev_of s' = foldl exch (rev_of s) ps /\
    (forall f, f ∈ roots -> live s' f /\ forall e, sem s' e f = sem s e f).
Proof.
  intros W L Hps. unfold gc_reorder.
  destruct (gc_spec s roots W L) as (s1&rc&->&W1&P1&L1&_&C1&M1).
  pose proof P1 as (Hn1&Ho1&Hv1&Ht1).
  set (pin := fun j => (exists f, f ∈ roots /\ f.2 = j /\ j <> 0) \/ exists x f, vtbl s !! x = Some f /\ f.2 = j).
  assert (forall gs j, 1 <= rootcnt gs j <-> exists f, f ∈ gs /\ f.2 = j) as Hrcnt.
  { intros gs j. induction gs as [|g gs IH]; cbn.
    - split; [lia|]. by intros (f&?%elem_of_nil&_).
    - change (foldr _ 0 gs) with (rootcnt gs j). split.
      + intros H. destruct (N.eqb_spec g.2 j) as [E|E].
        * exists g. split; [left|done].
        * cbn in H. destruct IH as [IH _]. destruct IH as (f&Hf&?); [lia|]. exists f. split; [by right|done].
      + intros (f&Hf&E). apply elem_of_cons in Hf as [->|Hf].
        * rewrite (proj2 (N.eqb_eq _ _) E). cbn. lia.
        * assert (1 <= rootcnt gs j) by (apply IH; by exists f). lia. }
  set (ext := fun j => if decide (j = 0) then 0 else rootcnt roots j).
  assert (forall j, 1 <= ext j -> pin j) as Hext.
  { intros j. unfold ext. destruct (decide (j = 0)); [lia|]. intros H. apply Hrcnt in H as (f&Hf&Hj).
    left. by exists f. }
  assert (rcs s1 rc pin ext) as RC.
  { split.
    - intros j Hj. destruct (C1 j Hj) as [_ [?|?]]; [by left|right]. unfold ext. destruct (decide _); lia.
    - intros j [(f&Hf&Hj&Hj0)|(x&f&Hx&Hj)].
      + split.
        * destruct (L1 f Hf) as [H|H]; [congruence|]. by rewrite <- Hj.
        * right. unfold ext. rewrite decide_False by done. apply Hrcnt. by exists f.
      + split; [|left; rewrite <- Hj; by eapply M1].
        destruct (vtbl_node s1 x f W1) as (v&l&r&E&_); [by rewrite <- Ht1|]. rewrite <- Hj. by eexists. }
  destruct (swaps_spec pin ext Hext ps s1 rc (rev_of s1) (wf_n _ W1) (rev_of_ok s1 W1) RC)
    as (s2&rc2&->&W2&R2&C2&L2&V2&T2&S2).
  { intros k Hk. rewrite <- Ho1. by apply Hps. }
  exists (erase_cache s2).
  assert (WFn (erase_cache s2)) as W2' by (destruct W2; by constructor).
  assert (forall f, live s1 f -> (f.2 = 0 \/ pin f.2) -> live s2 f /\ forall e, sem s2 e f = sem s1 e f) as HP.
  { intros [b i] Lf Hf. cbn in Hf. destruct (decide (i = 0)) as [->|Hi].
    - split; [apply live_const|]. intros e. by rewrite !sem_const.
    - destruct Hf as [?|Hf]; [done|]. split; [right; by apply C2|]. intros e. by apply S2. }
  assert (rev_of s1 = rev_of s) as Hrv by (unfold rev_of, ORDER; by rewrite <- Ho1).
  refine (conj eq_refl (conj _ (conj _ (conj _ (conj _ _))))).
  - constructor.
    + done.
    + cbn. rewrite V2, L2. apply (wf_len _ W1).
    + cbn. rewrite V2. apply (wf_names _ W1).
    + intros x f Hx. cbn in Hx. rewrite T2 in Hx. destruct (wf_vtbl _ W1 _ _ Hx) as (v&Hn&Lf&Hs). exists v.
      destruct (HP f Lf) as [Lf2 Hs2]. { right. right. exists x, f. split; [by rewrite Ht1|done]. }
      split; [cbn; by rewrite V2|]. split; [done|]. intros e. change (sem s2 e f = e v). by rewrite Hs2.
    + intros x. cbn. rewrite V2, T2. apply (wf_vtbl2 _ W1).
    + intros fn f g r Hr. cbn in Hr. by rewrite lookup_empty in Hr.
  - cbn. by rewrite V2.
  - cbn. by rewrite T2.
  - rewrite <- Hrv. apply (revok_unique (erase_cache s2)); [done|by apply rev_of_ok|done].
  - intros f Hf. destruct (HP f (L1 f Hf)) as [Lf2 Hs2].
    { destruct (decide (f.2 = 0)); [by left|right]. left. by exists f. }
    split; [done|]. intros e. change (sem s2 e f = sem s e f). rewrite Hs2. symmetry. apply (pext_sem s1 s); auto.
Qed.
