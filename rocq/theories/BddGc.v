(** Garbage collection: /repo/src/bin/fl/new_bdd.c 345-452, 2757-2899.

    Simplifications: mark bits are a set and reference counts a function
    (0 for unused entries).  The external references (B_Mark calls made by the
    graph collector, bdd_gc_buf, substitution records) are one list [roots].
    The order in which swept entries are pushed on the free list is that of
    [elements] rather than hash-bucket order; nothing depends on it. *)
From stdpp Require Import gmap strings list.
From Coq Require Import NArith Lia.
From Verif Require Import BddModel BddWf BddOps BddVar BddQuant BddDen.
Open Scope N_scope.
Local Arguments N.mul : simpl never.
Local Arguments N.add : simpl never.

(** new_bdd.h 77-84: REF_CNT_SIZE = 32-18-3 = 11 bits. *)
Definition RCMAX : N := 2047.
Definition rset (rc : N -> N) (i k : N) : N -> N := fun j => if decide (j = i) then k else rc j.
(** new_bdd.c 382-384 and 3453-3460 (inc_ref_cnt): saturating increment. *)
Definition rinc (rc : N -> N) (i : N) : N -> N :=
  if decide (rc i = RCMAX) then rc else rset rc i (rc i + 1).

Definition mst : Type := gset N * (N -> N).

(** new_bdd.c 379-393 (gc_update_ref_cnt), on a table index. *)
Fixpoint gc_update (fuel : nat) (nd : gmap N node) (i : N) (m : mst) : option mst :=
  match fuel with
  | O => None
  | S fuel =>
    let rc := rinc m.2 i in
    if decide (i ∈ m.1) then Some (m.1, rc) else
    match nd !! i with
    | None => None
    | Some (_, l, r) =>
      let m1 : mst := ({[i]} ∪ m.1, rc) in
      match (if decide (l.2 = 0) then Some m1 else gc_update fuel nd l.2 m1) with
      | None => None
      | Some m2 => if decide (r.2 = 0) then Some m2 else gc_update fuel nd r.2 m2
      end
    end
  end.

(** new_bdd.c 396-405 (B_Mark). *)
Definition B_Mark (s : bst) (f : fml) (m : mst) : option mst :=
  if decide (f.2 = 0) then Some m else gc_update (S (length (ord s))) (nodes s) f.2 m.

Fixpoint mark_all (s : bst) (fs : list fml) (m : mst) : option mst :=
  match fs with
  | [] => Some m
  | f :: fs => match B_Mark s f m with None => None | Some m' => mark_all s fs m' end
  end.

(** new_bdd.c 407-415 (mark_vars), for every entry of the variable table. *)
Definition mark_var (f : fml) (m : mst) : mst := ({[f.2]} ∪ m.1, rset m.2 f.2 RCMAX).
Definition mark_vars (s : bst) (m : mst) : mst :=
  foldr (fun p m => mark_var p.2 m) m (map_to_list (vtbl s)).

(** new_bdd.c 2776-2821: sweep; 2870-2899: clean_cache (FALSE).  Entry 0 has
    reference count MAX_REF_CNT = 3 (line 450). *)
Definition keep_entry (rc : N -> N) (k : N * fml * fml) (r : fml) : bool :=
  let ok (f : fml) := if decide (f.2 = 0) then true else negb (rc f.2 =? 0) in
  ok k.1.2 && ok k.2 && ok r.
Definition sweep (s : bst) (m : mst) : bst :=
  mkSt (filter (fun p => p.1 ∈ m.1) (nodes s))
       (filter (fun p => p.2 ∈ m.1) (uniq s))
       (elements (dom (nodes s) ∖ m.1) ++ free s)
       (size s) (ord s) (vnames s) (vtbl s)
       (filter (fun p => keep_entry m.2 p.1 p.2 = true) (cache s)).

(** new_bdd.c 345-360, 419-455: Reset_Ref_cnts; B_Mark of the roots; B_Clean,
    without reordering. *)
Definition gc_marks (s : bst) (roots : list fml) : option mst :=
  match mark_all s roots (∅, fun _ => 0) with
  | None => None
  | Some m => Some (mark_vars s m)
  end.
Definition gc (s : bst) (roots : list fml) : option (bst * (N -> N)) :=
  match gc_marks s roots with
  | None => None
  | Some m => Some (sweep s m, m.2)
  end.

(** ** Counting edges *)
Definition b2n (b : bool) : N := if b then 1 else 0.
Definition edges (n : node) (j : N) : N := b2n (n.1.2.2 =? j) + b2n (n.2.2 =? j).
Definition indeg (nd : gmap N node) (j : N) : N :=
  foldr (fun p a => edges p.2 j + a) 0 (map_to_list nd).

Lemma foldr_edges_perm j (l l' : list (N * node)) : l ≡ₚ l' ->
  foldr (fun p a => edges p.2 j + a) 0 l = foldr (fun p a => edges p.2 j + a) 0 l'.
Proof. induction 1; cbn; lia. Qed.
Lemma indeg_empty j : indeg ∅ j = 0.
Proof. unfold indeg. by rewrite map_to_list_empty. Qed.
Lemma indeg_insert nd i n j : nd !! i = None -> indeg (<[i := n]> nd) j = edges n j + indeg nd j.
Proof.
  intros H. unfold indeg. rewrite (foldr_edges_perm j _ _ (map_to_list_insert nd i n H)). done.
Qed.
Lemma indeg_delete nd i n j : nd !! i = Some n -> indeg nd j = edges n j + indeg (delete i nd) j.
Proof.
  intros H. rewrite <- (insert_delete nd i n H) at 1. apply indeg_insert. by rewrite lookup_delete.
Qed.
Lemma indeg_update nd i n n' j : nd !! i = Some n ->
  indeg (<[i := n']> nd) j + edges n j = indeg nd j + edges n' j.
Proof.
  intros H. rewrite (indeg_delete nd i n j H). rewrite <- insert_delete_insert.
  rewrite indeg_insert by (by rewrite lookup_delete). lia.
Qed.
Lemma indeg_pos nd i n j : nd !! i = Some n -> edges n j <= indeg nd j.
Proof. intros H. rewrite (indeg_delete _ _ _ _ H). lia. Qed.
Lemma indeg_zero nd j : indeg nd j = 0 -> forall i v l r, nd !! i = Some (v, l, r) -> l.2 <> j /\ r.2 <> j.
Proof.
  intros H i v l r E. pose proof (indeg_pos _ _ _ j E) as Hp. rewrite H in Hp.
  unfold edges in Hp. cbn in Hp. split; intros Hj; rewrite Hj, N.eqb_refl in Hp; cbn in Hp; lia.
Qed.

(** Edges out of a set of nodes. *)
Definition restr (nd : gmap N node) (A : gset N) : gmap N node := filter (fun p => p.1 ∈ A) nd.
Lemma restr_lookup nd A i n : restr nd A !! i = Some n <-> nd !! i = Some n /\ i ∈ A.
Proof. unfold restr. by rewrite map_filter_lookup_Some. Qed.
Lemma indeg_restr_add nd A i n j : nd !! i = Some n -> i ∉ A ->
  indeg (restr nd ({[i]} ∪ A)) j = edges n j + indeg (restr nd A) j.
Proof.
  intros H Hi. assert (restr nd ({[i]} ∪ A) = <[i := n]> (restr nd A)) as ->.
  { apply map_eq. intros k. destruct (decide (k = i)) as [->|Hk].
    - rewrite lookup_insert. apply restr_lookup. split; [done|]. set_solver.
    - rewrite lookup_insert_ne by done. apply option_eq. intros x. rewrite !restr_lookup. set_solver. }
  apply indeg_insert. apply eq_None_not_Some. intros [x E]. apply restr_lookup in E. tauto.
Qed.

(** ** Marking *)
Lemma rinc_ge rc i j : rinc rc i j = RCMAX \/ rc j + b2n (i =? j) <= rinc rc i j.
Proof.
  unfold rinc, rset. destruct (decide (rc i = RCMAX)) as [E|E].
  - destruct (N.eqb_spec i j) as [->|]; [by left|]. right. cbn. lia.
  - destruct (decide (j = i)) as [->|]; right.
    + rewrite N.eqb_refl. cbn. lia.
    + rewrite (proj2 (N.eqb_neq i j)) by done. cbn. lia.
Qed.
Lemma rinc_max rc i j : rc j = RCMAX -> rinc rc i j = RCMAX.
Proof.
  intros H. unfold rinc, rset. destruct (decide (rc i = RCMAX)); [done|].
  destruct (decide (j = i)) as [->|]; [|done]. done.
Qed.
Lemma rinc_other rc i j : j <> i -> rinc rc i j = rc j.
Proof.
  intros H. unfold rinc, rset. destruct (decide (rc i = RCMAX)); [done|]. by rewrite decide_False.
Qed.

(** [m'] extends [m] by finished nodes, having visited the multiset [vis]. *)
Record mstep (nd : gmap N node) (m m' : mst) (vis : N -> N) : Prop := {
  ms_sub : m.1 ⊆ m'.1;
  ms_closed : forall k, k ∈ m'.1 -> k ∉ m.1 -> exists v l r, nd !! k = Some (v, l, r) /\
      (l.2 = 0 \/ l.2 ∈ m'.1) /\ (r.2 = 0 \/ r.2 ∈ m'.1);
  ms_max : forall j, m.2 j = RCMAX -> m'.2 j = RCMAX;
  ms_cnt : forall j, j <> 0 -> m'.2 j = RCMAX \/
      indeg (restr nd m'.1) j + m.2 j + vis j <= indeg (restr nd m.1) j + m'.2 j;
  ms_new : forall j, m'.2 j <> 0 -> m.2 j <> 0 \/ j ∈ m'.1
}.

Lemma mstep_refl nd m : mstep nd m m (fun _ => 0).
Proof. constructor; try done; [|by left]. intros. right. lia. Qed.
Lemma mstep_trans nd m1 m2 m3 v1 v2 : mstep nd m1 m2 v1 -> mstep nd m2 m3 v2 ->
  mstep nd m1 m3 (fun j => v1 j + v2 j).
Proof.
  intros A B. constructor.
  - etrans; [apply (ms_sub _ _ _ _ A)|apply (ms_sub _ _ _ _ B)].
  - intros k Hk Hn. destruct (decide (k ∈ m2.1)) as [H2|H2].
    + destruct (ms_closed _ _ _ _ A k H2 Hn) as (v&l&r&E&Hl&Hr). exists v, l, r.
      pose proof (ms_sub _ _ _ _ B). split; [done|]. set_solver.
    + by apply (ms_closed _ _ _ _ B).
  - intros j H. apply (ms_max _ _ _ _ B), (ms_max _ _ _ _ A), H.
  - intros j Hj. destruct (ms_cnt _ _ _ _ B j Hj) as [H|H]; [by left|].
    destruct (ms_cnt _ _ _ _ A j Hj) as [H'|H'].
    + left. by apply (ms_max _ _ _ _ B).
    + right. lia.
  - intros j H. apply (ms_new _ _ _ _ B) in H as [H|H]; [|by right].
    apply (ms_new _ _ _ _ A) in H as [H|H]; [by left|]. right. by apply (ms_sub _ _ _ _ B).
Qed.

Lemma gc_update_spec s : WFn s -> forall fuel i m, is_Some (nodes s !! i) ->
  (N.to_nat (nvars s - lvl s (false, i)) < fuel)%nat ->
  exists m', gc_update fuel (nodes s) i m = Some m' /\ i ∈ m'.1 /\
    mstep (nodes s) m m' (fun j => b2n (i =? j)).
Proof.
  intros W. induction fuel as [|fuel IH]; intros i m [[[v l] r] E] Hf; [lia|].
  cbn [gc_update]. destruct (decide (i ∈ m.1)) as [Hi|Hi].
  { eexists. split; [done|]. split; [done|]. constructor; cbn [fst snd].
    - done.
    - tauto.
    - intros j Hj. by apply rinc_max.
    - intros j Hj. destruct (rinc_ge m.2 i j) as [H|H]; [by left|]. right. lia.
    - intros j Hj. destruct (decide (j = i)) as [->|]; [by right|]. rewrite rinc_other in Hj by done. by left. }
  rewrite E. pose proof (wf_node _ W _ _ _ _ E) as (Hv&_&_&Ll&Lr&Ol&Or&_).
  rewrite (lvl_node _ _ _ _ _ _ E) in Hf. pose proof (ORDER_lt_nvars _ _ W Hv).
  set (m1 := ({[i]} ∪ m.1, rinc m.2 i) : mst).
  assert (forall c m, live s c -> ORDER s v < lvl s c -> exists m', 
    (if decide (c.2 = 0) then Some m else gc_update fuel (nodes s) c.2 m) = Some m' /\
    (c.2 = 0 \/ c.2 ∈ m'.1) /\ exists vis, mstep (nodes s) m m' vis /\
       forall j, j <> 0 -> vis j = b2n (c.2 =? j)) as HC.
  { intros c m0 Lc Oc. destruct (decide (c.2 = 0)) as [Hc|Hc].
    - exists m0. split; [done|]. split; [by left|]. eexists. split; [apply mstep_refl|].
      intros j Hj. cbn. rewrite Hc, (proj2 (N.eqb_neq 0 j)) by done. done.
    - destruct (IH c.2 m0) as (m'&E'&Hi'&Hm').
      + destruct Lc as [?|?]; [done|done].
      + pose proof (lvl_le s c W). assert (lvl s (false, c.2) = lvl s c) as -> by done. lia.
      + exists m'. split; [done|]. split; [by right|]. eexists. split; [done|]. done. }
  destruct (HC l m1 Ll Ol) as (m2&E2&Hl&vl&Hm2&Hvl). rewrite E2.
  destruct (HC r m2 Lr Or) as (m3&E3&Hr&vr&Hm3&Hvr). exists m3. split; [done|].
  pose proof (mstep_trans _ _ _ _ _ _ Hm2 Hm3) as T.
  pose proof (ms_sub _ _ _ _ T) as Hsub. cbn in Hsub.
  pose proof (ms_sub _ _ _ _ Hm3) as Hsub3.
  split; [set_solver|]. constructor.
  - set_solver.
  - intros k Hk Hn. destruct (decide (k = i)) as [->|Hki].
    + exists v, l, r. split; [done|]. set_solver.
    + apply (ms_closed _ _ _ _ T k Hk). cbn. set_solver.
  - intros j Hj. apply (ms_max _ _ _ _ T). cbn. by apply rinc_max.
  - intros j Hj. destruct (ms_cnt _ _ _ _ T j Hj) as [H'|H']; [by left|].
    cbn [fst snd m1] in H'. rewrite (indeg_restr_add _ _ _ _ _ E Hi) in H'.
    rewrite (Hvl j Hj), (Hvr j Hj) in H'. unfold edges in H'. cbn [fst snd] in H'.
    destruct (rinc_ge m.2 i j) as [H''|H'']; [left|right; lia].
    by apply (ms_max _ _ _ _ T).
  - intros j Hj. apply (ms_new _ _ _ _ T) in Hj as [Hj|Hj]; [|by right]. cbn in Hj.
    destruct (decide (j = i)) as [->|]; [right; set_solver|]. rewrite rinc_other in Hj by done. by left.
Qed.

Definition rootcnt (fs : list fml) (j : N) : N := foldr (fun f a => b2n (f.2 =? j) + a) 0 fs.

Lemma mark_all_spec s : WFn s -> forall fs m, (forall f, f ∈ fs -> live s f) ->
  exists m', mark_all s fs m = Some m' /\ (forall f, f ∈ fs -> f.2 = 0 \/ f.2 ∈ m'.1) /\
    exists vis, mstep (nodes s) m m' vis /\ forall j, j <> 0 -> vis j = rootcnt fs j.
Proof.
  intros W. induction fs as [|f fs IH]; intros m L.
  - exists m. split; [done|]. split; [intros f Hf; by apply elem_of_nil in Hf|].
    eexists. split; [apply mstep_refl|]. done.
  - cbn [mark_all]. assert (exists m1, B_Mark s f m = Some m1 /\ (f.2 = 0 \/ f.2 ∈ m1.1) /\
      exists vis, mstep (nodes s) m m1 vis /\ forall j, j <> 0 -> vis j = b2n (f.2 =? j)) as (m1&E1&H1&v1&S1&V1).
    { unfold B_Mark. destruct (decide (f.2 = 0)) as [Hc|Hc].
      - exists m. split; [done|]. split; [by left|]. eexists. split; [apply mstep_refl|].
        intros j Hj. cbn. rewrite Hc, (proj2 (N.eqb_neq 0 j)) by done. done.
      - destruct (gc_update_spec s W (S (length (ord s))) f.2 m) as (m'&E'&Hi'&Hm').
        + destruct (L f) as [?|?]; [left|done|done].
        + pose proof (lvl_le s (false, f.2) W). unfold nvars. lia.
        + exists m'. split; [done|]. split; [by right|]. eexists. split; [done|]. done. }
    rewrite E1. destruct (IH m1) as (m2&E2&H2&v2&S2&V2). { intros. apply L. by right. }
    exists m2. split; [done|]. split.
    + intros g Hg. apply elem_of_cons in Hg as [->|Hg]; [|by apply H2].
      pose proof (ms_sub _ _ _ _ S2). set_solver.
    + eexists. split; [by eapply mstep_trans|]. intros j Hj. cbn. rewrite V1, V2 by done. done.
Qed.

(** A formula denoting a variable is a node with constant sons. *)
Lemma var_formula s f v : WFn s -> v < nvars s -> live s f -> (forall e : env, sem s e f = e v) ->
  exists l r, nodes s !! f.2 = Some (v, l, r) /\ l.2 = 0 /\ r.2 = 0.
Proof.
  intros W Hv L Hs. destruct (live_cases _ _ L) as [E|(w&l&r&E)].
  { destruct f as [b i]. cbn in E. subst i. pose proof (Hs (fun _ => true)) as A.
    pose proof (Hs (fun _ => false)) as B. rewrite sem_const in A, B. congruence. }
  pose proof (wf_node _ W _ _ _ _ E) as (Hw&_&Hne&Ll&Lr&Ol&Or&_).
  destruct f as [b i]. cbn [snd] in *.
  assert (w = v) as ->.
  { destruct (decide (w = v)) as [|Hwv]; [done|]. exfalso. apply Hne.
    apply (canonical s W); [done..|]. intros e.
    pose proof (Hs (upd e w true)) as A. pose proof (Hs (upd e w false)) as B.
    rewrite (sem_node _ _ _ _ _ _ _ W E), upd_eq, upd_ne, sem_upd_above in A by done.
    rewrite (sem_node _ _ _ _ _ _ _ W E), upd_eq, upd_ne, sem_upd_above in B by done.
    destruct b, (sem s e l), (sem s e r); cbn in *; congruence. }
  exists l, r. split; [done|].
  assert (forall c, live s c -> ORDER s v < lvl s c -> (exists t, forall e : env, sem s e c = t) -> c.2 = 0) as HC.
  { intros c Lc Oc [t Ht]. assert (c = (t, 0)) as ->; [|done].
    apply (canonical s W); [done|apply live_const|]. intros e. by rewrite Ht, sem_const. }
  split; apply HC; try done.
  - exists (xorb b true). intros e. pose proof (Hs (upd e v true)) as A.
    rewrite (sem_node _ _ _ _ _ _ _ W E), upd_eq in A. rewrite sem_upd_above in A by done.
    destruct b, (sem s e l); done.
  - exists b. intros e. pose proof (Hs (upd e v false)) as A.
    rewrite (sem_node _ _ _ _ _ _ _ W E), upd_eq in A. rewrite sem_upd_above in A by done.
    destruct b, (sem s e r); done.
Qed.

Lemma vtbl_node s x f : WF s -> vtbl s !! x = Some f ->
  exists v l r, nodes s !! f.2 = Some (v, l, r) /\ l.2 = 0 /\ r.2 = 0.
Proof.
  intros W H. destruct (wf_vtbl _ W _ _ H) as (v&Hn&L&Hs). exists v.
  eapply var_formula; [done| |done|done].
  apply lookup_lt_Some in Hn. rewrite (wf_len _ W) in Hn. unfold nvars. lia.
Qed.

Lemma mark_vars_spec s m : WF s -> exists m', mark_vars s m = m' /\
  mstep (nodes s) m m' (fun _ => 0) /\
  forall x f, vtbl s !! x = Some f -> f.2 ∈ m'.1 /\ m'.2 f.2 = RCMAX.
Proof.
  intros W. unfold mark_vars.
  assert (forall p, p ∈ map_to_list (vtbl s) -> vtbl s !! p.1 = Some p.2) as HL.
  { intros [x f] H. by apply elem_of_map_to_list in H. }
  assert (forall x f, vtbl s !! x = Some f -> (x, f) ∈ map_to_list (vtbl s)) as HR.
  { intros x f H. by apply elem_of_map_to_list. }
  enough (exists m', foldr (fun p m => mark_var p.2 m) m (map_to_list (vtbl s)) = m' /\
    mstep (nodes s) m m' (fun _ => 0) /\
    forall p, p ∈ map_to_list (vtbl s) -> p.2.2 ∈ m'.1 /\ m'.2 p.2.2 = RCMAX) as (m'&E&S'&H).
  { exists m'. split; [done|]. split; [done|]. intros x f Hx. by apply (H (x, f)), HR. }
  clear HR. induction (map_to_list (vtbl s)) as [|p ps IH]; cbn [foldr].
  { exists m. split; [done|]. split; [apply mstep_refl|]. intros p Hp. by apply elem_of_nil in Hp. }
  destruct IH as (m1&->&S1&H1). { intros. apply HL. by right. }
  eexists. split; [done|].
  destruct (vtbl_node s p.1 p.2 W) as (v&l&r&E&El&Er); [apply HL; left|].
  pose proof (wf_zero _ W) as Hz.
  assert (p.2.2 <> 0) as Hp0. { intros H. rewrite H in E. congruence. }
  assert (forall j, j <> 0 -> edges (v, l, r) j = 0) as He.
  { intros j Hj. unfold edges. cbn. rewrite El, Er, (proj2 (N.eqb_neq 0 j)) by done. done. }
  split.
  - assert (mstep (nodes s) m1 (mark_var p.2 m1) (fun _ => 0)) as S2.
    { unfold mark_var. constructor; cbn [fst snd].
      - set_solver.
      - intros k Hk Hn. assert (k = p.2.2) as -> by set_solver. exists v, l, r. split_and!; [done|by left|by left].
      - intros j Hj. unfold rset. by destruct (decide _).
      - intros j Hj. unfold rset. destruct (decide (j = p.2.2)) as [->|Hjp]; [by left|]. right.
        destruct (decide (p.2.2 ∈ m1.1)) as [Hin|Hin].
        + assert ({[p.2.2]} ∪ m1.1 = m1.1) as -> by set_solver. lia.
        + rewrite (indeg_restr_add _ _ _ _ _ E Hin), He by done. lia.
      - intros j. unfold rset. destruct (decide (j = p.2.2)) as [->|]; [intros _; right; set_solver|by left]. }
    pose proof (mstep_trans _ _ _ _ _ _ S1 S2) as T. constructor; try apply T.
  - intros q Hq. apply elem_of_cons in Hq as [->|Hq]; cbn.
    + split; [set_solver|]. unfold rset. by rewrite decide_True.
    + destruct (H1 q Hq) as [A B]. split; [set_solver|]. unfold rset. by destruct (decide _).
Qed.

(** Reachability, the specification of what a collection must keep. *)
Inductive reach (nd : gmap N node) (i : N) : N -> Prop :=
| reach_refl : reach nd i i
| reach_l j v l r : reach nd i j -> nd !! j = Some (v, l, r) -> reach nd i l.2
| reach_r j v l r : reach nd i j -> nd !! j = Some (v, l, r) -> reach nd i r.2.
Definition rooted (s : bst) (roots : list fml) (j : N) : Prop :=
  exists f, (f ∈ roots \/ exists x, vtbl s !! x = Some f) /\ reach (nodes s) f.2 j.

Lemma gc_update_reach nd : forall fuel i m m', gc_update fuel nd i m = Some m' ->
  forall j, j ∈ m'.1 -> j ∈ m.1 \/ reach nd i j.
Proof.
  assert (forall a b c, reach nd a b -> reach nd b c -> reach nd a c) as RT.
  { intros a b c H1 H2. induction H2; [done|by eapply reach_l|by eapply reach_r]. }
  induction fuel as [|fuel IH]; intros i m m' E j Hj; [done|].
  cbn [gc_update] in E. destruct (decide (i ∈ m.1)) as [Hi|Hi]; [by injection E as <-; left|].
  destruct (nd !! i) as [[[v l] r]|] eqn:En; [|done].
  set (m1 := ({[i]} ∪ m.1, rinc m.2 i) : mst) in *.
  destruct (if decide (l.2 = 0) then Some m1 else gc_update fuel nd l.2 m1) as [m2|] eqn:E2; [|done].
  assert (forall j, j ∈ m2.1 -> j ∈ m.1 \/ reach nd i j) as H2.
  { intros k Hk. assert (k ∈ m1.1 \/ reach nd i k) as [H|H]; [| |by right].
    - destruct (decide (l.2 = 0)); [injection E2 as <-; by left|].
      apply (IH _ _ _ E2) in Hk as [?|?]; [by left|right].
      eapply RT; [|done]. by eapply reach_l; [apply reach_refl|].
    - cbn in H. apply elem_of_union in H as [H|H]; [|by left].
      apply elem_of_singleton in H as ->. right. apply reach_refl. }
  destruct (decide (r.2 = 0)); [injection E as <-; by apply H2|].
  apply (IH _ _ _ E) in Hj as [Hj|Hj]; [by apply H2|right].
  eapply RT; [|done]. by eapply reach_r; [apply reach_refl|].
Qed.

Lemma mark_all_reach s : forall fs m m', mark_all s fs m = Some m' -> forall j, j ∈ m'.1 ->
  j ∈ m.1 \/ exists f, f ∈ fs /\ reach (nodes s) f.2 j.
Proof.
  induction fs as [|f fs IH]; intros m m' E j Hj; cbn [mark_all] in E; [injection E as <-; by left|].
  destruct (B_Mark s f m) as [m1|] eqn:E1; [|done].
  apply (IH _ _ E) in Hj as [Hj|(g&Hg&Hr)]; [|right; exists g; split; [by right|done]].
  unfold B_Mark in E1. destruct (decide (f.2 = 0)); [injection E1 as <-; by left|].
  apply (gc_update_reach _ _ _ _ _ E1) in Hj as [Hj|Hj]; [by left|]. right. exists f. split; [left|done].
Qed.

Lemma gc_marks_spec s roots : WF s -> (forall f, f ∈ roots -> live s f) ->
  exists m, gc_marks s roots = Some m /\
    (forall j, j ∈ m.1 <-> rooted s roots j /\ is_Some (nodes s !! j)) /\
    (forall k v l r, k ∈ m.1 -> nodes s !! k = Some (v, l, r) -> (l.2 = 0 \/ l.2 ∈ m.1) /\ (r.2 = 0 \/ r.2 ∈ m.1)) /\
    (forall j, j <> 0 -> m.2 j = RCMAX \/ indeg (restr (nodes s) m.1) j + rootcnt roots j <= m.2 j) /\
    (forall j, m.2 j <> 0 -> j ∈ m.1) /\
    (forall x f, vtbl s !! x = Some f -> f.2 ∈ m.1 /\ m.2 f.2 = RCMAX).
Proof.
  intros W L. unfold gc_marks.
  destruct (mark_all_spec s W roots (∅, fun _ => 0) L) as (m1&E1&H1&vis&S1&V1). rewrite E1.
  destruct (mark_vars_spec s m1 W) as (m2&E2&S2&H2). exists m2. rewrite E2. split; [done|].
  pose proof (mstep_trans _ _ _ _ _ _ S1 S2) as T.
  assert (forall k, k ∈ m2.1 -> exists v l r, nodes s !! k = Some (v, l, r) /\
      (l.2 = 0 \/ l.2 ∈ m2.1) /\ (r.2 = 0 \/ r.2 ∈ m2.1)) as HC.
  { intros k Hk. apply (ms_closed _ _ _ _ T k Hk). cbn. set_solver. }
  refine (conj _ (conj _ (conj _ (conj _ _)))).
  - intros j. split.
    + intros Hj. destruct (HC j Hj) as (v&l&r&E&_). split; [|by eexists].
      assert (j ∈ m1.1 \/ exists x f, vtbl s !! x = Some f /\ j = f.2) as [H|(x&f&Hx&->)].
      { rewrite <- E2 in Hj. unfold mark_vars in Hj.
        assert (forall p, p ∈ map_to_list (vtbl s) -> vtbl s !! p.1 = Some p.2) as HL.
        { intros [x f] H. by apply elem_of_map_to_list in H. }
        clear -Hj HL. induction (map_to_list (vtbl s)) as [|p ps IH]; [by left|].
        cbn in Hj. apply elem_of_union in Hj as [Hj|Hj].
        - apply elem_of_singleton in Hj as ->. right. exists p.1, p.2. split; [apply HL; left|done].
        - apply IH; [done|]. intros. apply HL. by right. }
      * apply (mark_all_reach _ _ _ _ E1) in H as [H|(f&Hf&Hr)]; [cbn in H; set_solver|].
        exists f. split; [by left|done].
      * exists f. split; [right; by exists x|]. apply reach_refl.
    + intros [(f&Hf&Hr) Hs].
      assert (f.2 = 0 \/ f.2 ∈ m2.1) as H0.
      { destruct Hf as [Hf|[x Hx]]; [|right; by eapply H2].
        destruct (H1 f Hf) as [?|?]; [by left|]. right. by apply (ms_sub _ _ _ _ S2). }
      assert (j = 0 \/ j ∈ m2.1) as [->|?]; [|rewrite (wf_zero _ W) in Hs; by destruct Hs|done].
      clear Hs. pose proof (wf_zero _ W) as Hz. induction Hr as [|j v l r Hr IH E|j v l r Hr IH E]; [done| |].
      * destruct IH as [->|IH]; [congruence|]. destruct (HC j IH) as (v'&l'&r'&E'&Hl&Hr'). congruence.
      * destruct IH as [->|IH]; [congruence|]. destruct (HC j IH) as (v'&l'&r'&E'&Hl&Hr'). congruence.
  - intros k v l r Hk E. destruct (HC k Hk) as (v'&l'&r'&E'&?&?). rewrite E in E'. by injection E' as <- <- <-.
  - intros j Hj. destruct (ms_cnt _ _ _ _ T j Hj) as [H|H]; [by left|]. right.
    cbn [fst snd] in H. rewrite (V1 j Hj) in H. assert (restr (nodes s) ∅ = ∅) as Hr0.
    { apply map_empty. intros k. apply eq_None_not_Some. intros [x E]. apply restr_lookup in E. set_solver. }
    rewrite Hr0, indeg_empty in H. lia.
  - intros j Hj. apply (ms_new _ _ _ _ T) in Hj as [?|?]; done.
  - done.
Qed.

(** ** Sweeping *)
Lemma sweep_WF s m : WF s ->
  (forall j, j ∈ m.1 -> is_Some (nodes s !! j)) ->
  (forall k v l r, k ∈ m.1 -> nodes s !! k = Some (v, l, r) -> (l.2 = 0 \/ l.2 ∈ m.1) /\ (r.2 = 0 \/ r.2 ∈ m.1)) ->
  (forall j, m.2 j <> 0 -> j ∈ m.1) ->
  (forall x f, vtbl s !! x = Some f -> f.2 ∈ m.1) ->
  WF (sweep s m) /\ pext (sweep s m) s.
Proof.
  intros W Hs Hc Hrc Hv.
  assert (forall i n, nodes (sweep s m) !! i = Some n <-> nodes s !! i = Some n /\ i ∈ m.1) as HN.
  { intros i n. cbn. by rewrite map_filter_lookup_Some. }
  assert (pext (sweep s m) s) as P.
  { split_and!; [|done..]. cbn. apply map_filter_subseteq. }
  assert (forall f, live s f -> (f.2 = 0 \/ f.2 ∈ m.1) -> live (sweep s m) f) as HL.
  { intros f [H|[n H]] [H0|H0]; [by left|by left|by left|]. right. exists n. by apply HN. }
  assert (forall f, live (sweep s m) f -> lvl (sweep s m) f = lvl s f) as Hlv.
  { intros f [H|[[[v l] r] E]]; unfold lvl.
    - rewrite H, (wf_zero _ W). destruct (nodes (sweep s m) !! 0) as [n|] eqn:E; [|done].
      apply HN in E as [E _]. by rewrite (wf_zero _ W) in E.
    - rewrite E. apply HN in E as [E _]. by rewrite E. }
  assert (WFn (sweep s m)) as W'.
  { constructor.
    - apply eq_None_not_Some. intros [n E]. apply HN in E as [E _]. by rewrite (wf_zero _ W) in E.
    - intros i v l r E. apply HN in E as [E Hi].
      pose proof (wf_node _ W _ _ _ _ E) as (Hw&?&Hne&Ll&Lr&Ol&Or&?).
      destruct (Hc _ _ _ _ Hi E) as [Hl Hr].
      split_and!; try done; try (by apply HL); rewrite Hlv by (by apply HL); done.
    - intros n i. rewrite HN. cbn. rewrite map_filter_lookup_Some. cbn. by rewrite (wf_uniq _ W).
    - cbn. apply NoDup_app. split_and!.
      + apply NoDup_elements.
      + intros i Hi Hf. apply elem_of_elements, elem_of_difference in Hi as [Hi _].
        apply elem_of_dom in Hi as [n Hi]. apply (wf_free _ W) in Hf as [Hf _]. congruence.
      + apply (wf_nodup _ W).
    - intros i Hi. cbn [free sweep] in Hi. apply elem_of_app in Hi as [Hi|Hi].
      + apply elem_of_elements, elem_of_difference in Hi as [Hi Hm].
        apply elem_of_dom in Hi as [[[v l] r] Hi].
        pose proof (wf_node _ W _ _ _ _ Hi) as (_&_&_&_&_&_&_&Hsz). split_and!; [|by intros ->; rewrite (wf_zero _ W) in Hi|done].
        apply eq_None_not_Some. intros [n E]. by apply HN in E as [_ E].
      + apply (wf_free _ W) in Hi as (Hi&?&?). split_and!; [|done..].
        apply eq_None_not_Some. intros [n E]. apply HN in E as [E _]. congruence.
    - apply (wf_size _ W).
    - apply (wf_ord_lt _ W).
    - apply (wf_ord_inj _ W). }
  split; [|done].
  assert (forall f e, live (sweep s m) f -> sem (sweep s m) e f = sem s e f) as HS.
  { intros f e Lf. symmetry. by apply (pext_sem (sweep s m) s). }
  constructor.
  - done.
  - apply (wf_len _ W).
  - apply (wf_names _ W).
  - intros x f Hx. destruct (wf_vtbl _ W _ _ Hx) as (v&Hn&L&Hsm). exists v. split; [done|].
    assert (live (sweep s m) f) as L' by (apply HL; [done|right; by eapply Hv]).
    split; [done|]. intros e. by rewrite HS.
  - apply (wf_vtbl2 _ W).
  - intros fn f g r Hr. cbn [cache sweep] in Hr. apply map_filter_lookup_Some in Hr as [Hr Hk].
    destruct (wf_cache _ W _ _ _ _ Hr) as (Lf&Lg&Lr&Cs).
    unfold keep_entry in Hk. cbn [fst snd] in Hk. apply andb_prop in Hk as [Hk Hk3]. apply andb_prop in Hk as [Hk1 Hk2].
    assert (forall c : fml, (if decide (c.2 = 0) then true else negb (m.2 c.2 =? 0)) = true -> c.2 = 0 \/ c.2 ∈ m.1) as HK.
    { intros c. destruct (decide (c.2 = 0)); [by left|]. intros H. right. apply Hrc.
      intros H0. rewrite H0 in H. done. }
    assert (live (sweep s m) f) as Lf' by (by apply HL, HK).
    assert (live (sweep s m) g) as Lg' by (by apply HL, HK).
    assert (live (sweep s m) r) as Lr' by (by apply HL, HK).
    split_and!; [done..|].
    pose proof (fun e => HS f e Lf') as Ef. pose proof (fun e => HS r e Lr') as Er.
    pose proof (fun e => HS g e Lg') as Eg.
    assert (chain (sweep s m) g = chain s g) as Ec by (symmetry; by apply (ext_chain (sweep s m) s); [..|apply pext_ext|]).
    destruct Cs as [[Ht Hx]|[[Ht Hx]|[[Ht Hx]|[Ht Hx]]]].
    + left. split; [done|]. intros e. by rewrite Ef, Eg, Er.
    + right. left. split; [done|]. intros e. rewrite Er, Ec, Hx. apply qvars_ext. intros. by rewrite Ef.
    + right. right. left. split; [done|]. intros e. rewrite Er, Ec, Hx. apply qvars_ext. intros. by rewrite Ef.
    + right. right. right. split; [done|]. destruct Hx as (vs&Hvs&Hx). exists vs. split.
      * intros v. rewrite Hvs. split; apply dep_ext; intros; by rewrite Ef.
      * intros e. by rewrite Er.
Qed.

(** References from outside that a reference count must cover. *)
Definition rcok (s : bst) (rc : N -> N) (ext : N -> N) : Prop :=
  forall j, is_Some (nodes s !! j) -> rc j <> 0 /\
    (rc j = RCMAX \/ indeg (nodes s) j + ext j <= rc j).

Lemma gc_spec s roots : WF s -> (forall f, f ∈ roots -> live s f) ->
  exists s' rc, gc s roots = Some (s', rc) /\ WF s' /\ pext s' s /\
    (forall f, f ∈ roots -> live s' f) /\
    (forall j, is_Some (nodes s' !! j) <-> rooted s roots j /\ is_Some (nodes s !! j)) /\
    rcok s' rc (rootcnt roots) /\ (forall x f, vtbl s !! x = Some f -> rc f.2 = RCMAX).
Proof.
  intros W L. unfold gc. destruct (gc_marks_spec s roots W L) as (m&E&Hm&Hc&Hrc&Hnz&Hv). rewrite E.
  destruct (sweep_WF s m W) as [W' P]; [intros j Hj; by apply Hm|done|done|by intros x f H; apply (Hv x f)|].
  exists (sweep s m), m.2.
  assert (forall j n, nodes (sweep s m) !! j = Some n <-> nodes s !! j = Some n /\ j ∈ m.1) as HN.
  { intros i n. cbn. by rewrite map_filter_lookup_Some. }
  refine (conj eq_refl (conj W' (conj P (conj _ (conj _ (conj _ _)))))).
  - intros f Hf. destruct (L f Hf) as [H|H]; [by left|]. right. destruct H as [n En]. exists n. apply HN.
    split; [done|]. apply Hm. split; [|by eexists]. exists f. split; [by left|apply reach_refl].
  - intros j. split.
    + intros [n En]. apply HN in En as [_ Hj]. by apply Hm.
    + intros Hj. destruct (Hj) as [_ [n En]]. exists n. apply HN. split; [done|]. by apply Hm.
  - intros j [n En]. apply HN in En as [En Hj].
    assert (j <> 0) as Hj0. { intros ->. by rewrite (wf_zero _ W) in En. }
    assert (m.2 j = RCMAX \/ indeg (nodes (sweep s m)) j + rootcnt roots j <= m.2 j) as HH by (apply (Hrc j Hj0)).
    split; [|done].
    (* a marked node has been counted at least once *)
    destruct HH as [HH|HH]; [rewrite HH; done|].
    assert (0 < indeg (nodes (sweep s m)) j + rootcnt roots j \/ m.2 j = RCMAX) as [Hp|Hp]; [|lia|rewrite Hp; done].
    apply Hm in Hj as [(f&Hf&Hr) _].
    assert (forall i n, i ∈ m.1 -> nodes s !! i = Some n -> edges n j <> 0 -> 0 < indeg (nodes (sweep s m)) j) as HE.
    { intros i n' Hi Ei He. pose proof (indeg_pos (nodes (sweep s m)) i n' j) as Hp.
      specialize (Hp (proj2 (HN i n') (conj Ei Hi))). lia. }
    inversion Hr as [|i v l r Hr' Ei|i v l r Hr' Ei]; subst.
    + destruct Hf as [Hf|[x Hx]]; [left|right; by eapply Hv].
      enough (0 < rootcnt roots f.2) by lia. clear -Hf. induction roots as [|g gs IH]; [by apply elem_of_nil in Hf|].
      apply elem_of_cons in Hf as [->|Hf]; cbn.
      * rewrite N.eqb_refl. cbn. lia.
      * apply IH in Hf. unfold rootcnt in Hf. cbn. lia.
    + left. enough (0 < indeg (nodes (sweep s m)) l.2) by lia. eapply (HE i); [|done|].
      * apply Hm. split; [|by eexists]. by exists f.
      * unfold edges. cbn. rewrite N.eqb_refl. cbn. lia.
    + left. enough (0 < indeg (nodes (sweep s m)) r.2) by lia. eapply (HE i); [|done|].
      * apply Hm. split; [|by eexists]. by exists f.
      * unfold edges. cbn. rewrite N.eqb_refl. destruct (_ =? _); cbn; lia.
  - intros x f Hx. by eapply Hv.
Qed.
