(** Invariant of the BDD manager, meaning of formulas, canonicity. *)
From stdpp Require Import gmap strings list.
From Coq Require Import NArith Lia.
From Verif Require Import BddModel.
Open Scope N_scope.

Definition live (s : bst) (f : fml) : Prop := f.2 = 0 \/ is_Some (nodes s !! f.2).

(** Level of a formula: position of its top variable; constants are below all. *)
Definition lvl (s : bst) (f : fml) : N :=
  match nodes s !! f.2 with Some (v, _, _) => ORDER s v | None => nvars s end.

(** Variables met when following low sons only; this is how [quantify] reads
    its variable-set argument. *)
Fixpoint chainf (n : nat) (nd : gmap N node) (i : N) : list N :=
  match n with
  | O => []
  | S n => match nd !! i with Some (v, l, _) => v :: chainf n nd l.2 | None => [] end
  end.
Definition chain (s : bst) (f : fml) : list N := chainf (length (ord s)) (nodes s) f.2.

(** Quantification over a list of variables, on functions. *)
Fixpoint qvars (op : bool -> bool -> bool) (vs : list N) (P : env -> bool) (e : env) : bool :=
  match vs with
  | [] => P e
  | v :: vs => op (qvars op vs P (upd e v true)) (qvars op vs P (upd e v false))
  end.
Notation all_vars := (qvars andb).
Notation some_vars := (qvars orb).

(** [P] depends on variable [v]. *)
Definition dep (P : env -> bool) (v : N) : Prop :=
  exists e, P (upd e v true) <> P (upd e v false).

Definition opsem (fn : N) (a b : bool) : bool :=
  if decide (fn = tAND) then a && b else
  if decide (fn = tOR) then a || b else xorb a b.

(** What a cache entry must mean. *)
Definition cache_sem (s : bst) (fn : N) (f g r : fml) : Prop :=
  ((fn = tAND \/ fn = tOR \/ fn = tXOR) /\
     forall e, sem s e r = opsem fn (sem s e f) (sem s e g)) \/
  (fn = tUNIVERSAL /\ forall e, sem s e r = all_vars (chain s g) (fun e => sem s e f) e) \/
  (fn = tEXISTENTIAL /\ forall e, sem s e r = some_vars (chain s g) (fun e => sem s e f) e) \/
  (fn = tDEPENDS /\ exists vs, (forall v, v ∈ vs <-> dep (fun e => sem s e f) v) /\
      forall e, sem s e r = forallb e vs).

Record WFn (s : bst) : Prop := {
  wf_zero : nodes s !! 0 = None;
  wf_node : forall i v l r, nodes s !! i = Some (v, l, r) ->
      v < nvars s /\ l.1 = false /\ l <> r /\ live s l /\ live s r /\
      ORDER s v < lvl s l /\ ORDER s v < lvl s r /\ i < size s;
  wf_uniq : forall n i, uniq s !! n = Some i <-> nodes s !! i = Some n;
  wf_nodup : NoDup (free s);
  wf_free : forall i, i ∈ free s -> nodes s !! i = None /\ i <> 0 /\ i < size s;
  wf_size : 0 < size s;
  wf_ord_lt : forall v, v < nvars s -> ORDER s v < nvars s;
  wf_ord_inj : forall v w, v < nvars s -> w < nvars s -> ORDER s v = ORDER s w -> v = w
}.

Record WF (s : bst) : Prop := {
  wf_n :> WFn s;
  wf_len : length (vnames s) = length (ord s);
  wf_names : NoDup (vnames s);
  wf_vtbl : forall x f, vtbl s !! x = Some f ->
      exists v, vnames s !! N.to_nat v = Some x /\ live s f /\ forall e, sem s e f = e v;
  wf_vtbl2 : forall x, x ∈ vnames s -> is_Some (vtbl s !! x);
  wf_cache : forall fn f g r, cache s !! (fn, f, g) = Some r ->
      live s f /\ live s g /\ live s r /\ cache_sem s fn f g r
}.

Global Hint Extern 0 (WFn _) => apply wf_n; assumption : core.

(** ** Basic facts *)

Lemma upd_eq e v b : upd e v b v = b.
Proof. unfold upd. by rewrite decide_True. Qed.
Lemma upd_ne e v b w : w <> v -> upd e v b w = e w.
Proof. intros. unfold upd. by rewrite decide_False. Qed.

Lemma ORDER_lt_nvars s v : WFn s -> v < nvars s -> ORDER s v < nvars s.
Proof. intros H. apply (wf_ord_lt _ H). Qed.

Lemma lvl_le s f : WFn s -> lvl s f <= nvars s.
Proof.
  intros H. unfold lvl. destruct (nodes s !! f.2) as [[[v l] r]|] eqn:E; [|lia].
  apply (wf_node _ H) in E as (Hv&_). pose proof (ORDER_lt_nvars _ _ H Hv). lia.
Qed.

Lemma lvl_node s n i v l r : nodes s !! i = Some (v, l, r) -> lvl s (n, i) = ORDER s v.
Proof. unfold lvl. cbn. by intros ->. Qed.

Lemma lvl_bnot s f : lvl s (bnot f) = lvl s f.
Proof. done. Qed.
Lemma live_bnot s f : live s (bnot f) <-> live s f.
Proof. done. Qed.
Lemma live_const s b : live s (b, 0).
Proof. by left. Qed.

Lemma bnot_inv f : bnot (bnot f) = f.
Proof. destruct f as [[] ?]; done. Qed.

Lemma live_cases s f : live s f -> f.2 = 0 \/ exists v l r, nodes s !! f.2 = Some (v, l, r).
Proof. intros [H|[[[v l] r] H]]; [by left|]. right. eauto. Qed.

Lemma walk_mono nd e n : forall i b m, walk n nd e i = Some b -> (n <= m)%nat -> walk m nd e i = Some b.
Proof.
  induction n as [|n IH]; intros i b m; [done|].
  destruct m as [|m]; [lia|]. cbn. destruct (decide (i = 0)); [done|].
  destruct (nd !! i) as [[[v l] r]|]; [|discriminate].
  destruct (walk n nd e (sel (e v) l r).2) as [c|] eqn:E; intros Hw Hle; [|congruence].
  injection Hw as <-. rewrite (IH _ _ m E); [done|lia].
Qed.

Lemma walk_total s e n : WFn s -> forall i, (i = 0 \/ is_Some (nodes s !! i)) ->
  (N.to_nat (nvars s - lvl s (false, i)) < n)%nat -> is_Some (walk n (nodes s) e i).
Proof.
  intros W. induction n as [|n IH]; intros i Hl Hn; [lia|].
  cbn. destruct (decide (i = 0)) as [|Hi]; [eauto|].
  destruct Hl as [?|[[[v l] r] E]]; [done|]. rewrite E.
  pose proof (wf_node _ W _ _ _ _ E) as (Hv&_&_&Ll&Lr&Ol&Or&_).
  rewrite (lvl_node _ _ _ _ _ _ E) in Hn.
  pose proof (ORDER_lt_nvars _ _ W Hv).
  assert (is_Some (walk n (nodes s) e (sel (e v) l r).2)) as [b ->]; [|eauto].
  apply IH.
  - destruct (e v); cbn; [apply Ll|apply Lr].
  - assert (lvl s (false, (sel (e v) l r).2) = lvl s (sel (e v) l r)) as -> by done.
    pose proof (lvl_le s (sel (e v) l r) W). destruct (e v); cbn in *; lia.
Qed.

Lemma walk_sem s e i : WFn s -> live s (false, i) ->
  walk (S (length (ord s))) (nodes s) e i = Some (sem s e (false, i)).
Proof.
  intros W L. destruct (walk_total s e (S (length (ord s))) W i L) as [b Hb].
  - pose proof (lvl_le s (false, i) W). unfold nvars. lia.
  - unfold sem. cbn [snd fst]. rewrite Hb. by destruct b.
Qed.

Lemma sem_neg s e b i : WFn s -> live s (b, i) -> sem s e (b, i) = xorb b (sem s e (false, i)).
Proof.
  intros W L. unfold sem. cbn [fst snd].
  rewrite (walk_sem s e i W L). by destruct b, (sem s e (false, i)).
Qed.

Lemma sem_bnot s e f : WFn s -> live s f -> sem s e (bnot f) = negb (sem s e f).
Proof.
  intros W L. destruct f as [b i]. unfold bnot. cbn [fst snd].
  rewrite (sem_neg s e (negb b)), (sem_neg s e b); [|done|done|done|done].
  by destruct b, (sem s e (false, i)).
Qed.

Lemma sem_const s e b : sem s e (b, 0) = b.
Proof. unfold sem. cbn. by destruct b. Qed.
Lemma sem_ZERO s e : sem s e ZERO = false.
Proof. apply sem_const. Qed.
Lemma sem_ONE s e : sem s e ONE = true.
Proof. apply sem_const. Qed.

Lemma sem_pos_node s e i v l r : WFn s -> nodes s !! i = Some (v, l, r) ->
  sem s e (false, i) = if e v then sem s e l else sem s e r.
Proof.
  intros W E. pose proof (wf_node _ W _ _ _ _ E) as (Hv&_&_&Ll&Lr&Ol&Or&_).
  assert (i <> 0) as Hi. { intros ->. rewrite (wf_zero _ W) in E. done. }
  set (c := sel (e v) l r).
  assert (live s c) as Lc by (unfold c; by destruct (e v)).
  assert (sem s e (false, i) = sem s e c) as ->; [|unfold c; by destruct (e v)].
  destruct (walk_total s e (length (ord s)) W c.2 Lc) as [b Hb].
  { pose proof (ORDER_lt_nvars _ _ W Hv). pose proof (lvl_le s c W).
    assert (lvl s (false, c.2) = lvl s c) as -> by done.
    assert (ORDER s v < lvl s c) by (unfold c; by destruct (e v)).
    unfold nvars in *. lia. }
  unfold sem. cbn [fst snd].
  rewrite (walk_mono _ _ _ _ _ (S (length (ord s))) Hb); [|lia].
  cbn [walk]. rewrite decide_False by done. rewrite E. fold c. rewrite Hb.
  by destruct c.1, b.
Qed.

Lemma sem_node s e n i v l r : WFn s -> nodes s !! i = Some (v, l, r) ->
  sem s e (n, i) = xorb n (if e v then sem s e l else sem s e r).
Proof.
  intros W E. rewrite sem_neg; [|done|right; cbn; rewrite E; eauto].
  by rewrite (sem_pos_node _ _ _ _ _ _ W E).
Qed.

(** Induction on the distance to the constants. *)
Lemma lvl_ind s (P : fml -> Prop) : WFn s ->
  (forall b, P (b, 0)) ->
  (forall n i v l r, nodes s !! i = Some (v, l, r) -> P l -> P r -> P (n, i)) ->
  forall f, live s f -> P f.
Proof.
  intros W H0 HN.
  assert (forall k f, (N.to_nat (nvars s - lvl s f) < k)%nat -> live s f -> P f) as H.
  { induction k as [|k IH]; intros f Hk L; [lia|].
    destruct f as [n i]. destruct (live_cases _ _ L) as [E|(v&l&r&E)]; cbn in E.
    - rewrite E. apply H0.
    - pose proof (wf_node _ W _ _ _ _ E) as (Hv&_&_&Ll&Lr&Ol&Or&_).
      rewrite (lvl_node _ _ _ _ _ _ E) in Hk.
      pose proof (ORDER_lt_nvars _ _ W Hv).
      apply (HN n i v l r E); apply IH; try done;
        [pose proof (lvl_le s l W)|pose proof (lvl_le s r W)]; lia. }
  intros f L. eapply H; [|done]. apply Nat.lt_succ_diag_r.
Qed.

(** A formula does not depend on variables above its level. *)
Lemma sem_upd_above s v b : WFn s -> v < nvars s -> forall f, live s f ->
  ORDER s v < lvl s f -> forall e, sem s (upd e v b) f = sem s e f.
Proof.
  intros W Hv. refine (lvl_ind s _ W _ _).
  - intros c _ e. by rewrite !sem_const.
  - intros n i w l r E IHl IHr Hlt e.
    pose proof (wf_node _ W _ _ _ _ E) as (Hw&_&_&Ll&Lr&Ol&Or&_).
    rewrite (lvl_node _ _ _ _ _ _ E) in Hlt.
    rewrite !(sem_node _ _ _ _ _ _ _ W E).
    rewrite upd_ne by (intros ->; lia).
    rewrite IHl, IHr; [done|lia|lia].
Qed.

(** The meaning only depends on declared variables. *)
Lemma sem_env_ext s e e' : WFn s -> (forall v, v < nvars s -> e v = e' v) ->
  forall f, live s f -> sem s e f = sem s e' f.
Proof.
  intros W He. refine (lvl_ind s _ W _ _).
  - intros c. by rewrite !sem_const.
  - intros n i w l r E IHl IHr.
    pose proof (wf_node _ W _ _ _ _ E) as (Hw&_&_&Ll&Lr&Ol&Or&_).
    rewrite !(sem_node _ _ _ _ _ _ _ W E). by rewrite He, IHl, IHr.
Qed.

Lemma upd_same e v b w : e v = b -> upd e v b w = e w.
Proof. intros <-. unfold upd. by destruct (decide (w = v)) as [->|]. Qed.

Lemma sem_upd_same s e v f : WFn s -> live s f -> sem s (upd e v (e v)) f = sem s e f.
Proof. intros W L. apply sem_env_ext; [done| |done]. intros w _. by apply upd_same. Qed.

(** The sign of a formula is its value on the all-true assignment. *)
Lemma sem_alltrue s : WFn s -> forall f, live s f -> sem s (fun _ => true) f = f.1.
Proof.
  intros W. refine (lvl_ind s _ W _ _).
  - intros b. by rewrite sem_const.
  - intros n i v l r E IHl IHr. rewrite (sem_node _ _ _ _ _ _ _ W E).
    pose proof (wf_node _ W _ _ _ _ E) as (_&Hl&_). cbn. rewrite IHl, Hl. by destruct n.
Qed.

(** Cofactors of a formula whose top variable is [v]. *)
Lemma sem_cof s e n i v l r : WFn s -> nodes s !! i = Some (v, l, r) ->
  sem s (upd e v true) (n, i) = xorb n (sem s e l) /\
  sem s (upd e v false) (n, i) = xorb n (sem s e r).
Proof.
  intros W E. pose proof (wf_node _ W _ _ _ _ E) as (Hv&_&_&Ll&Lr&Ol&Or&_).
  rewrite !(sem_node _ _ _ _ _ _ _ W E), !upd_eq.
  by rewrite (sem_upd_above s v true W Hv l), (sem_upd_above s v false W Hv r).
Qed.

Lemma lvl_pos s f : lvl s (pos f) = lvl s f.
Proof. done. Qed.

(** ** Canonicity *)
Lemma canonical s : WFn s -> forall f g, live s f -> live s g ->
  (forall e, sem s e f = sem s e g) -> f = g.
Proof.
  intros W.
  assert (forall k f g, (N.to_nat (nvars s - lvl s f) < k)%nat ->
    (N.to_nat (nvars s - lvl s g) < k)%nat ->
    live s f -> live s g -> (forall e, sem s e f = sem s e g) -> f = g) as H.
  { induction k as [|k IH]; intros [nf i] [ng j] Hkf Hkg Lf Lg He; [lia|].
    assert (nf = ng) as ->.
    { pose proof (He (fun _ => true)) as E.
      rewrite (sem_alltrue s W _ Lf), (sem_alltrue s W _ Lg) in E. done. }
    assert (forall n i0 v l r g, nodes s !! i0 = Some (v, l, r) -> live s g ->
      ORDER s v < lvl s g ->
      (N.to_nat (nvars s - lvl s (n, i0)) < S k)%nat ->
      ~ (forall e, sem s e (n, i0) = sem s e g)) as Hcontra.
    { clear -W IH. intros n i v l r g E Lg Hlt Hk He.
      pose proof (wf_node _ W _ _ _ _ E) as (Hv&_&Hne&Ll&Lr&Ol&Or&_).
      apply Hne.
      assert (forall e, sem s e l = sem s e r) as Heq.
      { intros e. pose proof (He (upd e v true)) as E1. pose proof (He (upd e v false)) as E2.
        rewrite (sem_upd_above s v _ W Hv g Lg Hlt) in E1. rewrite (sem_upd_above s v _ W Hv g Lg Hlt) in E2.
        destruct (sem_cof s e n i v l r W E) as [C1 C2]. rewrite C1 in E1. rewrite C2 in E2.
        destruct n, (sem s e l), (sem s e r), (sem s e g); done. }
      rewrite (lvl_node _ _ _ _ _ _ E) in Hk.
      pose proof (lvl_le s l W). pose proof (lvl_le s r W).
      pose proof (ORDER_lt_nvars _ _ W Hv).
      apply IH; [lia|lia|done|done|done]. }
    destruct (live_cases _ _ Lf) as [Ei|(v&l&r&Ei)]; cbn in Ei;
    destruct (live_cases _ _ Lg) as [Ej|(w&l'&r'&Ej)]; cbn in Ej.
    - by subst.
    - subst i. exfalso. eapply (Hcontra ng j w l' r' (ng, 0)); [done|done| |done|by intros; rewrite He].
      unfold lvl. cbn. rewrite (wf_zero _ W). apply ORDER_lt_nvars; [done|].
      by apply (wf_node _ W) in Ej as (?&_).
    - subst j. exfalso. eapply (Hcontra ng i v l r (ng, 0)); [done|done| |done|done].
      unfold lvl. cbn. rewrite (wf_zero _ W). apply ORDER_lt_nvars; [done|].
      by apply (wf_node _ W) in Ei as (?&_).
    - pose proof (wf_node _ W _ _ _ _ Ei) as (Hv&_&Hne&Ll&Lr&Ol&Or&_).
      pose proof (wf_node _ W _ _ _ _ Ej) as (Hw&_&Hne'&Ll'&Lr'&Ol'&Or'&_).
      destruct (N.lt_trichotomy (ORDER s v) (ORDER s w)) as [Hlt|[Heq|Hlt]].
      + exfalso. eapply (Hcontra ng i v l r (ng, j)); [done|done| |done|done].
        by rewrite (lvl_node _ _ _ _ _ _ Ej).
      + assert (v = w) as -> by (by apply (wf_ord_inj _ W)).
        assert (l = l' /\ r = r') as [-> ->].
        { rewrite (lvl_node _ _ _ _ _ _ Ei) in Hkf.
          pose proof (lvl_le s l W). pose proof (lvl_le s r W).
          pose proof (lvl_le s l' W). pose proof (lvl_le s r' W).
          pose proof (ORDER_lt_nvars _ _ W Hv).
          split; (apply IH; [lia|lia|done|done|]); intros e.
          - destruct (sem_cof s e ng i w l r W Ei) as [C1 _].
            destruct (sem_cof s e ng j w l' r' W Ej) as [C2 _].
            rewrite He in C1. rewrite C1 in C2. by destruct ng, (sem s e l), (sem s e l').
          - destruct (sem_cof s e ng i w l r W Ei) as [_ C1].
            destruct (sem_cof s e ng j w l' r' W Ej) as [_ C2].
            rewrite He in C1. rewrite C1 in C2. by destruct ng, (sem s e r), (sem s e r'). }
        f_equal. apply (wf_uniq _ W) in Ei. apply (wf_uniq _ W) in Ej. congruence.
      + exfalso. eapply (Hcontra ng j w l' r' (ng, i)); [done|done| |done|by intros; rewrite He].
        by rewrite (lvl_node _ _ _ _ _ _ Ei). }
  intros f g Lf Lg He.
  apply (H (S (N.to_nat (nvars s - lvl s f) + N.to_nat (nvars s - lvl s g)))); [lia|lia|done|done|done].
Qed.

(** A function independent of all variables above position [k] has level at
    least [k]. *)
Lemma lvl_ge s f k : WFn s -> live s f -> k <= nvars s ->
  (forall v, v < nvars s -> ORDER s v < k -> forall e b, sem s (upd e v b) f = sem s e f) ->
  k <= lvl s f.
Proof.
  intros W L Hk Hind. destruct f as [n i].
  destruct (live_cases _ _ L) as [E|(v&l&r&E)]; cbn in E.
  - subst. unfold lvl. cbn. by rewrite (wf_zero _ W).
  - destruct (N.le_gt_cases k (lvl s (n, i))) as [|Hlt]; [done|].
    pose proof (wf_node _ W _ _ _ _ E) as (Hv&_&Hne&Ll&Lr&Ol&Or&_).
    rewrite (lvl_node _ _ _ _ _ _ E) in Hlt. exfalso. apply Hne.
    apply (canonical s W); [done|done|]. intros e.
    destruct (sem_cof s e n i v l r W E) as [C1 C2].
    rewrite Hind in C1 by done. rewrite Hind in C2 by done.
    rewrite C1 in C2. by destruct n, (sem s e l), (sem s e r).
Qed.

(** ** Extension of a state: old nodes, variables and names persist. *)
Definition ext (s s' : bst) : Prop :=
  nodes s ⊆ nodes s' /\ ord s `prefix_of` ord s' /\ vnames s `prefix_of` vnames s' /\
  vtbl s ⊆ vtbl s'.

Lemma ext_refl s : ext s s.
Proof. split_and!; done. Qed.
Lemma ext_trans s1 s2 s3 : ext s1 s2 -> ext s2 s3 -> ext s1 s3.
Proof. intros (?&?&?&?) (?&?&?&?). split_and!; by etrans. Qed.

Lemma ext_nvars s s' : ext s s' -> nvars s <= nvars s'.
Proof. intros (_&H&_). apply prefix_length in H. unfold nvars. lia. Qed.

Lemma ext_ORDER s s' v : ext s s' -> v < nvars s -> ORDER s' v = ORDER s v.
Proof.
  intros (_&[k H]&_) Hv. unfold ORDER, nvars in *. rewrite H.
  rewrite app_nth1; [done|lia].
Qed.

Lemma ext_live s s' f : ext s s' -> live s f -> live s' f.
Proof.
  intros (H&_) [?|[n E]]; [by left|]. right. exists n.
  by eapply lookup_weaken.
Qed.

Lemma ext_lvl s s' f : WFn s -> WFn s' -> ext s s' -> live s f -> lvl s f <= lvl s' f.
Proof.
  intros W W' H L. unfold lvl.
  destruct (nodes s !! f.2) as [[[v l] r]|] eqn:E.
  - rewrite (lookup_weaken _ _ _ _ E (proj1 H)).
    apply (wf_node _ W) in E as (Hv&_). by rewrite (ext_ORDER _ _ _ H Hv).
  - destruct L as [L|[? L]]; [|by rewrite L in E].
    rewrite L, (wf_zero _ W'). by apply ext_nvars.
Qed.

Lemma ext_sem s s' : WFn s -> WFn s' -> ext s s' -> forall f, live s f ->
  forall e, sem s' e f = sem s e f.
Proof.
  intros W W' H. refine (lvl_ind s _ W _ _).
  - intros b e. by rewrite !sem_const.
  - intros n i v l r E IHl IHr e. rewrite (sem_node _ _ _ _ _ _ _ W E).
    assert (nodes s' !! i = Some (v, l, r)) as E' by (by eapply lookup_weaken; [|apply H]).
    rewrite (sem_node _ _ _ _ _ _ _ W' E'). by rewrite IHl, IHr.
Qed.

Lemma chainf_fuel s : WFn s -> forall f, live s f -> forall n m,
  (N.to_nat (nvars s - lvl s f) <= n)%nat -> (N.to_nat (nvars s - lvl s f) <= m)%nat ->
  chainf n (nodes s) f.2 = chainf m (nodes s) f.2.
Proof.
  intros W. refine (lvl_ind s _ W _ _).
  - intros b n m _ _. cbn. destruct n, m; cbn; by rewrite ?(wf_zero _ W).
  - intros k i v l r E IHl _ n m Hn Hm. cbn.
    rewrite (lvl_node _ _ _ _ _ _ E) in Hn, Hm.
    pose proof (wf_node _ W _ _ _ _ E) as (Hv&_&Hne&Ll&Lr&Ol&Or&_).
    pose proof (ORDER_lt_nvars _ _ W Hv). pose proof (lvl_le s l W).
    destruct n as [|n]; [lia|]. destruct m as [|m]; [lia|]. cbn. rewrite E. f_equal.
    apply IHl; lia.
Qed.

Lemma chain_zero s n : WFn s -> chain s (n, 0) = [].
Proof. intros W. unfold chain. cbn. destruct (length (ord s)); [done|]. cbn. by rewrite (wf_zero _ W). Qed.

Lemma chain_node s n i v l r : WFn s -> nodes s !! i = Some (v, l, r) ->
  chain s (n, i) = v :: chain s l.
Proof.
  intros W E. pose proof (wf_node _ W _ _ _ _ E) as (Hv&_&Hne&Ll&Lr&Ol&Or&_).
  pose proof (ORDER_lt_nvars _ _ W Hv). pose proof (lvl_le s l W).
  unfold chain. cbn [fst snd]. destruct (length (ord s)) as [|k] eqn:El.
  - unfold nvars in *. lia.
  - cbn [chainf]. rewrite E. f_equal. change (chainf k (nodes s) l.2 = chainf (S k) (nodes s) l.2).
    apply (chainf_fuel s W); [done| |]; unfold nvars in *; lia.
Qed.

Lemma ext_chain s s' : WFn s -> WFn s' -> ext s s' -> forall f, live s f ->
  chain s' f = chain s f.
Proof.
  intros W W' H. refine (lvl_ind s _ W _ _).
  - intros b. by rewrite !chain_zero.
  - intros n i v l r E IHl _.
    assert (nodes s' !! i = Some (v, l, r)) as E' by (by eapply lookup_weaken; [|apply H]).
    rewrite (chain_node _ _ _ _ _ _ W E), (chain_node _ _ _ _ _ _ W' E'). by f_equal.
Qed.

Lemma qvars_ext op vs P Q e : (forall e, P e = Q e) -> qvars op vs P e = qvars op vs Q e.
Proof. intros H. revert e. induction vs as [|v vs IH]; intros e; cbn; [apply H|]. by rewrite !IH. Qed.
Lemma dep_ext P Q v : (forall e, P e = Q e) -> dep P v -> dep Q v.
Proof. intros H [e He]. exists e. by rewrite <- !H. Qed.

Lemma cache_sem_ext s s' fn f g r : WFn s -> WFn s' -> ext s s' ->
  live s f -> live s g -> live s r -> cache_sem s fn f g r -> cache_sem s' fn f g r.
Proof.
  intros W W' H Lf Lg Lr.
  pose proof (ext_sem s s' W W' H _ Lf) as Ef. pose proof (ext_sem s s' W W' H _ Lg) as Eg.
  pose proof (ext_sem s s' W W' H _ Lr) as Er. pose proof (ext_chain s s' W W' H _ Lg) as Ec.
  intros [[Ht Hc]|[[Ht Hc]|[[Ht Hc]|[Ht Hc]]]].
  - left. split; [done|]. intros e. by rewrite Ef, Eg, Er.
  - right. left. split; [done|]. intros e. rewrite Er, Ec, Hc. apply qvars_ext. intros. by rewrite Ef.
  - right. right. left. split; [done|]. intros e. rewrite Er, Ec, Hc. apply qvars_ext. intros. by rewrite Ef.
  - right. right. right. split; [done|]. destruct Hc as (vs&Hvs&Hc). exists vs. split.
    + intros v. rewrite Hvs. split; apply dep_ext; intros; by rewrite Ef.
    + intros e. by rewrite Er.
Qed.
