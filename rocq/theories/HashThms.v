(* Proofs about the chained hash tables. *)
From Coq Require Import List NArith Bool Lia Permutation Arith.
From Verif Require Import HashModel.
Import ListNotations.
Local Open Scope N_scope.

Lemma perm_filter {A} (f : A -> bool) l l' :
  Permutation l l' -> Permutation (filter f l) (filter f l').
Proof.
  induction 1; cbn; auto.
  - destruct (f x); auto.
  - destruct (f x), (f y); auto. constructor.
  - eapply Permutation_trans; eauto.
Qed.

Lemma first_prime_some size : size <= 2147483629 ->
  exists p, first_prime primes size = Some p /\ 0 < p.
Proof.
  intros L.
  assert (G : forall l, Forall (fun p => 0 < p) l -> (exists q, In q l /\ size <= q) ->
    exists p, first_prime l size = Some p /\ 0 < p).
  { induction l as [|p l IH]; intros F (q & I & Lq); [destruct I|].
    inversion F; subst. cbn. destruct (N.ltb_spec p size).
    - apply IH; auto. destruct I as [->|I]; [lia|]. exists q. auto.
    - exists p. auto. }
  apply G.
  - repeat constructor.
  - exists 2147483629. split; [|assumption]. unfold primes. repeat (try (left; reflexivity); right).
Qed.

Section Thms.
Context {K : Type} (hash_fn : K -> N -> N) (hash_eq : K -> K -> bool).
Hypothesis G : good_hash hash_fn hash_eq.

Notation tab_t := (list (list (K * N))).

Lemma eq_flip k1 k2 : hash_eq k1 k2 = hash_eq k2 k1.
Proof.
  destruct (hash_eq k1 k2) eqn:E; destruct (hash_eq k2 k1) eqn:F; auto.
  - apply (gh_sym _ _ G) in E. congruence.
  - apply (gh_sym _ _ G) in F. congruence.
Qed.
Lemma eq_cong k k1 k2 : hash_eq k1 k2 = true -> hash_eq k k1 = hash_eq k k2.
Proof.
  intros E. destruct (hash_eq k k1) eqn:A, (hash_eq k k2) eqn:B; auto.
  - rewrite (gh_trans _ _ G k k1 k2) in B by assumption. discriminate.
  - apply (gh_sym _ _ G) in E. rewrite (gh_trans _ _ G k k2 k1) in A by assumption. discriminate.
Qed.

Lemma push_chain_spec (tab : tab_t) i e : (i < length tab)%nat ->
  exists tab', push_chain tab i e = Some tab' /\ length tab' = length tab /\
    Permutation (concat tab') (e :: concat tab) /\
    forall j, nth_error tab' j =
      if Nat.eqb j i then option_map (cons e) (nth_error tab j) else nth_error tab j.
Proof.
  revert i; induction tab as [|c tab IH]; intros [|i] L; cbn in L; try lia; cbn.
  - eexists. split; [reflexivity|]. split; [reflexivity|]. split; [apply Permutation_refl|].
    intros [|j]; reflexivity.
  - destruct (IH i) as (tab' & E & L' & P & N); [lia|]. rewrite E. eexists. split; [reflexivity|].
    split; [cbn; congruence|]. split.
    + cbn. eapply Permutation_trans; [apply Permutation_app_head, P|].
      apply Permutation_sym, Permutation_middle.
    + intros [|j]; [reflexivity|]. cbn. apply N.
Qed.

Definition placed (n : N) (tab : tab_t) : Prop :=
  forall i c, nth_error tab i = Some c ->
    Forall (fun kd => N.to_nat (hash_fn (fst kd) n) = i) c.

Lemma hash_in k n : 0 < n -> (N.to_nat (hash_fn k n) < N.to_nat n)%nat.
Proof. intros L. pose proof (gh_range _ _ G k n L). lia. Qed.

Lemma push_placed n (tab : tab_t) k d :
  0 < n -> length tab = N.to_nat n -> placed n tab ->
  exists tab', push_chain tab (N.to_nat (hash_fn k n)) (k, d) = Some tab' /\
    length tab' = N.to_nat n /\ placed n tab' /\
    Permutation (concat tab') ((k, d) :: concat tab).
Proof.
  intros L Lt P. destruct (push_chain_spec tab (N.to_nat (hash_fn k n)) (k, d)) as (tab' & E & L' & Pm & N).
  { rewrite Lt. now apply hash_in. }
  exists tab'. split; [assumption|]. split; [congruence|]. split; [|assumption].
  intros j c Ej. rewrite N in Ej. destruct (Nat.eqb_spec j (N.to_nat (hash_fn k n))) as [->|_].
  - destruct (nth_error tab (N.to_nat (hash_fn k n))) as [c0|] eqn:E0; [|discriminate].
    injection Ej as <-. constructor; [reflexivity|]. now apply P.
  - now apply P.
Qed.

Lemma move_chain_spec n c : forall tab : tab_t,
  0 < n -> length tab = N.to_nat n -> placed n tab ->
  exists tab', move_chain hash_fn n c tab = Some tab' /\
    length tab' = N.to_nat n /\ placed n tab' /\
    Permutation (concat tab') (c ++ concat tab).
Proof.
  induction c as [|[k d] c IH]; intros tab L Lt P; cbn.
  - exists tab. auto.
  - destruct (push_placed n tab k d L Lt P) as (t1 & E1 & L1 & P1 & Q1). rewrite E1.
    destruct (IH t1 L L1 P1) as (t2 & E2 & L2 & P2 & Q2). exists t2.
    do 3 (split; [assumption|]). eapply Permutation_trans; [exact Q2|].
    eapply Permutation_trans; [apply Permutation_app_head, Q1|].
    apply Permutation_sym, Permutation_middle.
Qed.
Lemma move_all_spec n old : forall tab : tab_t,
  0 < n -> length tab = N.to_nat n -> placed n tab ->
  exists tab', move_all hash_fn n old tab = Some tab' /\
    length tab' = N.to_nat n /\ placed n tab' /\
    Permutation (concat tab') (concat old ++ concat tab).
Proof.
  induction old as [|c old IH]; intros tab L Lt P; cbn.
  - exists tab. auto.
  - destruct (move_chain_spec n c tab L Lt P) as (t1 & E1 & L1 & P1 & Q1). rewrite E1.
    destruct (IH t1 L L1 P1) as (t2 & E2 & L2 & P2 & Q2). exists t2.
    do 3 (split; [assumption|]). eapply Permutation_trans; [exact Q2|].
    eapply Permutation_trans; [apply Permutation_app_head, Q1|].
    rewrite !app_assoc. apply Permutation_app_tail, Permutation_app_comm.
Qed.

Lemma nth_repeat_nil (n i : nat) (c : list (K * N)) :
  nth_error (repeat [] n) i = Some c -> c = [].
Proof.
  intros E. apply nth_error_In in E. now apply repeat_spec in E.
Qed.
Lemma concat_repeat_nil n : concat (repeat (@nil (K * N)) n) = [].
Proof. induction n; auto. Qed.

(* The invariant: the table holds the bindings, each in its chain. *)
Definition inv (t : htab K) (m : list (K * N)) : Prop :=
  0 < h_size t /\ length (h_tab t) = N.to_nat (h_size t) /\
  h_elems t = N.of_nat (length m) /\ placed (h_size t) (h_tab t) /\
  Permutation (concat (h_tab t)) m.

Lemma create_inv size : size <= 2147483629 ->
  exists t, @create_hash K size = Some t /\ inv t [].
Proof.
  intros L. destruct (first_prime_some size L) as (p & E & P). unfold create_hash. rewrite E.
  eexists. split; [reflexivity|]. split; [assumption|]. cbn.
  split; [apply repeat_length|]. split; [reflexivity|]. split.
  - intros i c Ei. apply nth_repeat_nil in Ei. subst. constructor.
  - rewrite concat_repeat_nil. constructor.
Qed.

Lemma resize_inv t m : inv t m -> room m -> exists t', resize hash_fn t = Some t' /\ inv t' m.
Proof.
  intros (S0 & L & E & P & Q) R. unfold resize.
  destruct (h_auto t && (2 * h_size t <? h_elems t)).
  2: { exists t. split; [reflexivity|]. split; [assumption|]. auto. }
  rewrite E. destruct (first_prime_some _ R) as (p & Ep & Pp). rewrite Ep.
  destruct (move_all_spec p (h_tab t) (repeat [] (N.to_nat p)) Pp) as (tab & Em & Lm & Pm & Qm).
  { apply repeat_length. }
  { intros i c Ei. apply nth_repeat_nil in Ei. subst. constructor. }
  rewrite Em. eexists. split; [reflexivity|]. split; [assumption|]. cbn.
  do 3 (split; [assumption || reflexivity|]).
  rewrite concat_repeat_nil, app_nil_r in Qm. eapply Permutation_trans; eauto.
Qed.

Lemma insert_inv t m k d : inv t m -> room m ->
  exists t', insert_hash hash_fn t k d = Some t' /\ inv t' ((k, d) :: m).
Proof.
  intros I R. destruct (resize_inv t m I R) as (t1 & E1 & (S0 & L & E & P & Q)).
  unfold insert_hash. rewrite E1.
  destruct (push_placed (h_size t1) (h_tab t1) k d S0 L P) as (tab & E2 & L2 & P2 & Q2).
  rewrite E2. eexists. split; [reflexivity|]. split; [assumption|]. cbn -[N.of_nat].
  split; [assumption|]. split; [rewrite E; cbn; lia|]. split; [assumption|].
  eapply Permutation_trans; [exact Q2|]. now constructor.
Qed.

(* Look-ups *)
Definition hits (k : K) (m : list (K * N)) := filter (fun kd => hash_eq k (fst kd)) m.
Definition uniq (m : list (K * N)) : Prop := forall k, (length (hits k m) <= 1)%nat.

Lemma walk_find k c : walk hash_eq k c = sp_find hash_eq k c.
Proof. induction c as [|[k' d] c IH]; cbn; auto. Qed.
Lemma sp_find_hits k m :
  sp_find hash_eq k m = match hits k m with [] => 0 | (_, d) :: _ => d end.
Proof. induction m as [|[k' d] m IH]; cbn; auto. now destruct (hash_eq k k'). Qed.
Lemma hits_perm k m m' : uniq m -> Permutation m m' -> hits k m = hits k m'.
Proof.
  intros U P. specialize (U k). apply (perm_filter (fun kd => hash_eq k (fst kd))) in P.
  fold (hits k m) in P. fold (hits k m') in P.
  destruct (hits k m) as [|a [|b l]]; cbn in U; [| |lia].
  - apply Permutation_nil in P. now rewrite P.
  - apply Permutation_length_1_inv in P. now rewrite P.
Qed.
Lemma uniq_perm m m' : uniq m -> Permutation m m' -> uniq m'.
Proof.
  intros U P k. rewrite <- (hits_perm k m m' U P). apply U.
Qed.
Lemma hits_app k a b : hits k (a ++ b) = hits k a ++ hits k b.
Proof. unfold hits. apply filter_app. Qed.

Lemma hits_other n k c i :
  Forall (fun kd : K * N => N.to_nat (hash_fn (fst kd) n) = i) c ->
  i <> N.to_nat (hash_fn k n) -> hits k c = [].
Proof.
  intros F D. induction F as [|[k' d] c E F IH]; cbn; auto.
  destruct (hash_eq k k') eqn:Q; auto. apply (gh_hash _ _ G k k' n) in Q. cbn in E. congruence.
Qed.

Lemma hits_concat n (tab : tab_t) k : forall off,
  (forall i c, nth_error tab i = Some c ->
     Forall (fun kd => N.to_nat (hash_fn (fst kd) n) = (i + off)%nat) c) ->
  (off <= N.to_nat (hash_fn k n))%nat ->
  hits k (concat tab) =
  match nth_error tab (N.to_nat (hash_fn k n) - off) with
  | Some c => hits k c
  | None => []
  end.
Proof.
  induction tab as [|c tab IH]; intros off P L.
  { cbn. now destruct (N.to_nat (hash_fn k n) - off)%nat. }
  cbn [concat]. rewrite hits_app. pose proof (P 0%nat c eq_refl) as P0. cbn [Nat.add] in P0.
  destruct (Nat.eq_dec off (N.to_nat (hash_fn k n))) as [E|D].
  - rewrite E, Nat.sub_diag. cbn.
    assert (Z : hits k (concat tab) = []); [|rewrite Z; apply app_nil_r].
    clear - P E G. assert (Q : forall i c, nth_error tab i = Some c -> hits k c = []).
    { intros i c' Ei. eapply (hits_other n k c' (S i + off)); [apply (P (S i)); assumption|lia]. }
    clear P E. induction tab as [|a tab IH]; [reflexivity|]. cbn [concat]. rewrite hits_app.
    rewrite (Q 0%nat a eq_refl), IH; [reflexivity|]. intros i c' Ei. apply (Q (S i)). assumption.
  - rewrite (hits_other n k c off P0) by lia. cbn.
    rewrite (IH (S off)).
    + replace (N.to_nat (hash_fn k n) - off)%nat with (S (N.to_nat (hash_fn k n) - S off)) by lia.
      reflexivity.
    + intros i c' Ei. replace (i + S off)%nat with (S i + off)%nat by lia. now apply P.
    + lia.
Qed.

Lemma find_inv t m k : inv t m -> uniq m ->
  find_hash hash_fn hash_eq t k = Some (sp_find hash_eq k m).
Proof.
  intros (S0 & L & E & P & Q) U. unfold find_hash.
  assert (H := hash_in k _ S0). rewrite <- L in H. apply nth_error_Some in H.
  destruct (nth_error (h_tab t) (N.to_nat (hash_fn k (h_size t)))) as [c|] eqn:Ec; [|tauto].
  rewrite walk_find, !sp_find_hits.
  rewrite (hits_perm k m (concat (h_tab t)) U (Permutation_sym Q)).
  rewrite (hits_concat (h_size t) (h_tab t) k 0).
  - now rewrite Nat.sub_0_r, Ec.
  - intros i c' Ei. rewrite Nat.add_0_r. now apply P.
  - lia.
Qed.

(* Deletions *)
Lemma unchain_some k c : hits k c <> [] ->
  unchain hash_eq k c = Some (sp_del hash_eq k c).
Proof.
  induction c as [|[k' d] c IH]; cbn; [tauto|].
  destruct (hash_eq k k') eqn:E; [reflexivity|]. intros N. now rewrite (IH N).
Qed.
Lemma sp_del_perm1 k m : hits k m <> [] ->
  exists e, hash_eq k (fst e) = true /\ hits k m = e :: hits k (sp_del hash_eq k m) /\
    Permutation m (e :: sp_del hash_eq k m).
Proof.
  induction m as [|[k' d] m IH]; cbn; [tauto|]. destruct (hash_eq k k') eqn:E; intros N.
  - exists (k', d). auto.
  - destruct (IH N) as (e & He & Hh & P). exists e. split; [assumption|]. split.
    + cbn. rewrite E. exact Hh.
    + eapply Permutation_trans; [apply perm_skip, P|]. constructor.
Qed.
Lemma sp_del_perm k m m' : uniq m -> Permutation m m' -> hits k m <> [] ->
  Permutation (sp_del hash_eq k m) (sp_del hash_eq k m').
Proof.
  intros U P N. assert (E := hits_perm k m m' U P).
  destruct (sp_del_perm1 k m N) as (e & _ & H1 & P1).
  rewrite E in N. destruct (sp_del_perm1 k m' N) as (e' & _ & H2 & P2).
  assert (e' = e) as -> by congruence.
  apply Permutation_cons_inv with e.
  eapply Permutation_trans; [apply Permutation_sym, P1|].
  eapply Permutation_trans; [exact P|exact P2].
Qed.
Lemma sp_del_app1 k a b : hits k a = [] -> sp_del hash_eq k (a ++ b) = a ++ sp_del hash_eq k b.
Proof.
  induction a as [|[k' d] a IH]; cbn; auto. destruct (hash_eq k k'); [discriminate|].
  intros N. now rewrite (IH N).
Qed.
Lemma sp_del_app2 k a b : hits k a <> [] -> sp_del hash_eq k (a ++ b) = sp_del hash_eq k a ++ b.
Proof.
  induction a as [|[k' d] a IH]; cbn; [tauto|]. destruct (hash_eq k k'); [reflexivity|].
  intros N. now rewrite (IH N).
Qed.

Lemma del_chain_spec k (tab : tab_t) : forall i c,
  nth_error tab i = Some c -> hits k c <> [] ->
  (forall j c, (j < i)%nat -> nth_error tab j = Some c -> hits k c = []) ->
  exists tab', del_chain hash_eq tab i k = Some tab' /\ length tab' = length tab /\
    concat tab' = sp_del hash_eq k (concat tab) /\
    forall j, nth_error tab' j =
      if Nat.eqb j i then Some (sp_del hash_eq k c) else nth_error tab j.
Proof.
  induction tab as [|a tab IH]; intros [|i] c E N Z; cbn in E; try discriminate; cbn.
  - injection E as ->. rewrite (unchain_some k c N). eexists. split; [reflexivity|].
    split; [reflexivity|]. split; [|intros [|j]; reflexivity]. cbn. now rewrite sp_del_app2.
  - destruct (IH i c E N) as (tab' & E' & L' & C' & N').
    { intros j c' Lj Ej. apply (Z (S j)); [lia|assumption]. }
    rewrite E'. eexists. split; [reflexivity|]. split; [cbn; congruence|]. split.
    + cbn. rewrite C', sp_del_app1; [reflexivity|]. apply (Z 0%nat); [lia|reflexivity].
    + intros [|j]; [reflexivity|]. cbn. apply N'.
Qed.

Lemma bound_hits k m : bound hash_eq k m = true -> hits k m <> [].
Proof.
  unfold bound, hits. induction m as [|[k' d] m IH]; cbn; [discriminate|].
  destruct (hash_eq k k'); [discriminate|auto].
Qed.
Lemma bound_none k m : bound hash_eq k m = false -> hits k m = [].
Proof.
  unfold bound, hits. induction m as [|[k' d] m IH]; cbn; [reflexivity|].
  destruct (hash_eq k k'); [discriminate|auto].
Qed.

Lemma sp_del_in k m x : In x (sp_del hash_eq k m) -> In x m.
Proof. induction m as [|[k' d] m IH]; cbn; auto. destruct (hash_eq k k'); cbn; tauto. Qed.

Lemma delete_inv t m k : inv t m -> uniq m -> bound hash_eq k m = true ->
  exists t', delete_hash hash_fn hash_eq t k = Some t' /\ inv t' (sp_del hash_eq k m).
Proof.
  intros (S0 & L & E & P & Q) U B. apply bound_hits in B. unfold delete_hash.
  assert (H := hash_in k _ S0). rewrite <- L in H. apply nth_error_Some in H.
  destruct (nth_error (h_tab t) (N.to_nat (hash_fn k (h_size t)))) as [c|] eqn:Ec; [|tauto].
  assert (Hc : hits k c <> []).
  { rewrite (hits_perm k m (concat (h_tab t)) U (Permutation_sym Q)) in B.
    rewrite (hits_concat (h_size t) (h_tab t) k 0) in B.
    - now rewrite Nat.sub_0_r, Ec in B.
    - intros i c' Ei. rewrite Nat.add_0_r. now apply P.
    - lia. }
  destruct (del_chain_spec k (h_tab t) _ c Ec Hc) as (tab & Ed & Ld & Cd & Nd).
  { intros j c' Lj Ej. eapply hits_other; [apply P, Ej|lia]. }
  rewrite Ed. eexists. split; [reflexivity|]. split; [assumption|]. cbn.
  split; [congruence|]. split; [|split].
  - destruct (sp_del_perm1 k m B) as (e & _ & _ & P1). apply Permutation_length in P1.
    cbn in P1. lia.
  - intros j c' Ej. rewrite Nd in Ej. destruct (Nat.eqb_spec j (N.to_nat (hash_fn k (h_size t)))) as [->|_].
    + injection Ej as <-. apply P in Ec. rewrite Forall_forall in *. intros x Ix.
      apply Ec. eapply sp_del_in; eauto.
    + now apply P.
  - rewrite Cd. apply Permutation_sym, sp_del_perm; [assumption|now apply Permutation_sym|assumption].
Qed.

Lemma uniq_cons k d m : uniq m -> bound hash_eq k m = false -> uniq ((k, d) :: m).
Proof.
  intros U B k'. cbn. destruct (hash_eq k' k) eqn:E; [|apply U].
  fold (hits k' m). replace (hits k' m) with (hits k m).
  - rewrite (bound_none k m B). cbn. lia.
  - unfold hits. apply filter_ext. intros [k2 d2]. cbn.
    rewrite (eq_flip k k2), (eq_flip k' k2). apply eq_cong.
    rewrite eq_flip. assumption.
Qed.
Lemma uniq_del k m : uniq m -> uniq (sp_del hash_eq k m).
Proof.
  intros U k'. specialize (U k'). enough (length (hits k' (sp_del hash_eq k m)) <= length (hits k' m))%nat by lia.
  clear U. unfold hits. induction m as [|[k2 d] m IH]; cbn; [lia|].
  destruct (hash_eq k k2); cbn; destruct (hash_eq k' k2); cbn; lia.
Qed.

Lemma hrun_refines l : forall t m,
  inv t m -> uniq m -> proper hash_eq l m -> fresh_inserts hash_eq l m ->
  exists t', hrun hash_fn hash_eq l t = Some (fst (sp_run hash_eq l m), t') /\
    Permutation (scan_hash t') (snd (sp_run hash_eq l m)) /\
    h_elems t' = N.of_nat (length (snd (sp_run hash_eq l m))).
Proof.
  induction l as [|o l IH]; intros t m I U Pr Fr; cbn.
  { exists t. split; [reflexivity|]. destruct I as (_ & _ & E & _ & Q). auto. }
  destruct Pr as [A Pr], Fr as [F Fr].
  enough (exists t1, hstep hash_fn hash_eq o t = Some (fst (sp_step hash_eq o m), t1) /\
            inv t1 (snd (sp_step hash_eq o m)) /\ uniq (snd (sp_step hash_eq o m))) as (t1 & E1 & I1 & U1).
  { rewrite E1. destruct (IH t1 _ I1 U1 Pr Fr) as (t2 & E2 & P2 & L2). rewrite E2.
    destruct (sp_step hash_eq o m) as [a m1]. cbn in *.
    destruct (sp_run hash_eq l m1) as [r m2]. exists t2. auto. }
  destruct o as [k d|k|k|k d| |b]; cbn in *.
  - destruct (insert_inv t m k d I A) as (t1 & E1 & I1). rewrite E1. exists t1.
    split; [reflexivity|]. split; [assumption|]. now apply uniq_cons.
  - destruct (delete_inv t m k I U A) as (t1 & E1 & I1). rewrite E1. exists t1.
    split; [reflexivity|]. split; [assumption|]. now apply uniq_del.
  - rewrite (find_inv t m k I U). exists t. auto.
  - unfold insert_check_hash. rewrite (find_inv t m k I U).
    destruct (N.eqb_spec (sp_find hash_eq k m) 0) as [Z|Z]; cbn.
    + destruct (insert_inv t m k d I A) as (t1 & E1 & I1). rewrite E1. exists t1.
      split; [reflexivity|]. split; [assumption|]. apply uniq_cons; auto.
    + exists t. auto.
  - exists t. split; [|auto]. destruct I as (_ & _ & -> & _ & _). reflexivity.
  - exists (set_auto b t). split; [reflexivity|]. split; [exact I|assumption].
Qed.

(* ------------------------------------------------------------------ *)
(* Without resizing, shadowing works as well: each chain lists the bindings of
   its keys, latest first. *)
Definition chained (t : htab K) (m : list (K * N)) : Prop :=
  h_auto t = false /\ 0 < h_size t /\ length (h_tab t) = N.to_nat (h_size t) /\
  h_elems t = N.of_nat (length m) /\
  forall i c, nth_error (h_tab t) i = Some c ->
    c = filter (fun kd => Nat.eqb (N.to_nat (hash_fn (fst kd) (h_size t))) i) m.

Lemma filter_find n k m :
  sp_find hash_eq k (filter (fun kd => Nat.eqb (N.to_nat (hash_fn (fst kd) n)) (N.to_nat (hash_fn k n))) m)
  = sp_find hash_eq k m.
Proof.
  induction m as [|[k' d] m IH]; cbn; auto.
  destruct (hash_eq k k') eqn:E.
  - rewrite (gh_hash _ _ G k k' n E), Nat.eqb_refl. cbn. now rewrite E.
  - destruct (Nat.eqb _ _); cbn; [rewrite E|]; assumption.
Qed.
Lemma filter_del n k i m :
  filter (fun kd => Nat.eqb (N.to_nat (hash_fn (fst kd) n)) i) (sp_del hash_eq k m) =
  if Nat.eqb i (N.to_nat (hash_fn k n))
  then sp_del hash_eq k (filter (fun kd => Nat.eqb (N.to_nat (hash_fn (fst kd) n)) i) m)
  else filter (fun kd => Nat.eqb (N.to_nat (hash_fn (fst kd) n)) i) m.
Proof.
  destruct (Nat.eqb_spec i (N.to_nat (hash_fn k n))) as [->|D].
  - induction m as [|[k' d] m IH]; cbn; auto. destruct (hash_eq k k') eqn:E.
    + rewrite (gh_hash _ _ G k k' n E), Nat.eqb_refl. cbn. now rewrite E.
    + cbn. destruct (Nat.eqb _ _); cbn; [rewrite E, IH|rewrite IH]; reflexivity.
  - induction m as [|[k' d] m IH]; cbn; auto. destruct (hash_eq k k') eqn:E.
    + rewrite <- (gh_hash _ _ G k k' n E). destruct (Nat.eqb_spec (N.to_nat (hash_fn k n)) i); [congruence|reflexivity].
    + cbn. now rewrite IH.
Qed.

Lemma chained_find t m k : chained t m ->
  find_hash hash_fn hash_eq t k = Some (sp_find hash_eq k m).
Proof.
  intros (_ & S0 & L & E & P). unfold find_hash.
  assert (H := hash_in k _ S0). rewrite <- L in H. apply nth_error_Some in H.
  destruct (nth_error (h_tab t) (N.to_nat (hash_fn k (h_size t)))) as [c|] eqn:Ec; [|tauto].
  rewrite walk_find, (P _ _ Ec). now rewrite filter_find.
Qed.
Lemma chained_insert t m k d : chained t m ->
  exists t', insert_hash hash_fn t k d = Some t' /\ chained t' ((k, d) :: m).
Proof.
  intros (A & S0 & L & E & P). unfold insert_hash, resize. rewrite A. cbn [andb].
  destruct (push_chain_spec (h_tab t) (N.to_nat (hash_fn k (h_size t))) (k, d)) as (tab & Et & Lt & _ & Nt).
  { rewrite L. now apply hash_in. }
  rewrite Et. eexists. split; [reflexivity|]. split; [assumption|]. split; [assumption|]. cbn -[N.of_nat].
  split; [congruence|]. split; [rewrite E; cbn; lia|].
  intros i c Ei. rewrite Nt in Ei. rewrite Nat.eqb_sym. destruct (Nat.eqb_spec i (N.to_nat (hash_fn k (h_size t)))) as [->|_].
  - destruct (nth_error (h_tab t) (N.to_nat (hash_fn k (h_size t)))) as [c0|] eqn:E0; [|discriminate].
    injection Ei as <-. now rewrite (P _ _ E0).
  - now apply P.
Qed.
Lemma hits_filter n k m :
  hits k m <> [] ->
  hits k (filter (fun kd => Nat.eqb (N.to_nat (hash_fn (fst kd) n)) (N.to_nat (hash_fn k n))) m) <> [].
Proof.
  induction m as [|[k' d] m IH]; cbn; [tauto|]. destruct (hash_eq k k') eqn:E.
  - intros _. rewrite (gh_hash _ _ G k k' n E), Nat.eqb_refl. cbn. rewrite E. discriminate.
  - intros N. destruct (Nat.eqb _ _); cbn; [rewrite E|]; auto.
Qed.
Lemma chained_delete t m k : chained t m -> bound hash_eq k m = true ->
  exists t', delete_hash hash_fn hash_eq t k = Some t' /\ chained t' (sp_del hash_eq k m).
Proof.
  intros (A & S0 & L & E & P) B. apply bound_hits in B. unfold delete_hash.
  assert (H := hash_in k _ S0). rewrite <- L in H. apply nth_error_Some in H.
  destruct (nth_error (h_tab t) (N.to_nat (hash_fn k (h_size t)))) as [c|] eqn:Ec; [|tauto].
  assert (Hc : hits k c <> []).
  { rewrite (P _ _ Ec). now apply hits_filter. }
  destruct (del_chain_spec k (h_tab t) _ c Ec Hc) as (tab & Ed & Ld & _ & Nd).
  { intros j c' Lj Ej. rewrite (P _ _ Ej).
    eapply (hits_other (h_size t) k _ j); [|lia].
    rewrite Forall_forall. intros x Ix. apply filter_In in Ix as [_ Q]. now apply Nat.eqb_eq in Q. }
  rewrite Ed. eexists. split; [reflexivity|]. split; [assumption|]. split; [assumption|]. cbn.
  split; [congruence|]. split.
  - destruct (sp_del_perm1 k m B) as (e & _ & _ & P1). apply Permutation_length in P1.
    cbn in P1. lia.
  - intros i c' Ei. rewrite Nd in Ei. rewrite filter_del.
    destruct (Nat.eqb_spec i (N.to_nat (hash_fn k (h_size t)))) as [->|_].
    + injection Ei as <-. now rewrite (P _ _ Ec).
    + now apply P.
Qed.

Lemma hrun_frozen l : forall t m,
  chained t m -> proper hash_eq l m -> frozen l ->
  exists t', hrun hash_fn hash_eq l t = Some (fst (sp_run hash_eq l m), t').
Proof.
  induction l as [|o l IH]; intros t m I Pr Fr; cbn.
  { exists t. reflexivity. }
  destruct Pr as [A Pr]. inversion Fr as [|x y Fo Fr']; subst.
  enough (exists t1, hstep hash_fn hash_eq o t = Some (fst (sp_step hash_eq o m), t1) /\
            chained t1 (snd (sp_step hash_eq o m))) as (t1 & E1 & I1).
  { rewrite E1. destruct (IH t1 _ I1 Pr Fr') as (t2 & E2). rewrite E2.
    destruct (sp_step hash_eq o m) as [a m1]. cbn in *.
    destruct (sp_run hash_eq l m1) as [r m2]. exists t2. auto. }
  destruct o as [k d|k|k|k d| |b]; cbn in *.
  - destruct (chained_insert t m k d I) as (t1 & E1 & I1). rewrite E1. exists t1. auto.
  - destruct (chained_delete t m k I A) as (t1 & E1 & I1). rewrite E1. exists t1. auto.
  - rewrite (chained_find t m k I). exists t. auto.
  - unfold insert_check_hash. rewrite (chained_find t m k I).
    destruct (N.eqb_spec (sp_find hash_eq k m) 0) as [Z|Z]; cbn.
    + destruct (chained_insert t m k d I) as (t1 & E1 & I1). rewrite E1. exists t1. auto.
    + exists t. auto.
  - exists t. split; [|auto]. destruct I as (_ & _ & _ & -> & _). reflexivity.
  - subst b. exists (set_auto false t). split; [reflexivity|].
    destruct I as (_ & I). split; [reflexivity|exact I].
Qed.

Lemma create_chained size : size <= 2147483629 ->
  exists t, @create_hash K size = Some t /\ chained (set_auto false t) [].
Proof.
  intros L. destruct (create_inv size L) as (t & E & (S0 & L0 & E0 & P0 & Q0)).
  exists t. split; [assumption|]. split; [reflexivity|]. split; [assumption|].
  split; [assumption|]. split; [assumption|]. intros i c Ei. cbn in *.
  apply Permutation_sym, Permutation_nil in Q0.
  apply nth_error_split in Ei as (l1 & l2 & Et & _). rewrite Et, concat_app in Q0. cbn in Q0.
  apply app_eq_nil in Q0 as [_ Q0]. apply app_eq_nil in Q0. tauto.
Qed.
End Thms.
