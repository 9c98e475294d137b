(* Proofs about TblModel.v. *)
From Coq Require Import List Arith NArith ZArith Bool Lia Permutation.
From Verif Require Import HashModel HashThms ListModel ListThms TblModel.
Import ListNotations.
Local Open Scope N_scope.

Lemma upd_length {A} (l : list A) i x : length (upd l i x) = length l.
Proof. revert i. induction l; intros [|i]; cbn; auto. Qed.
Lemma upd_nth {A} (l : list A) : forall i x j, (i < length l)%nat ->
  nth_error (upd l i x) j = if Nat.eqb j i then Some x else nth_error l j.
Proof.
  induction l as [|y l IH]; intros i x j L; cbn in L; [lia|].
  destruct i as [|i], j as [|j]; cbn; auto. apply IH. lia.
Qed.
Lemma snoc_nth {A} (l : list A) x j :
  nth_error (l ++ [x]) j = if Nat.eqb j (length l) then Some x else nth_error l j.
Proof.
  destruct (Nat.eqb j (length l)) eqn:E.
  - apply Nat.eqb_eq in E. subst j. rewrite nth_error_app2, Nat.sub_diag by lia. reflexivity.
  - apply Nat.eqb_neq in E. destruct (Nat.lt_ge_cases j (length l)).
    + now apply nth_error_app1.
    + transitivity (@None A); [|symmetry]; apply nth_error_None; [rewrite app_length; cbn; lia|lia].
Qed.

Section Tbl.
Variable hf : N -> N -> N.
Variable he : N -> N -> bool.
Hypothesis G : good_hash hf he.

Definition tok (t : htab N) (m : amap) : Prop :=
  inv hf t m /\ uniq he m /\ Forall (fun kd => snd kd <> 0) m.

Definition tabs_ok (s : tstate) (a : astate) : Prop :=
  length (s_nodes s) = length a /\
  (forall h, nth_error (s_nodes s) h = Some None <-> nth_error a h = Some None) /\
  (forall h id, nth_error (s_nodes s) h = Some (Some id) ->
     exists t m, nth_error a h = Some (Some m) /\ nth_error (s_tabs s) id = Some t /\ tok t m) /\
  (forall h h' id, nth_error (s_nodes s) h = Some (Some id) ->
     nth_error (s_nodes s) h' = Some (Some id) -> h = h').

Lemma tok_find t m k : tok t m -> find_hash hf he t k = Some (sp_find he k m).
Proof. intros (I & U & F). now apply find_inv. Qed.
Lemma tok_zero t m k : tok t m -> (sp_find he k m =? 0) = negb (bound he k m).
Proof. intros (I & U & F). rewrite (bound_find he k m F). now rewrite negb_involutive. Qed.
Lemma tok_insert t m k d : tok t m -> bound he k m = false -> d <> 0 ->
  N.of_nat (length m) <= 2147483629 ->
  exists t', insert_hash hf t k d = Some t' /\ tok t' ((k, d) :: m).
Proof.
  intros (I & U & F) B D R. destruct (insert_inv hf he G t m k d I R) as (t' & E & I').
  exists t'. split; auto. split; auto. split; [now apply (uniq_cons hf he G)|]. constructor; auto.
Qed.
Lemma tok_create size : size <= 2147483629 -> exists t, create_hash size = Some t /\ tok t [].
Proof.
  intros L. destruct (create_inv hf size L) as (t & E & I). exists t. split; auto.
  split; auto. split; auto. intros k. cbn. lia.
Qed.
Lemma tok_delete t m k : tok t m -> bound he k m = true ->
  exists t', delete_hash hf he t k = Some t' /\ tok t' (sp_del he k m).
Proof.
  intros (I & U & F) B. destruct (delete_inv hf he G t m k I U B) as (t' & E & I').
  exists t'. split; auto. split; auto. split; [now apply uniq_del|].
  rewrite Forall_forall in *. intros x Hx. apply F. eapply sp_del_in; eauto.
Qed.
Lemma tok_ins kds : forall t m, tok t m -> Forall (fun kd => snd kd <> 0) kds ->
  N.of_nat (length m + length kds) <= 2147483629 ->
  exists t', ins_loop hf he t kds = Some (fst (a_ins he kds m), t') /\ tok t' (snd (a_ins he kds m)).
Proof.
  induction kds as [|[k d] kds IH]; intros t m T F L; cbn [ins_loop a_ins].
  - exists t. auto.
  - inversion F as [|? ? D F']; subst. cbn in D. cbn [length] in L.
    rewrite (tok_find t m k T), (tok_zero t m k T). destruct (bound he k m) eqn:B; cbn [negb].
    + exists t. auto.
    + destruct (tok_insert t m k d T B D) as (t' & -> & T'); [lia|].
      apply IH; auto. cbn [length]. lia.
Qed.

Lemma ok_live s a h id : tabs_ok s a -> nth_error (s_nodes s) h = Some (Some id) ->
  exists t m, nth_error a h = Some (Some m) /\ nth_error (s_tabs s) id = Some t /\ tok t m.
Proof. intros (_ & _ & A & _). apply A. Qed.

(* the three ways in which a step changes the state *)
Lemma ok_moved s a h id t m : tabs_ok s a -> nth_error (s_nodes s) h = Some (Some id) ->
  tok t m ->
  fst (moved s h id t) = fst (a_moved a h m) /\ tabs_ok (snd (moved s h id t)) (snd (a_moved a h m)).
Proof.
  intros (L & D & A & I) E T. unfold moved, a_moved. cbn [fst snd]. split; [congruence|].
  destruct (A h id E) as (t0 & m0 & Ea & Et & _).
  assert (Lh : (h < length (s_nodes s))%nat) by (apply nth_error_Some; congruence).
  assert (Lid : (id < length (s_tabs s))%nat) by (apply nth_error_Some; congruence).
  assert (X : forall j, nth_error (upd (s_nodes s) h None ++ [Some id]) j =
    if Nat.eqb j (length a) then Some (Some id) else if Nat.eqb j h then Some None else nth_error (s_nodes s) j).
  { intros j. rewrite snoc_nth, upd_length, L. destruct (Nat.eqb j (length a)); auto. now apply upd_nth. }
  assert (Y : forall j, nth_error (upd a h None ++ [Some m]) j =
    if Nat.eqb j (length a) then Some (Some m) else if Nat.eqb j h then Some None else nth_error a j).
  { intros j. rewrite snoc_nth, upd_length. destruct (Nat.eqb j (length a)); auto. apply upd_nth. lia. }
  split; [cbn; rewrite !app_length, !upd_length; cbn; lia|]. cbn [s_nodes s_tabs]. split; [|split].
  - intros j. rewrite X, Y. destruct (Nat.eqb j (length a)); [split; discriminate|].
    destruct (Nat.eqb j h); [tauto|]. apply D.
  - intros j i'. rewrite X, Y. destruct (Nat.eqb j (length a)).
    + intros [= <-]. exists t, m. split; auto. split; auto. rewrite upd_nth by assumption.
      now rewrite Nat.eqb_refl.
    + destruct (Nat.eqb j h) eqn:Jh; [discriminate|]. intros Ej.
      destruct (A j i' Ej) as (tj & mj & Q1 & Q2 & Q3). exists tj, mj. split; auto. split; auto.
      rewrite upd_nth by assumption. destruct (Nat.eqb i' id) eqn:Ii; auto.
      apply Nat.eqb_eq in Ii. subst i'. specialize (I j h id Ej E). apply Nat.eqb_neq in Jh. congruence.
  - intros j j' i'. rewrite !X. destruct (Nat.eqb j (length a)) eqn:J1, (Nat.eqb j' (length a)) eqn:J2.
    + apply Nat.eqb_eq in J1, J2. congruence.
    + destruct (Nat.eqb j' h) eqn:Jh; [discriminate|]. intros [= <-] Ej.
      specialize (I j' h id Ej E). apply Nat.eqb_neq in Jh. congruence.
    + destruct (Nat.eqb j h) eqn:Jh; [discriminate|]. intros Ej [= <-].
      specialize (I j h id Ej E). apply Nat.eqb_neq in Jh. congruence.
    + destruct (Nat.eqb j h); [discriminate|]. destruct (Nat.eqb j' h); [discriminate|]. apply I.
Qed.
Lemma ok_changed s a h id t m : tabs_ok s a -> nth_error (s_nodes s) h = Some (Some id) ->
  tok t m -> tabs_ok (mkS (s_nodes s) (upd (s_tabs s) id t)) (upd a h (Some m)).
Proof.
  intros (L & D & A & I) E T.
  destruct (A h id E) as (t0 & m0 & Ea & Et & _).
  assert (Lh : (h < length a)%nat) by (apply nth_error_Some; congruence).
  assert (Lid : (id < length (s_tabs s))%nat) by (apply nth_error_Some; congruence).
  split; [cbn; rewrite upd_length; lia|]. cbn [s_nodes s_tabs]. split; [|split; [|apply I]].
  - intros j. rewrite upd_nth by assumption. destruct (Nat.eqb j h) eqn:Jh; [|apply D].
    apply Nat.eqb_eq in Jh. subst j. rewrite E. split; discriminate.
  - intros j i' Ej. rewrite upd_nth by assumption. rewrite upd_nth by assumption.
    destruct (Nat.eqb j h) eqn:Jh.
    + apply Nat.eqb_eq in Jh. subst j. rewrite E in Ej. injection Ej as <-.
      exists t, m. rewrite Nat.eqb_refl. auto.
    + destruct (A j i' Ej) as (tj & mj & Q1 & Q2 & Q3). exists tj, mj. split; auto. split; auto.
      destruct (Nat.eqb i' id) eqn:Ii; auto. apply Nat.eqb_eq in Ii. subst i'.
      specialize (I j h id Ej E). apply Nat.eqb_neq in Jh. congruence.
Qed.
Lemma ok_new s a t m : tabs_ok s a -> tok t m ->
  tabs_ok (mkS (s_nodes s ++ [Some (length (s_tabs s))]) (s_tabs s ++ [t])) (a ++ [Some m]).
Proof.
  intros (L & D & A & I) T.
  assert (Old : forall j i', nth_error (s_nodes s) j = Some (Some i') -> (i' < length (s_tabs s))%nat).
  { intros j i' E. destruct (A j i' E) as (? & ? & _ & Q & _). apply nth_error_Some. congruence. }
  split; [cbn; rewrite !app_length; cbn; lia|]. cbn [s_nodes s_tabs]. split; [|split].
  - intros j. rewrite !snoc_nth, L. destruct (Nat.eqb j (length a)); [split; discriminate|apply D].
  - intros j i'. rewrite !snoc_nth, L. destruct (Nat.eqb j (length a)).
    + intros [= <-]. exists t, m. now rewrite Nat.eqb_refl.
    + intros E. destruct (A j i' E) as (tj & mj & Q1 & Q2 & Q3). exists tj, mj. split; auto. split; auto.
      specialize (Old j i' E). assert (Nat.eqb i' (length (s_tabs s)) = false) as -> by (apply Nat.eqb_neq; lia).
      assumption.
  - intros j j' i'. rewrite !snoc_nth, L.
    destruct (Nat.eqb j (length a)) eqn:J1, (Nat.eqb j' (length a)) eqn:J2.
    + apply Nat.eqb_eq in J1, J2. congruence.
    + intros [= <-] E. apply Old in E. lia.
    + intros E [= <-]. apply Old in E. lia.
    + apply I.
Qed.
Lemma ok_tab s a t : tabs_ok s a -> tabs_ok (mkS (s_nodes s) (s_tabs s ++ [t])) a.
Proof.
  intros (L & D & A & I). split; [assumption|]. cbn [s_nodes s_tabs]. split; [apply D|]. split; [|apply I].
  intros j i' E. destruct (A j i' E) as (tj & mj & Q1 & Q2 & Q3). exists tj, mj. split; auto. split; auto.
  rewrite nth_error_app1; auto. apply nth_error_Some. congruence.
Qed.

Definition sim (r : option (tans * tstate)) (q : tans * astate) : Prop :=
  exists x s', r = Some (x, s') /\ agree x (fst q) /\ tabs_ok s' (snd q).

Lemma sim_ret x s a : tabs_ok s a -> sim (Some (x, s)) (x, a).
Proof. intros T. exists x, s. split; auto. split; auto. destruct x; cbn; auto. Qed.
Lemma sim_on s a h f g : tabs_ok s a ->
  (forall id t m, nth_error (s_nodes s) h = Some (Some id) -> nth_error a h = Some (Some m) ->
     nth_error (s_tabs s) id = Some t -> tok t m -> sim (f id t) (g m)) ->
  sim (on_tab s h f) (on_map a h g).
Proof.
  intros T H. pose proof T as (L & D & A & I). unfold on_tab, on_map.
  destruct (nth_error (s_nodes s) h) as [[id|]|] eqn:E.
  - destruct (A h id E) as (t & m & Q1 & Q2 & Q3). rewrite Q1, Q2. eapply H; eauto.
  - apply D in E. rewrite E. now apply sim_ret.
  - apply nth_error_None in E. assert (X : nth_error a h = None) by (apply nth_error_None; lia).
    rewrite X. now apply sim_ret.
Qed.
Lemma sim_moved s a h id t m : tabs_ok s a -> nth_error (s_nodes s) h = Some (Some id) -> tok t m ->
  sim (Some (moved s h id t)) (a_moved a h m).
Proof.
  intros T E K. destruct (ok_moved s a h id t m T E K) as [F O]. destruct (moved s h id t) as [x s'].
  exists x, s'. split; auto. cbn in *. rewrite <- F. split; auto. destruct x; cbn; auto.
Qed.
Lemma sim_insertn s a h kds : tabs_ok s a -> Forall (fun kd => snd kd <> 0) kds ->
  aroom a (length kds) -> sim (insertn hf he s h kds) (a_insertn he a h kds).
Proof.
  intros T F R. unfold insertn, a_insertn. apply sim_on; auto. intros id t m E Ea Et K.
  destruct (tok_ins kds t m K F (R h m Ea)) as (t' & -> & K').
  destruct (a_ins he kds m) as [[] m'] eqn:Q; cbn [fst snd] in *.
  - now apply sim_moved.
  - eexists. eexists. split; [reflexivity|]. split; [reflexivity|]. cbn. now apply ok_changed.
Qed.

Lemma tstep_sim o s a : tabs_ok s a -> tallowed o a -> sim (tstep hf he o s) (astep he o a).
Proof.
  intros T W. pose proof T as (L & _).
  destruct o as [n|h|h k|h k|h k d|h kds|h ks|h k|h|h|kds|h]; cbn [tstep astep tallowed] in *.
  - destruct (tok_create (as_size n)) as (t & -> & K).
    { unfold as_size. rewrite Z.mod_small by lia. lia. }
    eexists. eexists. split; [reflexivity|]. split; [cbn; congruence|]. now apply ok_new.
  - apply sim_on; auto. intros id t m E Ea Et K. destruct K as ((_ & _ & Q & _) & _).
    rewrite Q. now apply sim_ret.
  - apply sim_on; auto. intros id t m E Ea Et K. rewrite (tok_find t m k K). cbn [option_map].
    rewrite (tok_zero t m k K), negb_involutive. now apply sim_ret.
  - apply sim_on; auto. intros id t m E Ea Et K. rewrite (tok_find t m k K). cbn [option_map].
    rewrite (tok_zero t m k K). destruct (bound he k m); cbn [negb]; now apply sim_ret.
  - destruct W as [D R]. apply sim_on; auto. intros id t m E Ea Et K.
    rewrite (tok_find t m k K), (tok_zero t m k K). destruct (bound he k m) eqn:B; cbn [negb].
    + now apply sim_ret.
    + specialize (R h m Ea). destruct (tok_insert t m k d K B D) as (t' & -> & K'); [lia|].
      now apply sim_moved.
  - destruct W as [F R]. now apply sim_insertn.
  - destruct W as [F R]. apply sim_insertn; auto; [|now rewrite map_length].
    rewrite Forall_forall in *. intros x Hx. apply in_map_iff in Hx. destruct Hx as (k & <- & Hk).
    now apply F.
  - apply sim_on; auto. intros id t m E Ea Et K.
    rewrite (tok_find t m k K), (tok_zero t m k K). destruct (bound he k m) eqn:B; cbn [negb].
    + destruct (tok_delete t m k K B) as (t' & -> & K'). now apply sim_moved.
    + now apply sim_ret.
  - apply sim_on; auto. intros id t m E Ea Et K.
    pose proof K as ((_ & _ & Q & _) & _). specialize (W h m Ea). rewrite Nat.add_0_r in W.
    destruct (tok_create (h_elems t)) as (t' & -> & K'); [lia|]. now apply sim_moved.
  - apply sim_on; auto. intros id t m E Ea Et K. eexists. eexists. split; [reflexivity|].
    split; [|assumption]. cbn. destruct K as ((_ & _ & _ & _ & P) & _). exact P.
  - destruct W as [F R]. destruct (tok_create (N.of_nat (length kds)) R) as (t & -> & K).
    destruct (tok_ins kds t [] K F) as (t' & -> & K'); [cbn; lia|].
    destruct (a_ins he kds []) as [[] m'] eqn:Q; cbn [fst snd] in *.
    + eexists. eexists. split; [reflexivity|]. split; [cbn; congruence|]. now apply ok_new.
    + eexists. eexists. split; [reflexivity|]. split; [reflexivity|]. now apply ok_tab.
  - destruct W.
Qed.

Lemma trun_sim l : forall s a, tabs_ok s a -> tproper he l a ->
  exists r s', trun hf he l s = Some (r, s') /\ Forall2 agree r (fst (arun he l a)) /\
    tabs_ok s' (snd (arun he l a)).
Proof.
  induction l as [|o l IH]; intros s a T P; cbn [trun arun].
  - exists [], s. split; auto. split; [constructor|assumption].
  - destruct P as [W P]. destruct (tstep_sim o s a T W) as (x & s1 & -> & Ax & T1).
    destruct (astep he o a) as [y a1]. cbn [fst snd] in *.
    destruct (IH s1 a1 T1 P) as (r & s2 & -> & Ar & T2).
    destruct (arun he l a1) as [q a2]. cbn [fst snd] in *.
    exists (x :: r), s2. split; auto.
Qed.
Lemma s0_ok : tabs_ok s0 [].
Proof.
  split; auto. split; [|split]; cbn.
  - intros h. destruct h; cbn; split; discriminate.
  - intros h id E. destruct h; discriminate.
  - intros h h' id E. destruct h; discriminate.
Qed.
Lemma table_history l : tproper he l [] ->
  exists r s, trun hf he l s0 = Some (r, s) /\ Forall2 agree r (fst (arun he l [])).
Proof.
  intros P. destruct (trun_sim l s0 [] s0_ok P) as (r & s & E & A & _). eauto.
Qed.
End Tbl.

(* About the specification: after a successful update through a handle, that
   handle is dead and stays dead. *)
Section Spec.
Variable he : N -> N -> bool.

Definition kills (o : top) (h : nat) : Prop :=
  match o with
  | TInsert g _ _ | TInsertn g _ | TSetInsertn g _ | TDelete g _ | TClear g => g = h
  | _ => False
  end.
Definition uses (o : top) (h : nat) : Prop :=
  match o with
  | TSize g | TMember g _ | TGet g _ | TList g => g = h
  | _ => kills o h
  end.
Lemma dead_fails o a h : nth_error a h = Some None -> uses o h -> astep he o a = (AFail, a).
Proof.
  intros D U. destruct o; cbn in U; try contradiction; subst; cbn; unfold a_insertn, on_map; now rewrite D.
Qed.
Lemma nth_lt {A} (l : list A) h x : nth_error l h = Some x -> (h < length l)%nat.
Proof. intros E. apply nth_error_Some. congruence. Qed.
Lemma snoc_keep {A} (a : list A) h x y : nth_error a h = Some x -> nth_error (a ++ [y]) h = Some x.
Proof. intros E. rewrite nth_error_app1; auto. eapply nth_lt; eauto. Qed.
Lemma upd_keep {A} (a : list A) g h x y : nth_error a h = Some x -> (g < length a)%nat -> h <> g ->
  nth_error (upd a g y) h = Some x.
Proof. intros E L Ne. rewrite upd_nth by assumption. apply Nat.eqb_neq in Ne. now rewrite Ne. Qed.

(* a step leaves every handle it does not go through as it was *)
Lemma others_kept o a h x : nth_error a h = Some x -> ~ kills o h ->
  nth_error (snd (astep he o a)) h = Some x.
Proof.
  intros E K.
  assert (M : forall g m m', nth_error a g = Some (Some m) -> g <> h ->
    nth_error (snd (a_moved a g m')) h = Some x).
  { intros g m m' Eg Ng. unfold a_moved. cbn [snd]. apply snoc_keep. apply upd_keep; auto.
    eapply nth_lt; eauto. }
  assert (N : forall g kds, g <> h -> nth_error (snd (a_insertn he a g kds)) h = Some x).
  { intros g kds Ng. unfold a_insertn, on_map. destruct (nth_error a g) as [[m|]|] eqn:Eg; auto.
    destruct (a_ins he kds m) as [[] m']; [eapply M; eauto|]. cbn. apply upd_keep; auto.
    eapply nth_lt; eauto. }
  destruct o as [n|g|g k|g k|g k d|g kds|g ks|g k|g|g|kds|g]; cbn [astep kills] in *; auto;
    try (unfold on_map; destruct (nth_error a g) as [[m|]|] eqn:Eg; auto; fail).
  - cbn. now apply snoc_keep.
  - unfold on_map. destruct (nth_error a g) as [[m|]|] eqn:Eg; auto.
    destruct (bound he k m); auto. eapply M; eauto.
  - unfold on_map. destruct (nth_error a g) as [[m|]|] eqn:Eg; auto.
    destruct (bound he k m); auto. eapply M; eauto.
  - unfold on_map. destruct (nth_error a g) as [[m|]|] eqn:Eg; auto. eapply M; eauto.
  - destruct (a_ins he kds []) as [[] m']; auto. cbn. now apply snoc_keep.
  - cbn. now apply snoc_keep.
Qed.
Lemma updated_dead o a h n : kills o h -> fst (astep he o a) = AHandle n ->
  nth_error (snd (astep he o a)) h = Some None.
Proof.
  intros K.
  assert (M : forall m m', nth_error a h = Some (Some m) -> nth_error (snd (a_moved a h m')) h = Some None).
  { intros m m' E. unfold a_moved. cbn [snd]. apply snoc_keep. rewrite upd_nth by (eapply nth_lt; eauto).
    now rewrite Nat.eqb_refl. }
  assert (N : forall kds, fst (a_insertn he a h kds) = AHandle n ->
     nth_error (snd (a_insertn he a h kds)) h = Some None).
  { intros kds. unfold a_insertn, on_map. destruct (nth_error a h) as [[m|]|] eqn:Eg; try discriminate.
    destruct (a_ins he kds m) as [[] m']; try discriminate. intros _. eapply M; eauto. }
  destruct o as [|g|g k|g k|g k d|g kds|g ks|g k|g|g|kds|g]; cbn [astep kills] in *; try contradiction; subst g; auto;
    unfold on_map; destruct (nth_error a h) as [[m|]|] eqn:Eg; try discriminate.
  - destruct (bound he k m); try discriminate. intros _. eapply M; eauto.
  - destruct (bound he k m); try discriminate. intros _. eapply M; eauto.
  - intros _. eapply M; eauto.
Qed.
Lemma dead_stays l : forall a h, nth_error a h = Some None -> nth_error (snd (arun he l a)) h = Some None.
Proof.
  induction l as [|o l IH]; intros a h D; cbn [arun]; auto.
  destruct (astep he o a) as [y a1] eqn:E.
  assert (D1 : nth_error a1 h = Some None).
  { assert (Dec : kills o h \/ ~ kills o h) by (destruct o; cbn; try tauto; destruct (Nat.eq_dec h0 h); tauto).
    destruct Dec as [K|K].
    - rewrite (dead_fails o a h D) in E; [injection E as <- <-; assumption|].
      destruct o; cbn in *; tauto.
    - pose proof (others_kept o a h None D K) as Q. now rewrite E in Q. }
  specialize (IH a1 h D1). destruct (arun he l a1) as [q a2]. exact IH.
Qed.
(* once an update through h has succeeded, any later use of h fails *)
Lemma stale_fails a h o n l o' : kills o h -> fst (astep he o a) = AHandle n -> uses o' h ->
  fst (astep he o' (snd (arun he l (snd (astep he o a))))) = AFail.
Proof.
  intros K E U. rewrite (dead_fails o' _ h); auto. apply dead_stays. eapply updated_dead; eauto.
Qed.
(* a single insertion or a deletion that fails changes nothing *)
Lemma fail_same a h o : (exists k d, o = TInsert h k d) \/ (exists k, o = TDelete h k) ->
  fst (astep he o a) = AFail -> snd (astep he o a) = a.
Proof.
  intros [(k & d & ->)|(k & ->)]; cbn; unfold on_map; destruct (nth_error a h) as [[m|]|]; auto;
    destruct (bound he k m); auto; discriminate.
Qed.
End Spec.

(* the deviations *)
Lemma insertn_partial : exists h k,
  option_map fst (trun int_hash N.eqb [TCreate 3; TInsertn 0%nat [(1, 7); (1, 8)]; TMember h k] s0)
    = Some [AHandle 0%nat; AFail; ABool true] /\
  option_map fst (trun int_hash N.eqb [TCreate 3; TMember h k] s0) = Some [AHandle 0%nat; ABool false].
Proof. exists 0%nat, 1. split; vm_compute; reflexivity. Qed.
Lemma copy_alive : exists h g k d,
  option_map fst (trun int_hash N.eqb
    [TCreate 3; TCopy h; TInsert h k d; TMember h k; TMember g k] s0)
    = Some [AHandle 0%nat; AHandle 1%nat; AHandle 2%nat; AFail; ABool true].
Proof. exists 0%nat, 1%nat, 1, 7. vm_compute. reflexivity. Qed.
Lemma create_negative : trun int_hash N.eqb [TCreate (-1)%Z] s0 = None.
Proof. vm_compute. reflexivity. Qed.
