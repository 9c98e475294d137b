(* Proofs about ListModel.v. *)
From Coq Require Import List Arith NArith ZArith Bool Lia Permutation.
From Verif Require Import HashModel HashThms ListModel.
Import ListNotations.
Local Open Scope N_scope.

Fixpoint lapp (l : list N) (r : llist) : llist :=
  match l with [] => r | e :: l => LCons e (lapp l r) end.
Fixpoint full (l : llist) : Prop :=
  match l with LNil => True | LFail => False | LCons _ l => full l end.
Fixpoint llen (l : llist) : nat :=
  match l with LCons _ l => S (llen l) | _ => O end.
Fixpoint lall (P : N -> Prop) (l : llist) : Prop :=
  match l with LCons e l => P e /\ lall P l | _ => True end.

Lemma lapp_snoc pre e r : lapp (pre ++ [e]) r = lapp pre (LCons e r).
Proof. induction pre; cbn; congruence. Qed.
Lemma llen_lapp pre r : llen (lapp pre r) = (length pre + llen r)%nat.
Proof. induction pre; cbn; auto. Qed.

Lemma find0_bound {K} (he : K -> K -> bool) k m :
  Forall (fun kd : K * N => snd kd <> 0) m -> sp_find he k m = 0 -> bound he k m = false.
Proof.
  intros F. unfold bound. induction F as [|[k' d] m D F IH]; cbn; auto.
  destruct (he k k'); cbn in *; auto. congruence.
Qed.
Lemma bound_find {K} (he : K -> K -> bool) k m :
  Forall (fun kd : K * N => snd kd <> 0) m -> bound he k m = negb (sp_find he k m =? 0).
Proof.
  intros F. unfold bound. induction F as [|[k' d] m D F IH]; cbn; auto.
  destruct (he k k'); cbn; auto. cbn in D. apply N.eqb_neq in D. now rewrite D.
Qed.

Section Lookup.
Variable hf : N -> N -> N.
Variable he : N -> N -> bool.
Hypothesis G : good_hash hf he.

Lemma sp_find_cong k k' m : he k k' = true -> sp_find he k m = sp_find he k' m.
Proof.
  intros Q. induction m as [|[k2 d] m IH]; cbn; auto.
  rewrite (eq_flip hf he G k k2), (eq_flip hf he G k' k2).
  rewrite (eq_cong hf he G k2 k k' Q). now rewrite IH.
Qed.

Section Assoc.
Variables kf vf : N -> N.

(* scan, with 0 for a failure *)
Fixpoint scan0 (key : N) (l : list N) : N :=
  match l with
  | [] => 0
  | e :: l => if he key (kf e) then vf e else scan0 key l
  end.

Definition ainv (l : llist) (a : atp) : Prop :=
  exists pre m, l = lapp pre (a_next a) /\ inv hf (a_tbl a) m /\ uniq he m /\
    Forall (fun kd => snd kd <> 0) m /\ (length m <= length pre)%nat /\
    forall k, sp_find he k m = scan0 k pre.

Lemma scan0_snoc key l e :
  scan0 key (l ++ [e]) =
  if existsb (fun x => he key (kf x)) l then scan0 key l
  else if he key (kf e) then vf e else 0.
Proof. induction l as [|x l IH]; cbn; auto. destruct (he key (kf x)); cbn; auto. Qed.
Lemma scan0_some key l : Forall (fun e => vf e <> 0) l ->
  existsb (fun x => he key (kf x)) l = negb (scan0 key l =? 0).
Proof.
  induction 1 as [|x l D F IH]; cbn; auto. destruct (he key (kf x)); cbn; auto.
  apply N.eqb_neq in D. now rewrite D.
Qed.
Lemma lall_app P pre r : lall P (lapp pre r) <-> Forall P pre /\ lall P r.
Proof.
  induction pre as [|x l IH]; cbn; [intuition|]. rewrite IH.
  split; [intros (?&?&?); auto|intros (F&?); inversion F; auto].
Qed.

Lemma scan_lapp key pre r :
  scan he kf vf key (lapp pre r) =
  if existsb (fun x => he key (kf x)) pre then Ok (scan0 key pre) else scan he kf vf key r.
Proof. induction pre as [|x l IH]; cbn; auto. destruct (he key (kf x)); cbn; auto. Qed.

Lemma assoc_loop_spec key l cur : forall t pre m,
  l = lapp pre cur -> inv hf t m -> uniq he m -> Forall (fun kd => snd kd <> 0) m ->
  (length m <= length pre)%nat -> (forall k, sp_find he k m = scan0 k pre) ->
  full l -> N.of_nat (llen l) <= 2147483629 -> lall (fun e => vf e <> 0) l ->
  scan0 key pre = 0 ->
  exists a, assoc_loop hf he kf vf key t cur = Some (scan he kf vf key cur, a) /\ ainv l a.
Proof.
  induction cur as [| |e cur IH]; intros t pre m El I U F Lm Sm Fu Le V S0.
  - eexists. split; [reflexivity|]. exists pre, m. cbn. auto 8.
  - exfalso. subst l. clear -Fu. induction pre; cbn in *; auto.
  - assert (V' := V). rewrite El in V'. apply lall_app in V'. destruct V' as [Vp [Ve _]].
    cbn [assoc_loop]. rewrite (find_inv hf he G _ _ _ I U), Sm.
    assert (Hr : room m).
    { unfold room. rewrite El, llen_lapp in Le. cbn in Le. lia. }
    assert (Hs : exists t' m', (if scan0 (kf e) pre =? 0 then insert_hash hf t (kf e) (vf e) else Some t)
        = Some t' /\ inv hf t' m' /\ uniq he m' /\ Forall (fun kd => snd kd <> 0) m' /\
        (length m' <= length (pre ++ [e]))%nat /\ (forall k, sp_find he k m' = scan0 k (pre ++ [e]))).
    { destruct (scan0 (kf e) pre =? 0) eqn:Z.
      - apply N.eqb_eq in Z. destruct (insert_inv hf he G t m (kf e) (vf e) I Hr) as (t' & Ei & I').
        exists t', ((kf e, vf e) :: m). split; [assumption|]. split; [assumption|].
        split. { apply (uniq_cons hf he G); auto. now apply find0_bound; [|rewrite Sm]. }
        split. { constructor; auto. }
        split. { rewrite app_length. cbn. lia. }
        intros k. cbn. rewrite scan0_snoc. destruct (he k (kf e)) eqn:Q.
        + enough (existsb (fun x => he k (kf x)) pre = false) as -> by reflexivity.
          rewrite scan0_some by assumption. rewrite <- Sm.
          rewrite (sp_find_cong k (kf e) m Q), Sm, Z. reflexivity.
        + rewrite Sm. destruct (existsb _ pre) eqn:X; auto.
          rewrite scan0_some in X by assumption. destruct (scan0 k pre =? 0) eqn:Y; [|discriminate].
          now apply N.eqb_eq.
      - exists t, m. split; [reflexivity|]. split; [assumption|]. split; [assumption|].
        split; [assumption|]. split. { rewrite app_length. lia. }
        intros k. rewrite Sm, scan0_snoc. destruct (existsb (fun x => he k (kf x)) pre) eqn:X; auto.
        assert (X0 : scan0 k pre = 0).
        { rewrite scan0_some in X by assumption. destruct (scan0 k pre =? 0) eqn:Y; [|discriminate].
          now apply N.eqb_eq. }
        rewrite X0. destruct (he k (kf e)) eqn:Q; auto. exfalso.
        apply N.eqb_neq in Z. apply Z. rewrite <- Sm.
        rewrite <- (sp_find_cong k (kf e) m Q). now rewrite Sm. }
    destruct Hs as (t' & m' & -> & I' & U' & F' & Lm' & Sm').
    cbn [scan]. destruct (he key (kf e)) eqn:Q.
    + eexists. split; [reflexivity|]. exists (pre ++ [e]), m'. cbn [a_next a_tbl]. rewrite lapp_snoc. auto 8.
    + apply (IH t' (pre ++ [e]) m'); auto.
      * now rewrite lapp_snoc.
      * rewrite scan0_snoc, Q. now destruct (existsb _ pre).
Qed.

Lemma assoc_q_spec key l a :
  ainv l a -> full l -> N.of_nat (llen l) <= 2147483629 -> lall (fun e => vf e <> 0) l ->
  exists a', assoc_q hf he kf vf key a = Some (scan he kf vf key l, a') /\ ainv l a'.
Proof.
  intros (pre & m & El & I & U & F & Lm & Sm) Fu Le V. unfold assoc_q.
  rewrite (find_inv hf he G _ _ _ I U), Sm. destruct (scan0 key pre =? 0) eqn:Z.
  - assert (V' := V). rewrite El in V'. apply lall_app in V'. destruct V' as [Vp _].
    assert (R : scan he kf vf key l = scan he kf vf key (a_next a)).
    { rewrite El, scan_lapp, scan0_some, Z by assumption. reflexivity. }
    rewrite R. apply N.eqb_eq in Z. eapply assoc_loop_spec; eauto.
  - exists a. split.
    + rewrite El, scan_lapp. assert (V' := V). rewrite El in V'. apply lall_app in V'.
      rewrite scan0_some, Z by tauto. reflexivity.
    + exists pre, m. auto 8.
Qed.
End Assoc.

(* el *)
Lemma good_int : good_hash int_hash N.eqb.
Proof.
  split.
  - intros k n L. apply N.mod_lt. lia.
  - apply N.eqb_refl.
  - intros. now rewrite N.eqb_sym.
  - intros k1 k2 k3. rewrite !N.eqb_eq. congruence.
  - intros k1 k2 n. rewrite N.eqb_eq. congruence.
Qed.
Definition nth0 (i : N) (l : list N) : N :=
  if i =? 0 then 0 else nth (N.to_nat i - 1) l 0.
Definition einv (l : llist) (a : atp) : Prop :=
  exists pre m, l = lapp pre (a_next a) /\ inv int_hash (a_tbl a) m /\ uniq N.eqb m /\
    a_next a <> LFail /\
    length m = length pre /\ forall k, sp_find N.eqb k m = nth0 k pre.

Lemma nth0_snoc i l e :
  nth0 i (l ++ [e]) = if i =? N.of_nat (length l) + 1 then e else nth0 i l.
Proof.
  unfold nth0. destruct (i =? N.of_nat (length l) + 1) eqn:A.
  - apply N.eqb_eq in A. subst i. destruct (_ =? 0) eqn:B; [apply N.eqb_eq in B; lia|].
    rewrite app_nth2 by lia.
    replace (N.to_nat (N.of_nat (length l) + 1) - 1 - length l)%nat with O by lia. reflexivity.
  - apply N.eqb_neq in A. destruct (i =? 0) eqn:B; auto. apply N.eqb_neq in B.
    destruct (Nat.lt_ge_cases (N.to_nat i - 1) (length l)).
    + now rewrite app_nth1.
    + rewrite (nth_overflow l) by lia. apply nth_overflow. rewrite app_length. cbn. lia.
Qed.
Lemma sp_el_lapp pre : forall i r, (length pre < i)%nat -> r <> LFail ->
  sp_el i (lapp pre r) = sp_el (i - length pre) r.
Proof.
  induction pre as [|x l IH]; intros i r L D; cbn [lapp length].
  - f_equal. lia.
  - destruct i as [|i]; [cbn in L; lia|]. cbn [length] in L.
    assert (Q : lapp l r <> LFail) by (destruct l; cbn; congruence).
    replace (S i - S (length l))%nat with (i - length l)%nat by lia.
    rewrite <- IH by (auto; lia). destruct i as [|i]; [lia|].
    cbn. destruct (lapp l r); congruence.
Qed.
Lemma sp_el_in pre : forall i r, (1 <= i <= length pre)%nat -> r <> LFail ->
  sp_el i (lapp pre r) = Ok (nth (i - 1) pre 0).
Proof.
  induction pre as [|x l IH]; intros i r L D; cbn [lapp length] in *; [lia|].
  assert (Q : lapp l r <> LFail) by (destruct l; cbn; congruence).
  destruct i as [|[|i]]; [lia| |].
  - cbn. destruct (lapp l r); congruence.
  - specialize (IH (S i) r ltac:(lia) D). replace (S (S i) - 1)%nat with (S (S i - 1)) by lia.
    cbn [nth]. rewrite <- IH. cbn. destruct (lapp l r); congruence.
Qed.

Lemma el_loop_spec idx l cur : forall t pre m,
  l = lapp pre cur -> inv int_hash t m -> uniq N.eqb m -> length m = length pre ->
  (forall k, sp_find N.eqb k m = nth0 k pre) ->
  cur <> LFail -> N.of_nat (llen l) <= 2147483629 -> lall (fun e => e <> 0) l ->
  N.of_nat (length pre) < idx ->
  exists a, el_loop idx t (N.of_nat (length pre)) cur =
      Some (sp_el (N.to_nat idx - length pre) cur, a) /\ einv l a.
Proof.
  induction cur as [| |e cur IH]; intros t pre m El I U Lm Sm Nf Le V Li.
  - eexists. split.
    + cbn. destruct (N.to_nat idx - length pre)%nat; reflexivity.
    + exists pre, m. cbn. auto 6.
  - congruence.
  - assert (Hr : room m).
    { unfold room. rewrite El, llen_lapp in Le. cbn in Le. lia. }
    destruct (N.to_nat idx - length pre)%nat as [|j] eqn:Ej; [lia|].
    assert (D : cur = LFail \/ cur <> LFail) by (destruct cur; auto; right; discriminate).
    destruct D as [->|D].
    { eexists. split; [reflexivity|]. exists pre, m. cbn. auto 6. }
    destruct (insert_inv int_hash N.eqb good_int t m (N.of_nat (length pre) + 1) e I Hr)
      as (t' & Ei & I').
    assert (Vp : Forall (fun x => x <> 0) pre).
    { rewrite El in V. now apply lall_app in V. }
    assert (Pm' : forall k, sp_find N.eqb k ((N.of_nat (length pre) + 1, e) :: m) = nth0 k (pre ++ [e])).
    { intros k. cbn. rewrite nth0_snoc, Sm. reflexivity. }
    assert (U' : uniq N.eqb ((N.of_nat (length pre) + 1, e) :: m)).
    { apply (uniq_cons int_hash N.eqb good_int); auto.
      (* keys of m are at most length pre *)
      destruct (bound N.eqb (N.of_nat (length pre) + 1) m) eqn:B; auto. exfalso.
      assert (Bs := B). unfold bound in Bs. apply existsb_exists in Bs.
      destruct Bs as ((k' & d') & In' & Q). cbn in Q. apply N.eqb_eq in Q.
      (* count: every index 1..length pre is a key; uniq keys; m has length pre entries *)
      assert (Hb : forall i, (i < length pre)%nat -> In (N.of_nat i + 1) (map fst m)).
      { intros i Hi. specialize (Sm (N.of_nat i + 1)). unfold nth0 in Sm.
        destruct (N.of_nat i + 1 =? 0) eqn:Z0; [apply N.eqb_eq in Z0; lia|].
        replace (N.to_nat (N.of_nat i + 1) - 1)%nat with i in Sm by lia.
        assert (Nz : nth i pre 0 <> 0).
        { rewrite Forall_forall in Vp. apply Vp. now apply nth_In. }
        rewrite <- Sm in Nz. clear -Nz. induction m as [|[k d] m IHm]; cbn in *; [congruence|].
        destruct (N.of_nat i + 1 =? k) eqn:E; [left; symmetry; now apply N.eqb_eq|right; auto]. }
      set (ks := map (fun i => N.of_nat i + 1) (seq 0 (S (length pre)))).
      assert (Nd : NoDup ks).
      { unfold ks. apply FinFun.Injective_map_NoDup; [intros a b; lia|apply seq_NoDup]. }
      assert (Inc : incl ks (map fst m)).
      { intros x Hx. unfold ks in Hx. apply in_map_iff in Hx. destruct Hx as (i & <- & Hi).
        apply in_seq in Hi. destruct (Nat.eq_dec i (length pre)) as [->|Ne].
        - apply in_map_iff. exists (k', d'). split; auto.
        - apply Hb. lia. }
      apply NoDup_incl_length in Inc; auto. unfold ks in Inc.
      rewrite !map_length, seq_length in Inc. lia. }
    assert (Hs : sp_el (S j) (LCons e cur) = match j with O => Ok e | S _ => sp_el j cur end).
    { cbn. destruct cur; try congruence; destruct j; auto. }
    rewrite Hs. cbn [el_loop].
    assert (Ht : forall X Y : option (res N * atp), match cur with LFail => X | _ => Y end = Y)
      by (destruct cur; congruence).
    rewrite Ht, Ei. destruct (N.of_nat (length pre) + 1 =? idx) eqn:Q.
    + apply N.eqb_eq in Q. assert (j = O) as -> by lia.
      eexists. split; [reflexivity|].
      exists (pre ++ [e]), ((N.of_nat (length pre) + 1, e) :: m). cbn [a_next a_tbl].
      rewrite lapp_snoc. rewrite app_length. cbn. repeat (split; [auto; lia|]). auto.
    + apply N.eqb_neq in Q. destruct j as [|j]; [lia|].
      destruct (IH t' (pre ++ [e]) ((N.of_nat (length pre) + 1, e) :: m)) as (a & Ea & Ia); auto.
      * now rewrite lapp_snoc.
      * rewrite app_length. cbn. lia.
      * rewrite app_length. cbn. lia.
      * exists a. split; auto. rewrite app_length in Ea. cbn [length] in Ea.
        replace (N.of_nat (length pre + 1)) with (N.of_nat (length pre) + 1) in Ea by lia.
        replace (N.to_nat idx - (length pre + 1))%nat with (S j) in Ea by lia. exact Ea.
Qed.

Lemma el_q_spec idx l a :
  einv l a -> 0 < idx -> N.of_nat (llen l) <= 2147483629 -> lall (fun e => e <> 0) l ->
  exists a', el_q idx a = Some (sp_el (N.to_nat idx) l, a') /\ einv l a'.
Proof.
  intros (pre & m & El & I & U & Nf & Lm & Sm) Hi Le V. unfold el_q.
  rewrite (find_inv int_hash N.eqb good_int _ _ _ I U), Sm.
  assert (Vp : Forall (fun x => x <> 0) pre).
  { rewrite El in V. now apply lall_app in V. }
  destruct (nth0 idx pre =? 0) eqn:Z.
  - apply N.eqb_eq in Z. assert (Lp : N.of_nat (length pre) < idx).
    { unfold nth0 in Z. destruct (idx =? 0) eqn:Q; [apply N.eqb_eq in Q; lia|].
      destruct (N.lt_ge_cases (N.of_nat (length pre)) idx); auto. exfalso.
      rewrite Forall_forall in Vp. apply (Vp (nth (N.to_nat idx - 1) pre 0)); auto.
      apply nth_In. lia. }
    destruct (el_loop_spec idx l (a_next a) (a_tbl a) pre m) as (a' & E & I'); auto.
    destruct I as (_ & _ & Ee & _). rewrite Ee, Lm.
    exists a'. split; auto. rewrite E, El, sp_el_lapp by (auto; lia). reflexivity.
  - exists a. split; [|exists pre, m; auto 7].
    unfold nth0 in *. destruct (idx =? 0) eqn:Q; [discriminate|].
    destruct (Nat.lt_ge_cases (N.to_nat idx - 1) (length pre)) as [L|L].
    + rewrite El, sp_el_in by (auto; lia). reflexivity.
    + rewrite nth_overflow in Z by lia. discriminate.
Qed.

(* The tables of all the lists. *)
Lemma get_put p a m q : get_tbl q (put_tbl p a m) = if q =? p then Some a else get_tbl q m.
Proof.
  induction m as [|[r b] m IH]; cbn.
  - now destruct (q =? p).
  - destruct (p =? r) eqn:E; cbn.
    + apply N.eqb_eq in E. subst r. now destruct (q =? p).
    + destruct (q =? r) eqn:F; auto. apply N.eqb_eq in F. subst r.
      rewrite N.eqb_sym in E. now rewrite E.
Qed.
Lemma get_del p m q : get_tbl q (del_tbl p m) = if q =? p then None else get_tbl q m.
Proof.
  induction m as [|[r b] m IH]; cbn.
  - now destruct (q =? p).
  - destruct (p =? r) eqn:E; cbn.
    + apply N.eqb_eq in E. subst r. rewrite IH. now destruct (q =? p).
    + rewrite IH. destruct (q =? r) eqn:F; auto. apply N.eqb_eq in F. subst r.
      rewrite N.eqb_sym in E. now rewrite E.
Qed.

Definition tinv (P : llist -> atp -> Prop) (h : heap) (m : list (N * atp)) : Prop :=
  forall p a, get_tbl p m = Some a -> P (h p) a.
Lemma lookup_in_spec P q p h m r :
  tinv P h m ->
  (forall t, create_hash 100 = Some t -> P (h p) (mkA t (h p))) ->
  (forall a, P (h p) a -> exists a', q a = Some (r, a') /\ P (h p) a') ->
  exists m', lookup_in q p (h p) m = Some (r, m') /\ tinv P h m'.
Proof.
  intros T C Q. unfold lookup_in.
  assert (A : exists a, (match get_tbl p m with
         | Some a => Some a
         | None => option_map (fun t => mkA t (h p)) (create_hash 100)
         end) = Some a /\ P (h p) a).
  { destruct (get_tbl p m) as [a|] eqn:E; [exists a; auto|].
    destruct (create_inv hf 100) as (t & Et & _); [lia|]. rewrite Et. eexists. split; [reflexivity|].
    auto. }
  destruct A as (a & -> & Ha). destruct (Q a Ha) as (a' & -> & Ha').
  eexists. split; [reflexivity|]. intros p' b. rewrite get_put.
  destruct (p' =? p) eqn:E; [|apply T]. apply N.eqb_eq in E. intros [=]. now subst.
Qed.
Lemma tinv_del P h m p l : tinv P h m -> tinv P (hset h p l) (del_tbl p m).
Proof.
  intros T q a. rewrite get_del. unfold hset. destruct (q =? p); [discriminate|apply T].
Qed.
Lemma ainv0 kf vf l t : create_hash 100 = Some t -> ainv kf vf l (mkA t l).
Proof.
  intros C. destruct (create_inv hf 100) as (t' & Et & I); [lia|].
  rewrite C in Et. injection Et as <-. exists [], []. split; [reflexivity|]. split; [assumption|].
  split; [intros k; cbn; lia|]. auto.
Qed.
Lemma einv0 l t : l <> LFail -> create_hash 100 = Some t -> einv l (mkA t l).
Proof.
  intros D C. destruct (create_inv int_hash 100) as (t' & Et & I); [lia|].
  rewrite C in Et. injection Et as <-. exists [], []. split; [reflexivity|]. split; [assumption|].
  split; [intros k; cbn; lia|]. split; [exact D|]. split; [reflexivity|].
  intros k. unfold nth0. destruct (k =? 0); auto. now destruct (N.to_nat k - 1)%nat.
Qed.

Variables hd_of tl_of : N -> N.
Hypothesis pairs : forall e, e <> 0 -> hd_of e <> 0 /\ tl_of e <> 0.

Definition ok_list (l : llist) : Prop :=
  l <> LFail /\ N.of_nat (llen l) <= 2147483629 /\ lall (fun e => e <> 0) l.
Fixpoint lproper (l : list lop) (h : heap) : Prop :=
  match l with
  | [] => True
  | o :: l =>
      match o with
      | QAssoc p _ | QRev p _ | QMem p _ => full (h p)
      | QReuse _ r => ok_list r
      | _ => True
      end /\ lproper l (snd (sp_lop he hd_of tl_of o h))
  end.
Definition sinv (h : heap) (s : tbls) : Prop :=
  (forall p, ok_list (h p)) /\ tinv (ainv hd_of tl_of) h (t_assoc s) /\
  tinv (ainv tl_of hd_of) h (t_rev s) /\
  tinv (ainv (fun e => e) (fun _ => 1)) h (t_mem s) /\ tinv einv h (t_el s).

Lemma lall_imp (P Q : N -> Prop) l : (forall e, P e -> Q e) -> lall P l -> lall Q l.
Proof. intros I. induction l; cbn; intuition. Qed.
Lemma scan_mem k l :
  match scan he (fun e => e) (fun _ => 1) k l with Ok _ => Ok 1 | _ => Ok 0 end =
  match scan he (fun e => e) (fun e => e) k l with Ok _ => Ok 1 | _ => Ok 0 end.
Proof. induction l; cbn; auto. now destruct (he k e). Qed.

Lemma lrun_spec l : forall h s, sinv h s -> lproper l h ->
  lrun hf he hd_of tl_of l h s = Some (sp_lrun he hd_of tl_of l h).
Proof.
  induction l as [|o l IH]; intros h s (Ok1 & Ta & Tr & Tm & Te) Pr; [reflexivity|].
  cbn [lproper] in Pr. destruct Pr as [Po Pr].
  destruct o as [p k|p k|p k|p i|p r]; cbn [lrun lstep sp_lrun sp_lop snd] in *.
  - destruct (Ok1 p) as (D & Le & V).
    destruct (lookup_in_spec (ainv hd_of tl_of) (assoc_q hf he hd_of tl_of k) p h (t_assoc s)
                (scan he hd_of tl_of k (h p)) Ta) as (m' & -> & T').
    + intros t. apply ainv0.
    + intros a Ha. apply assoc_q_spec; auto. eapply lall_imp; [|exact V]. intros e. apply pairs.
    + rewrite (IH h); auto. split; auto.
  - destruct (Ok1 p) as (D & Le & V).
    destruct (lookup_in_spec (ainv tl_of hd_of) (assoc_q hf he tl_of hd_of k) p h (t_rev s)
                (scan he tl_of hd_of k (h p)) Tr) as (m' & -> & T').
    + intros t. apply ainv0.
    + intros a Ha. apply assoc_q_spec; auto. eapply lall_imp; [|exact V]. intros e. apply pairs.
    + rewrite (IH h); auto. split; auto.
  - destruct (Ok1 p) as (D & Le & V).
    destruct (lookup_in_spec (ainv (fun e => e) (fun _ => 1)) (assoc_q hf he (fun e => e) (fun _ => 1) k) p h (t_mem s)
                (scan he (fun e => e) (fun _ => 1) k (h p)) Tm) as (m' & -> & T').
    + intros t. apply ainv0.
    + intros a Ha. apply assoc_q_spec; auto. eapply lall_imp; [|exact V]. intros e _. discriminate.
    + rewrite (IH h); auto; [now rewrite scan_mem|]. split; auto.
  - destruct (i <=? 0)%Z eqn:Q.
    + rewrite (IH h); auto. split; auto.
    + apply Z.leb_gt in Q. destruct (Ok1 p) as (D & Le & V).
      destruct (lookup_in_spec einv (el_q (Z.to_N i)) p h (t_el s)
                (sp_el (Z.to_nat i) (h p)) Te) as (m' & -> & T').
      * intros t. now apply einv0.
      * intros a Ha. replace (Z.to_nat i) with (N.to_nat (Z.to_N i)) by lia. apply el_q_spec; auto. lia.
      * rewrite (IH h); auto. split; auto.
  - rewrite (IH (hset h p r)); auto. split; [|cbn; split; [|split; [|split]]; now apply tinv_del].
    intros q. unfold hset. destruct (q =? p); auto.
Qed.
End Lookup.

(* G_rec_hash and G_rec_equ fit together. *)
Section GRec.
Variable ihash : Z -> N -> N.
Variable sptr : list N -> N.
Hypothesis ihash_range : forall z n, 0 < n -> ihash z n < n.

Lemma grec_eq v : forall w, data v = true -> (G_rec_equ v w = true <-> v = w).
Proof.
  induction v as [|a IHa b IHb|a IHa b IHb|z|s|f|p|s]; intros [|c d|c d|z'|s'|f'|p'|s'] D; cbn in D |- *;
    try discriminate; try (split; discriminate); try tauto.
  - apply andb_true_iff in D. destruct D as [D1 D2].
    rewrite andb_true_iff, IHa, IHb by assumption. split; [intros [-> ->]; auto|intros [= -> ->]; auto].
  - rewrite Z.eqb_eq. split; congruence.
  - destruct (list_eq_dec N.eq_dec s s'); split; congruence.
  - rewrite N.eqb_eq. split; congruence.
  - rewrite N.eqb_eq. split; congruence.
Qed.
Lemma good_grec (c : N -> gval) :
  (forall p, data (c p) = true /\ c p <> GNull) ->
  good_hash (fun p n => G_rec_hash ihash sptr (c p) n) (fun p q => G_rec_equ (c p) (c q)).
Proof.
  intros D. split.
  - intros k n L. destruct (D k) as [Dk Nk]. unfold G_rec_hash. cbn [g_hash].
    destruct (c k); cbn in Dk; try discriminate; try congruence;
      try (apply N.mod_lt; lia); auto.
  - intros k. apply grec_eq; [apply D|reflexivity].
  - intros a b E. apply grec_eq in E; [|apply D]. apply grec_eq; [apply D|]. auto.
  - intros a b e E F. apply grec_eq in E; [|apply D]. apply grec_eq in F; [|apply D].
    apply grec_eq; [apply D|]. congruence.
  - intros a b n E. apply grec_eq in E; [|apply D]. now rewrite E.
Qed.
End GRec.
