(* Proofs about the record manager. *)
From Coq Require Import List Arith Bool Lia.
From Verif Require Import RecModel.
Import ListNotations.

Lemma rptr_eqb_spec a b : reflect (a = b) (rptr_eqb a b).
Proof.
  destruct a as [a1 a2], b as [b1 b2]. unfold rptr_eqb. cbn.
  destruct (Nat.eqb_spec a1 b1); destruct (Nat.eqb_spec a2 b2); cbn; constructor; congruence.
Qed.
Lemma rptr_eqb_refl a : rptr_eqb a a = true.
Proof. destruct (rptr_eqb_spec a a); congruence. Qed.

(* The free list, as it is found in memory. *)
Fixpoint flist (mem : rptr -> option rptr) (p : option rptr) (l : list rptr) : Prop :=
  match l with
  | [] => p = None
  | q :: l => p = Some q /\ flist mem (mem q) l
  end.
Lemma flist_ext mem mem' p l :
  (forall q, In q l -> mem q = mem' q) -> flist mem p l -> flist mem' p l.
Proof.
  revert p; induction l as [|q l IH]; intros p E; cbn; auto.
  intros [-> F]. split; [reflexivity|]. rewrite <- E by now left.
  apply IH; auto. intros x I. apply E. now right.
Qed.

Section R.
Variable capacity : nat.
Hypothesis cap_pos : 0 < capacity.

Definition placed_r (m : rmgr) (p : rptr) : Prop :=
  In (fst p) (r_blocks m) /\ snd p < capacity /\
  (hd_error (r_blocks m) = Some (fst p) -> snd p < r_alloc m).

Definition rinv (x : rmgr * list rptr) : Prop :=
  let (m, live) := x in
  exists fl,
    flist (r_mem m) (r_free m) fl /\ NoDup (fl ++ live) /\
    (forall p, In p (fl ++ live) -> placed_r m p) /\
    NoDup (r_blocks m) /\ r_blocks m <> [] /\ r_alloc m <= capacity /\
    (forall a b l, r_blocks m = a :: b :: l -> 0 < r_alloc m) /\
    r_live m = length live.

Lemma new_mgr_inv b : rinv (new_mgr b, []).
Proof.
  exists []. cbn. split; [reflexivity|]. split; [constructor|]. split; [intros p []|].
  split; [constructor; [intros []|constructor]|]. split; [discriminate|].
  split; [lia|]. split; [discriminate|reflexivity].
Qed.

Lemma nodup_perm_remove (r : rptr) live :
  NoDup live -> In r live ->
  S (length (filter (fun q => negb (rptr_eqb q r)) live)) = length live.
Proof.
  induction live as [|a live IH]; cbn; [tauto|]. intros N I. inversion N; subst.
  destruct (rptr_eqb_spec a r) as [->|D]; cbn.
  - f_equal. clear - H1. induction live as [|b live IH]; cbn; [reflexivity|].
    destruct (rptr_eqb_spec b r) as [->|D]; [destruct H1; now left|]. cbn. f_equal.
    apply IH. intros I. apply H1. now right.
  - f_equal. apply IH; auto. destruct I; congruence.
Qed.
Lemma filter_ne (r : rptr) live q :
  In q (filter (fun q => negb (rptr_eqb q r)) live) <-> In q live /\ q <> r.
Proof.
  rewrite filter_In. destruct (rptr_eqb_spec q r); cbn; intuition congruence.
Qed.
Lemma nodup_app (A : Type) (a b : list A) :
  NoDup (a ++ b) <-> NoDup a /\ NoDup b /\ forall x, In x a -> In x b -> False.
Proof.
  induction a as [|x a IH]; cbn.
  - split; [intros; repeat split; auto; constructor|tauto].
  - rewrite !NoDup_cons_iff, IH, in_app_iff. split.
    + intros (N & A1 & B & D). repeat split; auto. intros y [<-|I] J; [tauto|eauto].
    + intros ((N & A1) & B & D). repeat split; auto.
      * intros [I|I]; [tauto|]. apply (D x); auto.
      * intros y I J. apply (D y); auto.
Qed.

(* A new record was not out, and is in a block of the manager. *)
Lemma new_inv m live blk :
  rinv (m, live) -> ~ In blk (r_blocks m) ->
  exists p m', new_rec capacity m blk = Some (p, m') /\ ~ In p live /\
    rinv (m', p :: live) /\ placed_r m' p.
Proof.
  intros (fl & F & N & P & NB & BN & LA & L2 & LL) FB. unfold new_rec.
  destruct (r_free m) as [p|] eqn:Fr.
  - destruct fl as [|q fl]; cbn in F; [discriminate|]. destruct F as [[= ->] F].
    cbn in N. inversion N as [|? ? N1 N2]; subst.
    assert (Pq : placed_r m q) by (apply P; now left).
    do 2 eexists. split; [reflexivity|]. split; [intros I; apply N1, in_or_app; auto|].
    split; [|exact Pq]. exists fl. cbn. split; [assumption|]. split.
    + apply nodup_app in N2 as (A & B & D). apply nodup_app. split; [assumption|].
      split; [constructor; [intros I; apply N1, in_or_app; auto|assumption]|].
      intros x Ix [<-|Ix']; [apply N1, in_or_app; auto|eauto].
    + split; [|rewrite LL; auto 10].
      intros x Ix. apply (P x). cbn. rewrite !in_app_iff in *. cbn in Ix. intuition.
  - destruct fl as [|q fl]; cbn in F; [|destruct F; discriminate].
    destruct (r_blocks m) as [|last back] eqn:Bl; [tauto|].
    destruct (Nat.ltb_spec (r_alloc m) capacity) as [L|L].
    + do 2 eexists. split; [reflexivity|].
      assert (NI : ~ In (last, r_alloc m) live).
      { intros I. apply (P (last, r_alloc m)) in I. destruct I as (_ & _ & I).
        rewrite Bl in I. cbn in I. specialize (I eq_refl). lia. }
      split; [assumption|]. split.
      * exists []. cbn. split; [reflexivity|]. split; [constructor; assumption|]. split.
        -- intros x [<-|Ix]; [split; [now left|split; cbn; [assumption|lia]]|].
           apply P in Ix as (A & B & C). rewrite Bl in *. split; [assumption|]. split; [assumption|].
           cbn in *. intros E. specialize (C E). lia.
        -- repeat split; auto; try lia; try discriminate.
      * split; cbn; [now left|]. split; [assumption|lia].
    + do 2 eexists. split; [reflexivity|].
      assert (NI : ~ In (blk, 0) live).
      { intros I. apply (P (blk, 0)) in I. destruct I as (I & _). rewrite Bl in I. tauto. }
      split; [assumption|]. split.
      * exists []. cbn. split; [reflexivity|]. split; [constructor; assumption|]. split.
        -- intros x [<-|Ix]; [split; [now left|split; cbn; [assumption|lia]]|].
           apply P in Ix as (A & B & C). rewrite Bl in *. split; [now right|]. split; [assumption|].
           cbn. intros [= E]. subst. tauto.
        -- split; [constructor; assumption|]. repeat split; auto; try lia; try discriminate.
      * split; cbn; [now left|]. split; [assumption|lia].
Qed.

Lemma free_inv m live r :
  rinv (m, live) -> In r live ->
  exists m', free_rec capacity m r = Some m' /\
    rinv (m', filter (fun q => negb (rptr_eqb q r)) live).
Proof.
  intros (fl & F & N & P & NB & BN & LA & L2 & LL) I.
  assert (Pr : placed_r m r) by (apply P, in_or_app; auto).
  pose proof N as N'. apply nodup_app in N' as (Nf & Nl & Nd).
  assert (Nr : ~ In r fl) by (intros J; eauto).
  pose proof (nodup_perm_remove r live Nl I) as Len.
  unfold free_rec. destruct (r_live m) as [|lv] eqn:Lv; [lia|].
  destruct (r_blocks m) as [|last back] eqn:Bl; [tauto|].
  assert (Ap : 0 < r_alloc m).
  { destruct back as [|b back]; [|eapply L2; reflexivity].
    destruct Pr as (A & _ & C). rewrite Bl in *. cbn in A, C. destruct A as [A|[]].
    specialize (C (f_equal Some A)). lia. }
  destruct (r_alloc m) as [|a] eqn:Al; [lia|].
  set (live' := filter (fun q => negb (rptr_eqb q r)) live) in *.
  assert (N2 : NoDup (fl ++ live')).
  { apply nodup_app. split; [assumption|]. split; [apply NoDup_filter; assumption|].
    intros x Ix J. apply filter_ne in J as [J _]. eauto. }
  assert (P2 : forall p, In p (fl ++ live') -> placed_r m p /\ p <> r).
  { intros p J. split.
    - apply P. rewrite in_app_iff in *. destruct J as [J|J]; [auto|].
      apply filter_ne in J. tauto.
    - rewrite in_app_iff in J. destruct J as [J|J]; [congruence|]. apply filter_ne in J. tauto. }
  destruct (rptr_eqb_spec r (last, a)) as [E|D].
  - assert (P3 : forall p, In p (fl ++ live') ->
        In (fst p) (last :: back) /\ snd p < capacity /\ (fst p = last -> snd p < a)).
    { intros p J. destruct (P2 p J) as ((A & B & C) & D). rewrite Bl, Al in *.
      split; [assumption|]. split; [assumption|]. intros E2. cbn in C.
      rewrite E2 in C. specialize (C eq_refl).
      assert (snd p <> a); [|lia]. intros E3. apply D. rewrite E. destruct p; cbn in *; congruence. }
    destruct a as [|a].
    + destruct back as [|b back].
      * eexists. split; [reflexivity|]. exists fl. cbn. split; [assumption|]. split; [assumption|].
        split.
        -- intros p J. apply P3 in J as (A & B & C). split; [assumption|]. split; [assumption|].
           cbn in *. intros [= E2]. auto.
        -- repeat split; auto; try lia; discriminate.
      * eexists. split; [reflexivity|]. exists fl. cbn. split; [assumption|]. split; [assumption|].
        split.
        -- intros p J. apply P3 in J as (A & B & C).
           destruct A as [A|A]; [specialize (C (eq_sym A)); lia|]. repeat split; auto.
        -- inversion NB; subst. repeat split; auto; try lia; discriminate.
    + destruct back as [|b back]; (eexists; split; [reflexivity|]; exists fl; cbn;
        split; [assumption|]; split; [assumption|]; split;
        [intros p J; apply P3 in J as (A & B & C); split; [assumption|]; split; [assumption|];
         cbn in *; intros [= E2]; auto
        |repeat split; auto; try lia; discriminate]).
  - eexists. split; [destruct a; reflexivity|]. exists (r :: fl). cbn.
    rewrite rptr_eqb_refl. split.
    { split; [reflexivity|]. apply flist_ext with (mem := r_mem m); [|assumption].
      intros q J. destruct (rptr_eqb_spec q r); [congruence|reflexivity]. }
    split; [constructor; [|assumption]; intros J; apply P2 in J; tauto|].
    split.
    { intros p [<-|J]; [|apply P2 in J as [J _]]; unfold placed_r in *;
        rewrite Bl, Al in *; assumption. }
    repeat split; auto; try lia; discriminate.
Qed.

Lemma write_inv m live r w : rinv (m, live) -> In r live -> rinv (write_rec m r w, live).
Proof.
  intros (fl & F & N & P & NB & BN & LA & L2 & LL) I. exists fl. cbn.
  split; [|repeat split; auto; now apply P].
  apply flist_ext with (mem := r_mem m); [|assumption]. intros q J.
  destruct (rptr_eqb_spec q r) as [->|]; [|reflexivity].
  apply nodup_app in N as (_ & _ & D). destruct (D r J I).
Qed.

Lemma rrun_inv x l y : rrun capacity x l y -> rinv x -> rinv y.
Proof.
  induction 1 as [|x o y l z A St R IH]; auto. intros I. apply IH.
  destruct St; cbn in A.
  - destruct (new_inv m live blk I A) as (p' & m1 & E & _ & I1 & _). congruence.
  - destruct (free_inv m live r I A) as (m1 & E & I1). congruence.
  - now apply write_inv.
Qed.


(* As long as only the latest record is freed ("pure"), the records that are
   out are exactly those below the allocation point. *)
Definition pinv (x : rmgr * list rptr) : Prop :=
  let (m, live) := x in
  r_pure m = true -> r_free m = None /\ forall p, placed_r m p -> In p live.

Lemma new_pinv m live blk p m' :
  rinv (m, live) -> pinv (m, live) -> ~ In blk (r_blocks m) ->
  new_rec capacity m blk = Some (p, m') -> pinv (m', p :: live).
Proof.
  intros (fl & F & N & P & NB & BN & LA & L2 & LL) Pi FB E Pu. unfold new_rec in E.
  destruct (r_free m) as [q|] eqn:Fr.
  { injection E as <- <-. cbn in *. destruct (Pi Pu). congruence. }
  destruct (r_blocks m) as [|last back] eqn:Bl; [tauto|].
  destruct (Nat.ltb_spec (r_alloc m) capacity) as [L|L]; injection E as <- <-; cbn in *.
  - split; [reflexivity|]. destruct (Pi Pu) as [_ Q]. intros [b i] (A & B & C). cbn in *.
    destruct (Nat.eq_dec b last) as [->|D].
    + specialize (C eq_refl). destruct (Nat.eq_dec i (r_alloc m)) as [->|Di]; [now left|].
      right. apply Q. unfold placed_r. rewrite Bl. cbn. repeat split; auto. lia.
    + right. apply Q. unfold placed_r. rewrite Bl. cbn. repeat split; auto. congruence.
  - split; [reflexivity|]. destruct (Pi Pu) as [_ Q]. intros [b i] (A & B & C). cbn in *.
    destruct A as [->|A].
    + specialize (C eq_refl). left. f_equal. lia.
    + right. apply Q. unfold placed_r. rewrite Bl. cbn. split; [assumption|]. split; [assumption|].
      intros _. lia.
Qed.
Lemma free_pinv m live r m' :
  rinv (m, live) -> pinv (m, live) -> In r live -> free_rec capacity m r = Some m' ->
  pinv (m', filter (fun q => negb (rptr_eqb q r)) live).
Proof.
  intros (fl & F & N & P & NB & BN & LA & L2 & LL) Pi I E Pu. unfold free_rec in E.
  destruct (r_alloc m) as [|a] eqn:Al; [discriminate|].
  destruct (r_live m) as [|lv]; [discriminate|].
  destruct (r_blocks m) as [|last back] eqn:Bl; [discriminate|].
  destruct (rptr_eqb_spec r (last, a)) as [Er|D]; [|destruct a; injection E as <-; discriminate].
  assert (G : forall p, In (fst p) (last :: back) -> snd p < capacity ->
             (fst p = last -> snd p < a) -> r_pure m = true ->
             In p (filter (fun q => negb (rptr_eqb q r)) live)).
  { intros p A B C Pm. apply filter_ne. split.
    - destruct (Pi Pm) as [_ Q]. apply Q. unfold placed_r. rewrite Bl, Al. split; [assumption|].
      split; [assumption|]. cbn. intros [= E1]. specialize (C (eq_sym E1)). lia.
    - intros ->. rewrite Er in C. cbn in C. specialize (C eq_refl). lia. }
  assert (Pm : r_pure m = true) by (destruct a, back; injection E as <-; exact Pu).
  destruct (Pi Pm) as [Fr _].
  destruct a as [|a].
  - destruct back as [|b back]; injection E as <-; cbn.
    + split; [assumption|]. intros p (A & B & C). cbn in *. apply G; auto.
    + split; [assumption|]. intros p (A & B & C). cbn in *. apply G; auto.
      intros E1. apply NoDup_cons_iff in NB as [NB _]. rewrite E1 in A. destruct (NB A).
  - assert (E1 : m' = mkR (last :: back) (r_free m) (S a) lv (r_pure m) (r_mem m))
      by (destruct back; congruence).
    subst m'. cbn. split; [assumption|]. intros p (A & B & C). cbn in *. apply G; auto.
Qed.

Lemma rrun_pinv x l y : rrun capacity x l y -> rinv x -> pinv x -> pinv y.
Proof.
  induction 1 as [|x o y l z A St R IH]; auto. intros I J.
  destruct St; cbn in A.
  - destruct (new_inv m live blk I A) as (p' & m1 & E & _ & I1 & _).
    assert (p' = p /\ m1 = m') as [-> ->] by (split; congruence).
    apply IH; [assumption|]. eapply new_pinv; eauto.
  - destruct (free_inv m live r I A) as (m1 & E & I1).
    assert (m1 = m') as -> by congruence. apply IH; [assumption|]. eapply free_pinv; eauto.
  - apply IH; [now apply write_inv|]. exact J.
Qed.

Lemma rec_element_placed m p :
  NoDup (r_blocks m) -> r_alloc m <= capacity ->
  (exists i, rec_element capacity m i = Some p) <-> placed_r m p.
Proof.
  intros NB LA. unfold rec_element. split.
  - intros (i & E). destruct (nth_error (rev (r_blocks m)) (i / capacity)) as [b|] eqn:Eb; [|discriminate].
    destruct (Nat.eqb_spec (S (i / capacity)) (length (r_blocks m))) as [El|El]; cbn in E.
    + destruct (Nat.leb_spec (r_alloc m) (i mod capacity)); [discriminate|].
      injection E as <-. split; cbn.
      * apply in_rev. now apply nth_error_In in Eb.
      * split; [apply Nat.mod_upper_bound; lia|auto].
    + injection E as <-. split; cbn.
      * apply in_rev. now apply nth_error_In in Eb.
      * split; [apply Nat.mod_upper_bound; lia|]. intros Hd. exfalso.
        destruct (r_blocks m) as [|h t] eqn:Bl; [discriminate|]. injection Hd as ->.
        cbn in Eb. apply NoDup_rev in NB. cbn in NB.
        assert (Ln : nth_error (rev t ++ [b]) (length t) = Some b).
        { rewrite nth_error_app2 by (rewrite rev_length; lia). now rewrite rev_length, Nat.sub_diag. }
        rewrite NoDup_nth_error in NB. cbn in El.
        assert (i / capacity = length t); [|lia]. apply NB; [|congruence].
        apply nth_error_Some. congruence.
  - destruct p as [b i]. intros (A & B & C). cbn in A, B, C. apply in_rev, In_nth_error in A as (k & Ek).
    exists (k * capacity + i).
    assert (D1 : (k * capacity + i) / capacity = k).
    { rewrite Nat.div_add_l, Nat.div_small by lia. lia. }
    assert (D2 : (k * capacity + i) mod capacity = i).
    { rewrite Nat.add_comm, Nat.mod_add, Nat.mod_small by lia. lia. }
    rewrite D1, D2, Ek.
    destruct (Nat.eqb_spec (S k) (length (r_blocks m))) as [El|El]; cbn; [|reflexivity].
    destruct (r_blocks m) as [|h t] eqn:Bl; [discriminate|]. cbn in *.
    rewrite nth_error_app2 in Ek by (rewrite rev_length; lia).
    rewrite rev_length in Ek. replace (k - length t) with 0 in Ek by lia. injection Ek as ->.
    specialize (C eq_refl). destruct (Nat.leb_spec (r_alloc m) i); [lia|reflexivity].
Qed.
End R.
