(** * The property theorems' lemmas, and stores to try them on *)

From Coq Require Import List Bool Arith NArith ZArith Lia Permutation.
Import ListNotations.
From Verif Require Import RcModel RcSpec RcInv RcDec RcGc RcWalk RcFire RcLoop RcMain RcSim RcLock.

(** ** Weak head normal forms *)

Lemma head_lnk st n r k : head st n r k -> exists sp, lnk st r sp n /\ length sp = k.
Proof.
  induction 1 as [n|n l a r k e h (sp & h1 & h2)].
  - exists []. split; reflexivity.
  - exists (sp ++ [n]). split.
    + apply lnk_app. exists l. split; auto. cbn. eauto.
    + rewrite app_length. cbn. lia.
Qed.

Lemma lnk_head st sp : forall n r, lnk st r sp n -> head st n r (length sp).
Proof.
  induction sp as [|s sp IH] using rev_ind; intros n r h.
  - cbn in h. subst. constructor.
  - apply lnk_snoc in h. destruct h as (-> & l & a & e & h).
    rewrite app_length. cbn. rewrite Nat.add_1_r. eapply head_app; eauto.
Qed.

Lemma value_whnf st n : value st n <-> whnf st n.
Proof.
  split.
  - intros (r & k & h & w). destruct (head_lnk _ _ _ _ h) as (sp & h1 & <-).
    exists r, sp. split; auto. destruct (cell st r); cbn; auto; apply length_zero_iff_nil; auto.
  - intros (r & sp & h & w). exists r, (length sp). split; [apply lnk_head; auto|].
    destruct (cell st r); cbn in w; auto; subst; reflexivity.
Qed.

Lemma good_sound R vd st : In (vd, true) R ->
  (good R vd st <-> (exists L, sound st L (rts R)) /\ rc st vd = 3%N /\ cell st vd = Void).
Proof.
  intros hv. unfold good, vdok. split; intros [(L & h) h2]; (split; [|exact h2]); exists L;
    apply inv_sound; exact h.
Qed.

(** ** The operations *)

Theorem count_down st L n rt : sound st L (n :: rt) ->
  exists st' L', dec (S (top st)) st n = Some st' /\ sound st' L' rt /\ incl L' L /\
    tabs st' = tabs st /\ forall m, reach st rt m -> In m L' /\ cell st' m = cell st m.
Proof.
  intros h. apply inv_sound in h.
  assert (hl : length L < S (top st)).
  { pose proof (i_part _ _ _ _ _ h) as p. apply Permutation_length in p.
    rewrite app_length, seq_length in p. lia. }
  destruct (dec_ok _ _ _ _ _ _ h hl) as (st' & L' & e & h' & s).
  exists st', L'. split; auto. split; [apply inv_sound; auto|]. split; [apply s|]. split; [apply s|].
  intros m hm. assert (hi : In m L').
  { eapply inv_reach; [exact h'|]. apply (shrink_reach _ _ _ _ _ _ m h' s). exact hm. }
  split; auto. apply s. exact hi.
Qed.

Theorem collected st R :
  (forall n, reach st (map fst R) n -> n < top st /\ cell st n <> Dead /\
     forall b k, cell st n = Tab b k -> k < length (tabs st)) ->
  exists st' L, collect R st = Some st' /\ sound st' L (map fst R) /\
    (forall n, In n L <-> reach st (map fst R) n) /\
    (forall n, In n (free st') <-> n < top st /\ ~ reach st (map fst R) n) /\
    (forall n, In n L -> cell st' n = cell st n) /\ tabs st' = tabs st /\
    (forall n, In (n, true) R -> rc st' n = 3%N).
Proof.
  intros h. assert (hc : closed st (rts R)).
  { split; [intros n hn; apply h; exact hn|intros n hn; apply h; exact hn|].
    intros n b k hn. apply h. exact hn. }
  destruct (collect_ok st R hc) as (st' & L & q1 & q2 & q3 & q4 & q5 & q6 & q7 & q8).
  exists st', L. split; auto. split; [apply inv_sound; exact q2|]. split; auto.
  split; [|auto]. intros n. rewrite <- (q3 n). pose proof (i_part _ _ _ _ _ q2) as p. cbn [app] in p.
  assert (nd : NoDup (L ++ free st')).
  { eapply Permutation_NoDup; [apply Permutation_sym; exact p|apply seq_NoDup]. }
  assert (hin : In n (L ++ free st') <-> n < top st').
  { split; intros hn.
    - apply (Permutation_in _ p) in hn. apply in_seq in hn. lia.
    - apply (Permutation_in _ (Permutation_sym p)). apply in_seq. lia. }
  rewrite q7 in hin. split.
  - intros hn. split; [apply hin; apply in_or_app; auto|]. intros hl.
    clear - nd hn hl. induction L as [|a L IH]; [destruct hl|].
    cbn in nd. inversion nd; subst. destruct hl as [->|hl]; auto.
    apply H1. apply in_or_app. auto.
  - intros [h1 h2]. apply hin in h1. apply in_app_or in h1. destruct h1; [contradiction|auto].
Qed.

Theorem allocated st L rt c n st' :
  sound st L rt -> c <> Dead -> (forall b k, c <> Tab b k) -> (forall x, In x (kids c) -> In x L) ->
  alloc st c = (n, st') ->
  ~ In n L /\ cell st' n = c /\ (forall m, m <> n -> cell st' m = cell st m) /\
  sound (incr_all st' (kids c)) (n :: L) (n :: rt).
Proof.
  intros h hd ht hk e. apply inv_sound in h.
  destruct (inv_alloc _ _ _ _ _ _ _ _ h hd hk ht e) as (h1 & h2 & h3 & _).
  split; auto. rewrite h3. split; [apply upd_same|]. split; [intros m hm; apply upd_other; exact hm|].
  apply inv_sound. apply inv_incr_all. exact h1.
Qed.

Theorem protected st L rt tbl g b tbl' st' :
  sound st L rt -> In g L -> gc_protect tbl st g = (b, (tbl', st')) ->
  In g tbl' /\ sound st' L (g :: rt) /\ cell st' = cell st.
Proof.
  intros h hg e. unfold gc_protect in e.
  assert (hin : In g tbl' /\ st' = set_rc st g 3%N).
  { destruct (existsb (Nat.eqb g) tbl) eqn:ex; injection e as <- <- <-; split; auto.
    - apply existsb_exists in ex. destruct ex as (y & hy & q). apply Nat.eqb_eq in q. subst y. exact hy.
    - left. reflexivity. }
  destruct hin as [h1 ->]. split; auto. split; [|reflexivity].
  destruct h as [a1 a2 a3 a4 a5].
  assert (hp : forall n, pointers (set_rc st g 3%N) L (g :: rt) n
                         = pointers st L rt n + (if g =? n then 1 else 0)).
  { intros n. change (pointers (set_rc st g 3%N) L (g :: rt) n) with (pointers st L (g :: rt) n).
    unfold pointers. rewrite occ_cons. lia. }
  split; auto.
  - intros n. rewrite hp. destruct (Nat.eqb_spec g n) as [<-|ne]; auto. rewrite Nat.add_0_r. apply a2.
  - intros n hn. rewrite hp. cbn [rc set_rc]. destruct (Nat.eqb_spec g n) as [<-|ne].
    + left. apply upd_same.
    + rewrite upd_other, Nat.add_0_r by congruence. apply a3. exact hn.
Qed.

Theorem unprotect_nothing tbl g : snd (gc_unprotect tbl g) = tbl.
Proof.
  unfold gc_unprotect. destruct (existsb (Nat.eqb g) tbl) eqn:e; auto. cbn [snd].
  induction tbl as [|a tbl IH]; auto. cbn [existsb filter] in *.
  apply orb_false_elim in e. destruct e as [-> e]. cbn [negb]. f_equal. auto.
Qed.

Theorem evaluated mm R vd f st L x y st' :
  In (vd, true) R -> rc st vd = 3%N -> cell st vd = Void -> sound st L (map fst R) ->
  In x (map fst R) -> eval mm R vd f st x = Some (y, st') ->
  y = x /\ value st' x /\ (exists L', sound st' L' (map fst R)) /\
  rc st' vd = 3%N /\ cell st' vd = Void /\
  forall n, In n (map fst R) -> value st n -> cell st' n = cell st n.
Proof.
  intros hv h1 h2 h3 hx e.
  assert (g : good R vd st) by (apply good_sound; eauto).
  destruct (go_ok mm R vd hv f st x [] x [] y st' g (fr_nil R vd st x hx) eq_refl e)
    as (q1 & q2 & q3 & q4).
  apply good_sound in q2; auto. destruct q2 as (q5 & q6 & q7).
  split; auto. split; [apply value_whnf; exact q4|]. split; auto. split; auto. split; auto.
  intros n hn w. apply q3; [apply sr_root; exact hn|]. apply whnf_safe. apply value_whnf. exact w.
Qed.

Theorem unnoticed m1 m2 R vd f st1 st2 x :
  In (vd, true) R -> rc st1 vd = 3%N -> rc st2 vd = 3%N -> cell st1 vd = Void ->
  (exists L, sound st1 L (map fst R)) -> (exists L, sound st2 L (map fst R)) ->
  same_graph st1 st2 -> In x (map fst R) ->
  match eval m1 R vd f st1 x, eval m2 R vd f st2 x with
  | None, None => True
  | Some (_, a), Some (_, b) => forall r d, In r (map fst R) -> see d a r = see d b r
  | _, _ => False
  end.
Proof.
  intros hv h1 h2 h3 h4 h5 [h6 h7] hx.
  assert (g1 : good R vd st1) by (apply good_sound; auto).
  assert (g2 : good R vd st2) by (apply good_sound; auto; rewrite h6; auto).
  pose proof (same_result m1 m2 R vd hv f st1 st2 x g1 g2 h6 h7 hx) as Q.
  destruct (eval m1 R vd f st1 x) as [[y a]|], (eval m2 R vd f st2 x) as [[z b]|]; auto.
  destruct Q as (_ & _ & q). exact q.
Qed.

(** ** Deciding soundness *)

Definition coversb (r : N) (h : nat) : bool :=
  N.eqb r 3 || (N.eqb r 0 && (h <=? 1)) || (N.eqb r 1 && (h <=? 2)).

Fixpoint distinct (l : list addr) : bool :=
  match l with [] => true | a :: l => negb (existsb (Nat.eqb a) l) && distinct l end.

Definition mem (n : addr) (l : list addr) : bool := existsb (Nat.eqb n) l.

Definition soundb st (L rt : list addr) : bool :=
  let all := L ++ free st in
  distinct all && forallb (fun n => n <? top st) all && forallb (fun n => mem n all) (seq 0 (top st))
  && forallb (fun n => mem n L) (rt ++ flat_map (fun m => kids (cell st m)) L ++ tab_refs st L)
  && forallb (fun n => coversb (rc st n) (pointers st L rt n)) L
  && forallb (fun n => match cell st n with Dead => false | Tab _ k => k <? length (tabs st) | _ => true end) L.

Lemma mem_In n l : mem n l = true -> In n l.
Proof. intros h. apply existsb_exists in h. destruct h as (y & h & e). apply Nat.eqb_eq in e. subst y. exact h. Qed.

Lemma distinct_ok l : distinct l = true -> NoDup l.
Proof.
  induction l as [|a l IH]; cbn; [constructor|]. intros h. apply andb_prop in h. destruct h as [h1 h2].
  constructor; auto. intros hi. apply negb_true_iff in h1.
  assert (q : existsb (Nat.eqb a) l = true).
  { apply existsb_exists. exists a. split; auto. apply Nat.eqb_refl. }
  congruence.
Qed.

Lemma soundb_ok st L rt : soundb st L rt = true -> sound st L rt.
Proof.
  unfold soundb. rewrite !andb_true_iff, !forallb_forall.
  intros [[[[[h1 h2] h3] h4] h5] h6]. split.
  - split; [apply distinct_ok; exact h1|]. intros n. split.
    + intros hn. apply Nat.ltb_lt. auto.
    + intros hn. apply mem_In. apply h3. apply in_seq. lia.
  - intros n hn. apply mem_In. apply h4. unfold pointers, occ in hn.
    apply in_or_app. destruct (In_dec Nat.eq_dec n rt) as [q|q]; auto. right. apply in_or_app.
    destruct (In_dec Nat.eq_dec n (flat_map (fun m => kids (cell st m)) L)) as [q'|q']; auto. right.
    apply (count_occ_not_In Nat.eq_dec) in q, q'. apply (count_occ_In Nat.eq_dec). lia.
  - intros n hn. specialize (h5 n hn). unfold coversb in h5.
    apply orb_prop in h5. destruct h5 as [h5|h5]; [apply orb_prop in h5; destruct h5 as [h5|h5]|].
    + left. apply N.eqb_eq. exact h5.
    + apply andb_prop in h5. destruct h5 as [e1 e2]. right. left.
      apply N.eqb_eq in e1. apply Nat.leb_le in e2. auto.
    + apply andb_prop in h5. destruct h5 as [e1 e2]. right. right.
      apply N.eqb_eq in e1. apply Nat.leb_le in e2. auto.
  - intros n hn e. specialize (h6 n hn). rewrite e in h6. discriminate.
  - intros n b k hn e. specialize (h6 n hn). rewrite e in h6. apply Nat.ltb_lt. exact h6.
Qed.

(** ** A program

    [r := ref 7; r := (hd (tl ones)) + (IF F THEN error ELSE S K K (hd (tl ones))); deref r]
    where [ones = 7:ones] is a cyclic list made by [Y], and [hd (tl ones)] is
    shared. *)

Definition prog : list node :=
  [ Void; Prim pPLUS; Prim pHEAD; Prim pTAIL; Prim pY; Prim pCONS; Int 7;
    App 5 6; App 4 7; App 3 8; App 2 9; App 1 10;
    Prim pCOND; Bool false; App 12 13; Fail; App 14 15;
    Prim pS; Prim pK; App 17 18; App 19 18; App 20 10; App 16 21; App 11 22;
    Prim pMKREF; App 24 6; Prim pUPDATE; App 26 25; App 27 23;
    Prim pSEQ; App 29 28; Prim pDEREF; App 31 25; App 30 32 ].

Definition roots : list (addr * bool) := [(0, true); (33, false)].

Definition bits (n : addr) (h : nat) : N :=
  if n =? 0 then 3%N else match h with 0 | 1 => 0%N | 2 => 1%N | _ => 3%N end.

(** Three free nodes are there at the start. *)
Definition load (l : list node) (g : list bool) : store :=
  let n := length l in
  let st := Store (n + 3) (fun m => nth m l Dead) (fun _ => 0%N) (seq n 3) [] g in
  Store (top st) (cell st) (fun m => bits m (pointers st (seq 0 n) (map fst roots) m))
        (free st) (tabs st) (gcs st).

Definition often : list bool := [true; true; false; true; true; false; false; true; true; true;
  false; true; true; true; true; true; false; true; true; true; true; false; true; true; true; true].

Definition outcome (r : option (addr * store)) : option (addr * view * nat) :=
  match r with
  | Some (y, st) => Some (y, see 4 st y, length (free st))
  | None => None
  end.

Example load_sound : forall g, sound (load prog g) (seq 0 34) (map fst roots).
Proof. intros g. apply soundb_ok. vm_compute. reflexivity. Qed.

(** With reference counts alone; with collections at most steps; without memory
    management: the same answer, with 28, 27 and 1 free nodes of 37. *)
Example run_counts : outcome (eval true roots 0 60 (load prog []) 33) = Some (33, VLeaf (Int 14), 28).
Proof. vm_compute. reflexivity. Qed.

Example run_often : outcome (eval true roots 0 60 (load prog often) 33) = Some (33, VLeaf (Int 14), 27).
Proof. vm_compute. reflexivity. Qed.

Example run_without : outcome (eval false roots 0 60 (load prog []) 33) = Some (33, VLeaf (Int 14), 1).
Proof. vm_compute. reflexivity. Qed.

(** A collection after the run leaves the answer and [void]. *)
Example run_collect :
  match eval true roots 0 60 (load prog []) 33 with
  | Some (_, st) =>
      match collect roots st with
      | Some st => Some (length (free st), filter (fun n => negb (mem n (free st))) (seq 0 (top st)))
      | None => None
      end
  | None => None
  end = Some (35, [0; 33]).
Proof. vm_compute. reflexivity. Qed.

(** Giving the program up frees all of it but [void]. *)
Example give_up :
  match dec (S (top (load prog []))) (load prog []) 33 with
  | Some st => Some (length (free st))
  | None => None
  end = Some 36.
Proof. vm_compute. reflexivity. Qed.

(** ** A leak

    [deref (ref 7)]: no cycle and no saturated count.  [P_DEREFERENCE] (4461-4489)
    counts the redex up and does not count the leaf [P_DEREF] down. *)
Definition leaky : list node :=
  [ Void; Prim pDEREF; Prim pMKREF; Int 7; App 2 3; App 1 4 ].
Definition roots2 : list (addr * bool) := [(0, true); (5, false)].
Definition load2 : store :=
  Store 6 (fun m => nth m leaky Dead) (fun m => if m =? 0 then 3%N else 0%N) [] [] [].

Example load2_sound : sound load2 (seq 0 6) (map fst roots2).
Proof. apply soundb_ok. vm_compute. reflexivity. Qed.

Lemma not_reached R st st' L n :
  sound st L (map fst R) -> collect R st = Some st' -> In n (free st') -> ~ reach st (map fst R) n.
Proof.
  intros h e hn. apply inv_sound in h. destruct (inv_closed _ _ _ _ _ h) as [c1 c2 c3].
  destruct (collected st R) as (st2 & L2 & q1 & _ & _ & q2 & _).
  { intros m hm. split; [apply c1; exact hm|]. split; [apply c2; exact hm|]. intros b k. apply c3. exact hm. }
  rewrite e in q1. injection q1 as <-. apply q2. exact hn.
Qed.

Definition leaked (n : addr) : bool :=
  match eval true roots2 0 20 load2 5 with
  | Some (_, st) =>
      match collect roots2 st with
      | Some st2 => negb (mem n (free st)) && mem n (free st2) && N.eqb (rc st n) 0
      | None => false
      end
  | None => false
  end.

Example leaked_1 : leaked 1 = true.
Proof. vm_compute. reflexivity. Qed.

Theorem leak : exists R vd f st L x st' n,
  In (vd, true) R /\ rc st vd = 3%N /\ cell st vd = Void /\ sound st L (map fst R) /\
  In x (map fst R) /\ (forall m, In m L -> m <> vd -> rc st m = 0%N) /\
  eval true R vd f st x = Some (x, st') /\
  n < top st' /\ ~ In n (free st') /\ ~ reach st' (map fst R) n /\ rc st' n = 0%N.
Proof.
  destruct (eval true roots2 0 20 load2 5) as [[y st']|] eqn:e.
  2:{ pose proof leaked_1 as q. unfold leaked in q. rewrite e in q. discriminate. }
  pose proof leaked_1 as q. unfold leaked in q. rewrite e in q.
  destruct (collect roots2 st') as [st2|] eqn:ec; [|discriminate].
  apply andb_prop in q. destruct q as [q q3]. apply andb_prop in q. destruct q as [q1 q2].
  assert (hv : In (0, true) roots2) by (left; reflexivity).
  assert (hx : In 5 (map fst roots2)) by (right; left; reflexivity).
  destruct (evaluated true roots2 0 20 load2 (seq 0 6) 5 y st' hv eq_refl eq_refl load2_sound hx e)
    as (-> & _ & (L' & s') & _).
  exists roots2, 0, 20, load2, (seq 0 6), 5, st', 1.
  split; auto. split; [reflexivity|]. split; [reflexivity|]. split; [exact load2_sound|]. split; auto.
  split.
  { intros m hm ne. cbn. destruct (Nat.eqb_spec m 0); [contradiction|reflexivity]. }
  split; [exact e|]. split.
  { revert e. clear. intros e.
    assert (t : option_map (fun r => top (snd r)) (eval true roots2 0 20 load2 5) = Some 6) by (vm_compute; reflexivity).
    rewrite e in t. cbn in t. injection t as ->. lia. }
  split.
  { intros hi. apply negb_true_iff in q1.
    assert (z : mem 1 (free st') = true).
    { apply existsb_exists. exists 1. split; auto. }
    congruence. }
  split; [|apply N.eqb_eq; exact q3].
  eapply not_reached; [exact s'|exact ec|]. apply mem_In. exact q2.
Qed.
