(* Abstract types are scopes. *)
From Coq Require Import Arith List Bool Lia.
From Verif Require Import AdtModel AdtSpec.
Import ListNotations.

Definition seen (l : list def) (n : nat) : option def := find (fun d => visible d && Nat.eqb (name d) n) l.
Definition named (l : list def) (n : nat) : option def := find (fun d => Nat.eqb (name d) n) l.

(* --- lists ------------------------------------------------------------------------ *)

Lemma find_app {A} f (l r : list A) : find f (l ++ r) = match find f l with Some x => Some x | None => find f r end.
Proof. induction l as [|x l IH]; simpl; auto. destruct (f x); auto. Qed.
Lemma seen_app l r n : seen (l ++ r) n = match seen l n with Some d => Some d | None => seen r n end.
Proof. apply find_app. Qed.
Lemma named_app l r n : named (l ++ r) n = match named l n with Some d => Some d | None => named r n end.
Proof. apply find_app. Qed.
Lemma seen_some l n d : seen l n = Some d -> In d l /\ visible d = true /\ name d = n.
Proof.
  intros H. apply find_some in H. destruct H as [I H]. apply andb_true_iff in H. destruct H as [V E].
  apply Nat.eqb_eq in E. auto.
Qed.
Lemma named_none l n : named l n = None -> seen l n = None.
Proof.
  intros H. destruct (seen l n) as [d|] eqn:E; auto. apply seen_some in E. destruct E as (I & V & N).
  pose proof (find_none _ _ H d I) as F. simpl in F. rewrite N, Nat.eqb_refl in F. discriminate.
Qed.
Lemma named_in l n : named l n = None <-> ~ In n (map name l).
Proof.
  induction l as [|d l IH]; simpl; [tauto|]. unfold named in *. simpl.
  destruct (Nat.eqb_spec (name d) n) as [E|E].
  - split; [discriminate|]. intros H. destruct H. auto.
  - rewrite IH. split; [intros H [K|K]; auto|auto].
Qed.
Lemma mem_in n l : mem n l = true <-> In n l.
Proof.
  unfold mem. rewrite existsb_exists. split.
  - intros (m & I & E). apply Nat.eqb_eq in E. subst. exact I.
  - intros I. exists n. split; [exact I|apply Nat.eqb_refl].
Qed.
Lemma pointed_in l d : NoDup (map id l) -> In d l -> pointed l (id d) = Some d.
Proof.
  induction l as [|c l IH]; simpl; intros N I; [destruct I|]. unfold pointed in *. simpl.
  inversion N; subst. destruct I as [->|I]; [rewrite Nat.eqb_refl; reflexivity|].
  destruct (Nat.eqb_spec (id c) (id d)) as [E|E]; [|auto].
  destruct H1. rewrite E. apply in_map. exact I.
Qed.

(* --- the table -------------------------------------------------------------------- *)

Lemma look_none t n : look t n = None <-> ~ In n (map fst t).
Proof.
  induction t as [|[m i] t IH]; simpl; [tauto|]. destruct (Nat.eqb_spec m n) as [E|E].
  - split; [discriminate|]. intros H. destruct H. auto.
  - rewrite IH. split; [intros H [K|K]; auto|auto].
Qed.
Lemma look_drop_other t n m : m <> n -> look (drop t n) m = look t m.
Proof.
  induction t as [|[k i] t IH]; simpl; intros H; [reflexivity|].
  destruct (Nat.eqb_spec k n) as [E|E]; simpl.
  - destruct (Nat.eqb_spec k m) as [F|F]; [congruence|reflexivity].
  - destruct (Nat.eqb_spec k m) as [F|F]; auto.
Qed.

(* --- the invariant ---------------------------------------------------------------- *)

Record inv (s : state) : Prop := {
  i_ids : NoDup (map id (defs s));
  i_next : Forall (fun d => id d < next s) (defs s);
  i_some : defs s <> [];
  i_tbl : forall n, look (tbl s) n = option_map id (seen (defs s) n);
  i_level : Forall (fun d => visible d = true -> level d <= adt_level s) (defs s);
  i_plain : Forall (fun d => exported d = false) (defs s) }.
Lemma meaning_seen s n : inv s -> meaning s n = option_map value (seen (defs s) n).
Proof.
  intros I. unfold meaning. rewrite (i_tbl s I). destruct (seen (defs s) n) as [d|] eqn:E; simpl; auto.
  apply seen_some in E. rewrite pointed_in; [reflexivity|apply I|apply E].
Qed.

(* --- definitions ------------------------------------------------------------------ *)

(* Old definitions may be hidden by new ones of the same level. *)
Definition older (lv : nat) (ns : list nat) (d d' : def) : Prop :=
  d' = d \/ (visible d = true /\ level d = lv /\ In (name d) ns /\ d' = hide d).
Lemma older_names lv ns l l' : Forall2 (older lv ns) l l' -> map name l' = map name l /\ map id l' = map id l.
Proof.
  induction 1 as [|d d' l l' H F [IH1 IH2]]; simpl; [auto|]. rewrite IH1, IH2.
  destruct H as [->|(_ & _ & _ & ->)]; auto.
Qed.
Lemma older_refl lv ns l : Forall2 (older lv ns) l l.
Proof. induction l; constructor; auto. left. reflexivity. Qed.
Lemma older_trans lv ns ms l l' l'' : Forall2 (older lv ns) l l' -> Forall2 (older lv ms) l' l'' ->
  Forall2 (older lv (ns ++ ms)) l l''.
Proof.
  intros H. revert l''. induction H as [|d d' l l' A F IH]; intros l'' G; inversion G; subst; constructor; auto.
  match goal with K : older lv ms d' _ |- _ => rename K into B end.
  destruct A as [->|(V & L & I & ->)].
  - destruct B as [->|(V & L & I & ->)]; [left; reflexivity|]. right. repeat split; auto. apply in_app_iff. auto.
  - destruct B as [->|(V2 & _)]; [|discriminate V2]. right. repeat split; auto. apply in_app_iff. auto.
Qed.
Lemma older_other lv ns l l' n : Forall2 (older lv ns) l l' -> ~ In n ns ->
  named l' n = named l n /\ seen l' n = seen l n.
Proof.
  unfold named, seen. intros H N. induction H as [|d d' l l' A F [IH1 IH2]]; simpl; [auto|].
  rewrite IH1, IH2. destruct A as [->|(V & L & I & ->)]; [auto|]. simpl.
  destruct (Nat.eqb_spec (name d) n) as [E|E]; [subst; contradiction|]. rewrite andb_false_r. auto.
Qed.
Lemma older_same lv ns l l' : Forall2 (older (S lv) ns) l l' ->
  Forall (fun d => visible d = true -> level d <= lv) l -> l' = l.
Proof.
  induction 1 as [|d d' l l' A F IH]; intros G; [reflexivity|]. inversion G; subst. f_equal; auto.
  destruct A as [->|(V & L & _)]; [reflexivity|]. match goal with K : _ -> level d <= lv |- _ => specialize (K V) end. lia.
Qed.

Lemma change_hide_seen i l n d m : NoDup (map id l) -> In d l -> id d = i -> name d = n -> m <> n ->
  seen (change hide i l) m = seen l m.
Proof.
  intros ND I E N M. unfold seen, change.
  assert (forall c, In c l -> id c = i -> c = d) as U.
  { intros c J K. pose proof (pointed_in l c ND J) as A. rewrite K, <- E, (pointed_in l d ND I) in A. congruence. }
  clear I. induction l as [|c l IH]; simpl; [reflexivity|]. inversion ND; subst.
  rewrite IH; [|assumption|intros; apply U; simpl; auto].
  destruct (Nat.eqb_spec (id c) (id d)) as [Q|Q]; [|reflexivity].
  rewrite (U c (or_introl eq_refl) Q). simpl.
  destruct (Nat.eqb_spec (name d) m); [congruence|]. rewrite andb_false_r. reflexivity.
Qed.
Lemma change_id l i : map id (change hide i l) = map id l.
Proof. unfold change. rewrite map_map. apply map_ext. intros d. destruct (Nat.eqb _ _); reflexivity. Qed.
Lemma change_older l i d n lv : NoDup (map id l) -> In d l -> id d = i -> name d = n -> visible d = true -> level d = lv ->
  Forall2 (older lv [n]) l (change hide i l).
Proof.
  intros ND I E N V L.
  assert (forall c, In c l -> id c = i -> c = d) as U.
  { intros c J K. pose proof (pointed_in l c ND J) as A. rewrite K, <- E, (pointed_in l d ND I) in A. congruence. }
  clear I ND. induction l as [|c l IH]; simpl; constructor.
  - destruct (Nat.eqb_spec (id c) i) as [Q|Q]; [|left; reflexivity].
    rewrite (U c (or_introl eq_refl) Q). right. subst. simpl. auto.
  - apply IH. intros; apply U; simpl; auto.
Qed.
Lemma older_inv lv ns l l' (P : def -> Prop) : Forall2 (older lv ns) l l' ->
  (forall d, P d -> P (hide d)) -> Forall P l -> Forall P l'.
Proof.
  intros H K. induction H as [|d d' l l' A F IH]; intros G; constructor; inversion G; subst; auto.
  destruct A as [->|(_ & _ & _ & ->)]; auto.
Qed.

Lemma new_def_ok n v s : inv s ->
  let s' := new_def n v s in
  inv s' /\ adt_level s' = adt_level s /\ buf s' = buf s /\
  exists olds, defs s' = Def (next s) n v true false (adt_level s) :: olds /\
    Forall2 (older (adt_level s) [n]) (defs s) olds.
Proof.
  intros I. unfold new_def. set (d := Def (next s) n v true false (adt_level s)). cbv zeta.
  unfold update_stbl. cbn [defs tbl buf adt_level next]. rewrite (i_tbl s I (name d)).
  change (name d) with n. change (id d) with (next s). change (level d) with (adt_level s).
  assert (FR : forall c, In c (defs s) -> id c < next s) by (apply Forall_forall; apply I).
  assert (NI : ~ In (next s) (map id (defs s))).
  { intros K. apply in_map_iff in K. destruct K as (c & E & J). specialize (FR c J). lia. }
  assert (G : forall olds t, Forall2 (older (adt_level s) [n]) (defs s) olds ->
    (forall m, m <> n -> look t m = look (tbl s) m) ->
    inv (State (d :: olds) ((n, next s) :: t) (buf s) (adt_level s) (S (next s)))).
  { intros olds t OL LT. destruct (older_names _ _ _ _ OL) as [ON OI]. constructor; cbn [defs tbl next adt_level].
    - cbn [map]. constructor; [rewrite OI; exact NI|rewrite OI; apply I].
    - constructor; [simpl; lia|]. eapply older_inv; [exact OL|simpl; auto|].
      eapply Forall_impl; [|apply (i_next s I)]. simpl; intros; lia.
    - discriminate.
    - intros m. cbn [look]. unfold seen. cbn [find]. change (visible d) with true. change (name d) with n. cbn [andb].
      destruct (Nat.eqb_spec n m) as [E|E]; [reflexivity|].
      rewrite LT by auto. rewrite (i_tbl s I m). fold (seen olds m).
      destruct (older_other _ _ _ _ m OL) as [_ ->]; [intros [K|[]]; auto|]. reflexivity.
    - constructor; [simpl; auto|]. eapply older_inv; [exact OL|simpl; discriminate|apply (i_level s I)].
    - constructor; [reflexivity|]. eapply older_inv; [exact OL|simpl; auto|apply (i_plain s I)]. }
  destruct (seen (defs s) n) as [c|] eqn:SE; cbn [option_map].
  - destruct (seen_some _ _ _ SE) as (J & V & N).
    destruct (Nat.eqb_spec (id c) (next s)) as [Q|Q]; [specialize (FR c J); lia|].
    assert (PT : pointed (d :: defs s) (id c) = Some c).
    { unfold pointed. cbn [find]. change (id d) with (next s).
      destruct (Nat.eqb_spec (next s) (id c)); [congruence|]. apply pointed_in; [apply I|exact J]. }
    rewrite PT. destruct (Nat.eqb_spec (level c) (adt_level s)) as [L|L].
    + assert (CH : change hide (id c) (d :: defs s) = d :: change hide (id c) (defs s)).
      { unfold change. cbn [map]. change (id d) with (next s). destruct (Nat.eqb_spec (next s) (id c)); [congruence|reflexivity]. }
      rewrite CH.
      assert (OL : Forall2 (older (adt_level s) [n]) (defs s) (change hide (id c) (defs s))).
      { eapply change_older; eauto. apply I. }
      split; [apply G; [exact OL|intros; apply look_drop_other; auto]|].
      repeat split; auto. eexists; split; [reflexivity|exact OL].
    + split; [apply G; [apply older_refl|intros; apply look_drop_other; auto]|].
      repeat split; auto. eexists; split; [reflexivity|apply older_refl].
  - split; [apply G; [apply older_refl|auto]|].
    repeat split; auto. eexists; split; [reflexivity|apply older_refl].
Qed.

(* --- the end of an abstract type ------------------------------------------------- *)

Lemma keep_tbl_ok ns : forall keep, NoDup keep -> NoDup (keep_tbl ns keep) /\
  forall n, In n (keep_tbl ns keep) <-> In n ns \/ In n keep.
Proof.
  induction ns as [|m ns IH]; intros keep N; simpl; [split; [exact N|tauto]|].
  destruct (mem m keep) eqn:E.
  - apply mem_in in E. destruct (IH keep N) as [A B]. split; [exact A|]. intros n. rewrite B.
    split; [tauto|]. intros [[->|K]|K]; auto.
  - destruct (IH (m :: keep)) as [A B].
    { constructor; [|exact N]. rewrite <- mem_in. congruence. }
    split; [exact A|]. intros n. rewrite B. simpl. tauto.
Qed.
Lemma without_in n m l : NoDup l -> (In m (without n l) <-> In m l /\ m <> n).
Proof.
  induction 1 as [|k l K N IH]; simpl; [tauto|]. destruct (Nat.eqb_spec k n) as [->|E].
  - split.
    + intros I. split; auto. intros ->. contradiction.
    + intros [[->|I] D]; [contradiction|auto].
  - simpl. rewrite IH. split; [intros [->|[I D]]; auto|intros [[->|I] D]; auto].
Qed.
Lemma without_nodup n l : NoDup l -> NoDup (without n l).
Proof.
  induction 1 as [|k l K N IH]; simpl; [constructor|]. destruct (Nat.eqb_spec k n); [exact N|].
  constructor; [|exact IH]. rewrite without_in by exact N. tauto.
Qed.

Lemma close_ok lv : forall l keep t, NoDup keep -> Forall (fun d => exported d = false) l ->
  forall r t', close lv l keep t = (r, t') ->
  map id r = map id l /\ map name r = map name l /\
  Forall (fun d => exported d = false) r /\ Forall (fun d => visible d = true -> level d = lv) r /\
  (forall n, In n keep -> look t' n = match named l n with Some d => Some (id d) | None => look t n end) /\
  (forall n, ~ In n keep -> look t' n = look t n) /\
  (forall n, In n keep -> seen r n = option_map (show lv) (named l n) /\ named r n = seen r n) /\
  (forall n, ~ In n keep -> seen r n = None).
Proof.
  induction l as [|d l IH]; intros keep t N X r t' C; cbn [close] in C.
  - inversion C; subst. repeat split; auto; constructor.
  - inversion X; subst. match goal with K : exported d = false |- _ => rename K into XD; rewrite XD in C end.
    destruct (mem (name d) keep) eqn:M.
    + destruct (close lv l (without (name d) keep) ((name d, id d) :: t)) as [q u] eqn:Q. inversion C; subst; clear C.
      apply mem_in in M.
      destruct (IH _ _ (without_nodup (name d) keep N) ltac:(assumption) _ _ Q) as (A & B & E & F & G1 & G2 & HA & HB).
      cbn [map]. rewrite A, B. split; [reflexivity|]. split; [reflexivity|].
      split; [constructor; [exact XD|exact E]|]. split; [constructor; [reflexivity|exact F]|].
      assert (W : ~ In (name d) (without (name d) keep)) by (rewrite without_in by exact N; tauto).
      split; [|split; [|split]].
      * intros n I. unfold named. cbn [find]. fold (named l n). destruct (Nat.eqb_spec (name d) n) as [<-|D].
        -- rewrite G2 by exact W. cbn [look]. rewrite Nat.eqb_refl. reflexivity.
        -- rewrite G1 by (apply without_in; auto). cbn [look]. destruct (Nat.eqb_spec (name d) n); [congruence|reflexivity].
      * intros n I. assert (name d <> n) as D by congruence. rewrite G2.
        -- cbn [look]. destruct (Nat.eqb_spec (name d) n); [congruence|reflexivity].
        -- rewrite without_in by exact N. tauto.
      * intros n I. unfold seen, named. cbn [find show visible name]. fold (named l n) (seen q n) (named q n). cbn [andb].
        destruct (Nat.eqb_spec (name d) n) as [D|D]; [auto|]. apply HA. apply without_in; auto.
      * intros n I. assert (name d <> n) as D by congruence. unfold seen. cbn [find show visible name]. fold (seen q n).
        destruct (Nat.eqb_spec (name d) n); [congruence|]. cbn [andb]. apply HB. rewrite without_in by exact N. tauto.
    + destruct (close lv l keep t) as [q u] eqn:Q. inversion C; subst; clear C.
      assert (NM : ~ In (name d) keep) by (rewrite <- mem_in; congruence).
      destruct (IH _ _ N ltac:(assumption) _ _ Q) as (A & B & E & F & G1 & G2 & HA & HB).
      cbn [map]. rewrite A, B. split; [reflexivity|]. split; [reflexivity|].
      split; [constructor; [exact XD|exact E]|]. split; [constructor; [discriminate|exact F]|].
      split; [|split; [|split]].
      * intros n I. assert (name d <> n) as D by congruence. unfold named. cbn [find]. fold (named l n).
        destruct (Nat.eqb_spec (name d) n); [congruence|]. apply G1. exact I.
      * exact G2.
      * intros n I. assert (name d <> n) as D by congruence. unfold seen, named. cbn [find hide visible name].
        fold (named l n) (seen q n) (named q n). cbn [andb]. destruct (Nat.eqb_spec (name d) n); [congruence|]. apply HA. exact I.
      * intros n I. unfold seen. cbn [find hide visible]. cbn [andb]. fold (seen q n). apply HB. exact I.
Qed.

Lemma restore_ok l : forall t n,
  look (restore l t) n = match look t n with Some i => Some i | None => option_map id (seen l n) end.
Proof.
  induction l as [|d l IH]; intros t n; cbn [restore].
  - destruct (look t n); reflexivity.
  - rewrite IH. unfold seen. cbn [find]. fold (seen l n). destruct (visible d) eqn:V; cbn [andb].
    + destruct (look t (name d)) as [i|] eqn:E.
      * destruct (Nat.eqb_spec (name d) n) as [<-|D]; [rewrite E; reflexivity|reflexivity].
      * cbn [look]. destruct (Nat.eqb_spec (name d) n) as [<-|D]; [rewrite E; reflexivity|reflexivity].
    + reflexivity.
Qed.
Lemma cut_ok new c olds : NoDup (map id (new ++ c :: olds)) -> cut (id c) (new ++ c :: olds) = (new, c :: olds).
Proof.
  induction new as [|d new IH]; intros N; cbn [app cut].
  - rewrite Nat.eqb_refl. reflexivity.
  - inversion N; subst. destruct (Nat.eqb_spec (id d) (id c)) as [E|E].
    + match goal with K : ~ In _ _ |- _ => destruct K end. rewrite E. rewrite map_app. apply in_app_iff. right. left. reflexivity.
    + rewrite IH by assumption. reflexivity.
Qed.

(* --- programs --------------------------------------------------------------------- *)

Lemma run_app l r s : run (l ++ r) s = run r (run l s).
Proof. apply fold_left_app. Qed.
Lemma existsb_mem n l : existsb (Nat.eqb n) l = true <-> In n l.
Proof. exact (mem_in n l). Qed.

Lemma run_ok p : forall s e e', inv s -> (forall n, option_map value (seen (defs s) n) = e n) ->
  scope p e = Some e' -> apart p ->
  let s' := run (typed p) s in
  inv s' /\ adt_level s' = adt_level s /\ buf s' = buf s /\
  (forall n, option_map value (seen (defs s') n) = e' n) /\
  exists new olds, defs s' = new ++ olds /\ Forall2 (older (adt_level s) (names p)) (defs s) olds /\
    (forall n, In n (map name new) <-> In n (names p)) /\
    (forall n, ~ In n (kept p) -> named new n = seen new n).
Proof.
  induction p as [|n v r IH|b IHb ex r IHr]; intros s e e' I E SC AP; cbv zeta.
  - cbn [typed run fold_left]. inversion SC; subst. repeat split; auto; try apply I.
    exists [], (defs s). repeat split; auto; try (simpl; tauto). apply older_refl.
  - cbn [typed]. change (run (Let n v :: typed r) s) with (run (typed r) (new_def n v s)).
    destruct (new_def_ok n v s I) as (I1 & L1 & B1 & o1 & D1 & O1).
    set (s1 := new_def n v s) in *. set (d := Def (next s) n v true false (adt_level s)) in *.
    cbn [scope] in SC.
    destruct (IH s1 (fun m => if Nat.eqb m n then Some v else e m) e' I1) as (I2 & L2 & B2 & E2 & new & olds & D2 & O2 & N2 & K2); auto.
    { intros m. rewrite D1. unfold seen. cbn [find]. change (visible d) with true. change (name d) with n. cbn [andb].
      rewrite (Nat.eqb_sym n m). destruct (Nat.eqb_spec m n) as [Q|Q]; [reflexivity|].
      fold (seen o1 m). destruct (older_other _ _ _ _ m O1) as [_ ->]; [intros [K|[]]; auto|]. apply E. }
    set (s2 := run (typed r) s1) in *.
    split; [exact I2|]. split; [congruence|]. split; [congruence|]. split; [exact E2|].
    rewrite D1 in O2. inversion O2 as [|d0 d' l0 olds' A F]; subst d0 l0 olds. rewrite L1 in *.
    exists (new ++ [d']), olds'. split; [rewrite D2, <- app_assoc; reflexivity|].
    split; [exact (older_trans _ _ _ _ _ _ O1 F)|].
    assert (ND : name d' = n) by (destruct A as [->|(_ & _ & _ & ->)]; reflexivity).
    split.
    + intros m. rewrite map_app, in_app_iff. cbn [map names In]. rewrite N2, ND. tauto.
    + intros m K. cbn [kept] in K. rewrite named_app, seen_app, (K2 m K).
      destruct (seen new m) eqn:SN; [reflexivity|].
      assert (NR : ~ In m (names r)). { rewrite <- N2, <- named_in, (K2 m K). exact SN. }
      unfold named, seen. cbn [find]. rewrite ND.
      destruct (Nat.eqb_spec n m) as [Q|Q]; [|rewrite andb_false_r; reflexivity].
      destruct A as [->|(_ & _ & J & _)]; [reflexivity|]. change (name d) with n in J. subst. contradiction.
  - cbn [scope] in SC. destruct (scope b e) as [f|] eqn:SB; [|discriminate].
    destruct (forallb _ ex) eqn:FB; [|discriminate]. destruct AP as (AE & AB & AR).
    cbn [typed]. change (run (Begin_abstype :: typed b ++ End_abstype ex :: typed r) s)
      with (run (typed b ++ End_abstype ex :: typed r) (begin_adt s)).
    rewrite run_app. destruct (defs s) as [|c l] eqn:DS; [destruct (i_some s I DS)|].
    set (s1 := begin_adt s).
    assert (S1 : s1 = State (c :: l) (tbl s) (id c :: buf s) (S (adt_level s)) (next s)).
    { unfold s1, begin_adt. rewrite DS. reflexivity. }
    assert (I1 : inv s1).
    { rewrite S1. destruct I as [A1 A2 A3 A4 A5 A6]. rewrite DS in *. constructor; cbn [defs tbl next adt_level]; auto.
      eapply Forall_impl; [|exact A5]. simpl. intros d Q V. specialize (Q V). lia. }
    destruct (IHb s1 e f I1) as (I2 & L2 & B2 & E2 & new & olds & D2 & O2 & N2 & K2); auto.
    { rewrite S1. cbn [defs]. exact E. }
    set (s2 := run (typed b) s1) in *. rewrite S1 in O2, L2, B2. cbn [defs adt_level buf] in O2, L2, B2.
    pose proof (i_level s I) as LV. rewrite DS in LV.
    pose proof (older_same _ _ _ _ O2 LV) as ->. clear O2.
    cbn [run fold_left step]. fold (run (typed r)).
    pose proof (i_ids s2 I2) as ND. rewrite D2 in ND.
    assert (EX : forall m, In m ex -> f m <> None).
    { rewrite forallb_forall in FB. intros m J. specialize (FB m J). destruct (f m); [discriminate|discriminate FB]. }
    set (s3 := end_adt ex s2).
    destruct (keep_tbl_ok ex [] (NoDup_nil _)) as [KN KI].
    destruct (close (adt_level s) new (keep_tbl ex []) []) as [q u] eqn:CL.
    assert (PL : Forall (fun d => exported d = false) new).
    { pose proof (i_plain s2 I2) as P. rewrite D2 in P. apply Forall_app in P. apply P. }
    destruct (close_ok _ _ _ _ KN PL _ _ CL) as (Q1 & Q2 & Q3 & Q4 & Q5 & Q6 & Q7 & Q8).
    assert (S3 : s3 = State (q ++ c :: l) (restore (c :: l) u) (buf s) (adt_level s) (next s2)).
    { unfold s3, end_adt. rewrite B2.
      assert (forallb (fun n => match look (tbl s2) n with Some _ => true | None => false end) ex = true) as ->.
      { apply forallb_forall. intros m J. rewrite (i_tbl s2 I2).
        specialize (EX m J). rewrite <- E2 in EX. destruct (seen (defs s2) m); [reflexivity|contradiction]. }
      rewrite D2, cut_ok by exact ND. rewrite L2. cbn [Nat.pred]. rewrite CL. reflexivity. }
    assert (KK : forall n, In n (keep_tbl ex []) <-> In n ex) by (intros n; rewrite KI; simpl; tauto).
    assert (SEEN : forall n, seen q n = if existsb (Nat.eqb n) ex then option_map (show (adt_level s)) (named new n) else None).
    { intros n. destruct (existsb (Nat.eqb n) ex) eqn:M.
      - apply existsb_mem in M. apply Q7. apply KK. exact M.
      - apply Q8. rewrite KK, <- existsb_mem. congruence. }
    assert (I3 : inv s3).
    { rewrite S3. constructor; cbn [defs tbl next adt_level].
      - rewrite map_app, Q1, <- map_app. exact ND.
      - pose proof (i_next s2 I2) as P. rewrite D2 in P. apply Forall_app in P. destruct P as [P1 P2].
        apply Forall_app. split; [|exact P2]. rewrite Forall_forall in *. intros d J.
        assert (In (id d) (map id new)) as W by (rewrite <- Q1; apply in_map; exact J).
        apply in_map_iff in W. destruct W as (d2 & W1 & W2). rewrite <- W1. auto.
      - destruct q; discriminate.
      - intros n. rewrite restore_ok, seen_app, SEEN. destruct (existsb (Nat.eqb n) ex) eqn:M.
        + apply existsb_mem in M. rewrite Q5 by (apply KK; exact M). destruct (named new n); reflexivity.
        + rewrite Q6 by (rewrite KK, <- existsb_mem; congruence). reflexivity.
      - apply Forall_app. split; [|exact LV]. eapply Forall_impl; [|exact Q4]. simpl. intros d W V. rewrite (W V). lia.
      - apply Forall_app. split; [exact Q3|]. pose proof (i_plain s I) as P. rewrite DS in P. exact P. }
    destruct (IHr s3 (fun m => if existsb (Nat.eqb m) ex then f m else e m) e' I3) as (I4 & L4 & B4 & E4 & new2 & olds2 & D4 & O4 & N4 & K4); auto.
    { intros n. rewrite S3. cbn [defs]. rewrite seen_app, SEEN. destruct (existsb (Nat.eqb n) ex) eqn:M; [|apply E].
      apply existsb_mem in M. rewrite <- E2, D2, seen_app, <- (K2 n (AE n M)).
      destruct (named new n); reflexivity. }
    set (s4 := run (typed r) s3) in *. rewrite S3 in L4, B4, O4. cbn [defs adt_level buf] in L4, B4, O4.
    change (fold_left step (typed r) s3) with s4.
    split; [exact I4|]. split; [exact L4|]. split; [exact B4|]. split; [exact E4|].
    apply Forall2_app_inv_l in O4. destruct O4 as (q2 & o2 & F1 & F2 & ->).
    exists (new2 ++ q2), o2. split; [rewrite D4, app_assoc; reflexivity|].
    destruct (older_names _ _ _ _ F1) as [FN _].
    split; [|split].
    + exact (older_trans _ _ _ _ _ _ (older_refl (adt_level s) (names b) (c :: l)) F2).
    + intros n. cbn [names]. rewrite map_app, !in_app_iff, FN, Q2, N2, N4. tauto.
    + intros n K. cbn [kept] in K. rewrite !in_app_iff in K.
      assert (K4n : ~ In n (kept r)) by tauto.
      rewrite named_app, seen_app, (K4 n K4n). destruct (seen new2 n) eqn:SN; [reflexivity|].
      assert (NR : ~ In n (names r)). { rewrite <- N4, <- named_in, (K4 n K4n). exact SN. }
      destruct (older_other _ _ _ _ n F1 NR) as [-> ->].
      destruct (existsb (Nat.eqb n) ex) eqn:M.
      * apply existsb_mem in M. apply Q7. apply KK. exact M.
      * assert (NB : ~ In n (names b)).
        { intros J. apply K. right. left. apply filter_In. split; [exact J|]. rewrite M. reflexivity. }
        assert (named q n = None) as W. { apply named_in. rewrite Q2, N2. exact NB. }
        rewrite W. symmetry. apply named_none. exact W.
Qed.

Lemma inv_init : inv init.
Proof.
  constructor; cbn; try (repeat constructor; simpl; tauto); [discriminate|].
  intros n. destruct n; reflexivity.
Qed.
Theorem scopes_ok p e : scope p start = Some e -> apart p ->
  forall n, meaning (run (typed p) init) n = e n.
Proof.
  intros S A n.
  destruct (run_ok p init start e inv_init) as (I & _ & _ & E & _); auto.
  { intros m. destruct m; reflexivity. }
  rewrite meaning_seen by exact I. apply E.
Qed.
