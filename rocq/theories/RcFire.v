(** * Overwriting a redex *)

From Coq Require Import List Bool Arith NArith ZArith Lia Permutation.
Import ListNotations.
From Verif Require Import RcModel RcSpec RcInv RcDec RcGc RcWalk.

(** ** The templates *)

Definition opnd_eqb (a b : opnd) : bool :=
  match a, b with
  | Arg i, Arg j | New i, New j => i =? j
  | Self, Self => true
  | _, _ => false
  end.

Lemma opnd_eqb_ok a b : opnd_eqb a b = true -> a = b.
Proof.
  destruct a, b; cbn; try discriminate; intros h; auto; apply Nat.eqb_eq in h; congruence.
Qed.

Fixpoint pick (a : opnd) (l : list opnd) : option (list opnd) :=
  match l with
  | [] => None
  | b :: l => if opnd_eqb a b then Some l
              else match pick a l with Some l => Some (b :: l) | None => None end
  end.

Fixpoint permb (l l' : list opnd) : bool :=
  match l with
  | [] => match l' with [] => true | _ => false end
  | a :: l => match pick a l' with Some l' => permb l l' | None => false end
  end.

Lemma pick_ok a l : forall l', pick a l = Some l' -> Permutation (a :: l') l.
Proof.
  induction l as [|b l IH]; cbn; [discriminate|]. intros l'.
  destruct (opnd_eqb a b) eqn:e.
  - intros h. injection h as <-. apply opnd_eqb_ok in e. subst. apply Permutation_refl.
  - destruct (pick a l) as [l0|] eqn:q; [|discriminate]. intros h. injection h as <-.
    eapply Permutation_trans; [apply perm_swap|]. apply perm_skip. apply IH. reflexivity.
Qed.

Lemma permb_ok l : forall l', permb l l' = true -> Permutation l l'.
Proof.
  induction l as [|a l IH]; cbn; intros l'.
  - destruct l'; [constructor|discriminate].
  - destruct (pick a l') as [l0|] eqn:q; [|discriminate]. intros h.
    eapply Permutation_trans; [|apply pick_ok; exact q]. apply perm_skip. apply IH. exact h.
Qed.

(** Operands that exist when [m] arguments are there and [j] nodes are made. *)
Definition fine (m j : nat) (o : opnd) : bool :=
  match o with Arg i => i <? m | New i => i <? j | Self => true end.

Fixpoint fine_all (m j : nat) (l : list (opnd * opnd)) : bool :=
  match l with
  | [] => true
  | (a, b) :: l => fine m j a && fine m j b && fine_all m (S j) l
  end.

Definition used (b : build) : list opnd :=
  flat_map (fun q : opnd * opnd => [fst q; snd q]) (made b) ++ [bl b; br b].

Definition rule_fine (m : nat) (b : build) : bool :=
  fine_all m 0 (made b) && fine m (length (made b)) (bl b) && fine m (length (made b)) (br b)
  && permb (used b) (ups b ++ map New (seq 0 (length (made b)))).

Lemma rules_fine p b : rule p = Some b -> rule_fine (arity p) b = true.
Proof. destruct p; cbn [rule]; intros h; try discriminate; injection h as <-; reflexivity. Qed.

Lemma val_more args new new' redex m o :
  fine m (length new) o = true -> val args (new ++ new') redex o = val args new redex o.
Proof.
  destruct o; cbn; auto. intros h. apply Nat.ltb_lt in h. apply app_nth1. exact h.
Qed.

Lemma val_in args new redex L o :
  incl args L -> incl new L -> In redex L ->
  fine (length args) (length new) o = true -> In (val args new redex o) L.
Proof.
  intros h1 h2 h3. destruct o; cbn; auto; intros h; apply Nat.ltb_lt in h.
  - apply h1. apply nth_In. exact h.
  - apply h2. apply nth_In. exact h.
Qed.

Lemma make_ok args redex l : forall st L new rt db new' st',
  inv st L [] rt db -> incl args L -> incl new L -> In redex L ->
  fine_all (length args) (length new) l = true ->
  make st args new redex l = (new', st') ->
  exists L' ns, new' = new ++ ns /\ length ns = length l /\ incl L L' /\ incl ns L' /\
    inv st' L' [] (ns ++ rt)
        (map (val args new' redex) (flat_map (fun q : opnd * opnd => [fst q; snd q]) l) ++ db) /\
    (forall m, In m L -> cell st' m = cell st m /\ rc st' m = rc st m) /\
    tabs st' = tabs st /\ gcs st' = gcs st.
Proof.
  induction l as [|[a b] l IH]; intros st L new rt db new' st' H ha hn hr hf he; cbn [make] in he.
  - injection he as <- <-. exists L, []. rewrite app_nil_r. cbn [app map flat_map].
    split; auto. split; auto. split; [apply incl_refl|]. split; [intros x []|].
    split; auto.
  - cbn [fine_all] in hf. apply andb_prop in hf. destruct hf as [hf h3].
    apply andb_prop in hf. destruct hf as [h1 h2].
    destruct (alloc st (App (val args new redex a) (val args new redex b))) as [n st1] eqn:e1.
    assert (ka : In (val args new redex a) L) by (apply val_in; auto).
    assert (kb : In (val args new redex b) L) by (apply val_in; auto).
    assert (kk : forall x, In x (kids (App (val args new redex a) (val args new redex b))) -> In x L).
    { intros x [<-|[<-|[]]]; auto. }
    assert (kd : App (val args new redex a) (val args new redex b) <> Dead) by discriminate.
    assert (kt : forall t k, App (val args new redex a) (val args new redex b) <> Tab t k)
      by discriminate.
    destruct (inv_alloc _ _ _ _ _ _ _ _ H kd kk kt e1) as (H1 & q1 & q2 & q3 & q4 & q5).
    cbn [kids app] in H1.
    assert (hl : fine_all (length args) (length (new ++ [n])) l = true).
    { rewrite app_length. cbn [length]. rewrite Nat.add_1_r. exact h3. }
    destruct (IH st1 (n :: L) (new ++ [n]) (n :: rt)
                 (val args new redex a :: val args new redex b :: db) new' st')
      as (L' & ns & r1 & r2 & r3 & r4 & r5 & r6 & r7 & r8); auto.
    + intros x hx. right. auto.
    + intros x hx. apply in_app_or in hx. destruct hx as [hx|[<-|[]]].
      * right. auto.
      * left. reflexivity.
    + right. exact hr.
    + exists L', (n :: ns).
      assert (e : new' = new ++ n :: ns) by (rewrite r1, <- app_assoc; reflexivity).
      split; [exact e|]. split; [cbn; lia|].
      split; [intros x hx; apply r3; right; exact hx|].
      split.
      { intros x [<-|hx]; [apply r3; left; reflexivity|apply r4; exact hx]. }
      split.
      { eapply inv_perm; [| |exact r5].
        - cbn [app]. apply Permutation_sym, Permutation_middle.
        - cbn [flat_map map app fst snd].
          rewrite e. rewrite !(val_more _ new (n :: ns) _ (length args)) by assumption.
          rewrite <- e.
          apply Permutation_sym. apply Permutation_trans with
            (val args new redex a :: (map (val args new' redex)
               (flat_map (fun q : opnd * opnd => [fst q; snd q]) l) ++ val args new redex b :: db)).
          + apply perm_skip. apply Permutation_middle.
          + apply Permutation_middle. }
      split; [|split; congruence].
      intros m hm. destruct (r6 m) as [c1 c2]; [right; exact hm|].
      assert (hmn : m <> n) by (intros ->; contradiction).
      rewrite c1, c2, q2, (q5 m hmn), upd_other by exact hmn. auto.
Qed.

(** ** The redex rebuilt *)

Lemma build_ok st L rt args r b :
  inv st L [] rt [] -> incl args L -> In r L -> rule_fine (length args) b = true ->
  exists L', inv (build_redex st args r b) L' [] (kids (cell st r) ++ rt) [] /\ incl L L' /\
    (forall m, In m L -> m <> r -> cell (build_redex st args r b) m = cell st m) /\
    (forall m, In m L -> rc st m = 3%N -> rc (build_redex st args r b) m = 3%N) /\
    tabs (build_redex st args r b) = tabs st /\ gcs (build_redex st args r b) = gcs st.
Proof.
  intros H ha hr hf. unfold rule_fine in hf.
  apply andb_prop in hf. destruct hf as [hf hp]. apply andb_prop in hf. destruct hf as [hf h2].
  apply andb_prop in hf. destruct hf as [h0 h1]. apply permb_ok in hp.
  unfold build_redex. destruct (make st args [] r (made b)) as [new st1] eqn:em.
  destruct (make_ok args r (made b) st L [] rt [] new st1 H ha (fun x hx => match hx with end)
              hr h0 em) as (L' & ns & r1 & r2 & r3 & r4 & r5 & r6 & r7 & r8).
  cbn [app] in r1. subst new. rewrite app_nil_r in r5.
  set (vl := val args ns r) in *.
  assert (kl : In (vl (bl b)) L').
  { apply val_in; auto. intros x hx; apply r3, ha, hx. rewrite r2. exact h1. }
  assert (kr : In (vl (br b)) L').
  { apply val_in; auto. intros x hx; apply r3, ha, hx. rewrite r2. exact h2. }
  set (c := if is_cons b then Cons (vl (bl b)) (vl (br b)) else App (vl (bl b)) (vl (br b))).
  assert (kc : kids c = [vl (bl b); vl (br b)]) by (unfold c; destruct (is_cons b); reflexivity).
  assert (H2 : inv (set_cell st1 r c) L' [] (kids (cell st1 r) ++ ns ++ rt)
                   (kids c ++ map vl (flat_map (fun q : opnd * opnd => [fst q; snd q]) (made b)))).
  { apply inv_set; auto.
    - unfold c. destruct (is_cons b); discriminate.
    - intros x. rewrite kc. intros [<-|[<-|[]]]; auto.
    - intros t k e. exfalso. revert e. unfold c. destruct (is_cons b); discriminate. }
  exists L'. rewrite <- (proj1 (r6 r hr)).
  split; [|split; [exact r3|split; [|split; [|split]]]].
  - apply inv_incr_all. rewrite app_nil_r.
    apply (inv_cancel _ _ _ ns). eapply inv_perm; [| |exact H2].
    + rewrite !app_assoc. apply Permutation_app_tail. apply Permutation_app_comm.
    + rewrite kc. apply Permutation_trans with (map vl (used b)).
      * unfold used. rewrite map_app. cbn [map].
        apply (Permutation_app_comm [vl (bl b); vl (br b)]).
      * apply Permutation_trans with (map vl (ups b ++ map New (seq 0 (length (made b))))).
        -- apply Permutation_map. exact hp.
        -- rewrite map_app. apply Permutation_trans with
             (map vl (map New (seq 0 (length (made b)))) ++ map vl (ups b));
             [apply Permutation_app_comm|].
           apply Permutation_app_tail. rewrite map_map, <- r2.
           assert (e : map (fun x => vl (New x)) (seq 0 (length ns)) = ns).
           { unfold vl. cbn [val]. clear. induction ns as [|a ns IH]; auto.
             cbn [length seq map nth]. f_equal. rewrite <- seq_shift, map_map. exact IH. }
           rewrite e. apply Permutation_refl.
  - intros m hm hmr. rewrite incr_all_cell. cbn [cell set_cell].
    rewrite upd_other by exact hmr. apply r6. exact hm.
  - intros m hm e. apply incr_all_sat. cbn [rc set_cell]. rewrite (proj2 (r6 m hm)). exact e.
  - rewrite incr_all_tabs. exact r7.
  - rewrite incr_all_gcs. exact r8.
Qed.

Lemma overwrite_ok st L rt r np :
  inv st L [] rt [] -> In r L -> In np L ->
  inv (overwrite st r np) L [] (kids (cell st r) ++ rt) [].
Proof.
  intros H hr hn. unfold overwrite. apply inv_incr_all. apply inv_set; auto.
  - apply (i_node _ _ _ _ _ H). exact hn.
  - intros x hx. eapply inv_kid; eauto.
  - intros b k e. split; [eapply i_tab; eauto|]. apply names_true. eauto.
Qed.

Lemma overwrite_cell st r np m : m <> r -> cell (overwrite st r np) m = cell st m.
Proof. intros h. unfold overwrite. rewrite incr_all_cell. apply upd_other. exact h. Qed.

Lemma overwrite_sat st r np m : rc st m = 3%N -> rc (overwrite st r np) m = 3%N.
Proof. intros h. unfold overwrite. apply incr_all_sat. exact h. Qed.

Lemma incr_sat st v m : rc st m = 3%N -> rc (incr st v) m = 3%N.
Proof. intros h. apply (incr_all_sat st [v]). exact h. Qed.

Lemma inv_root_add st L lb v rt db :
  In v L -> inv st L lb rt db -> inv st L lb (v :: rt) (v :: db).
Proof.
  intros hv [h1 h2 h3 h4 h5].
  assert (e : forall n, pointers st L (v :: rt) n
              = pointers st L rt n + (if v =? n then 1 else 0)).
  { intros n. unfold pointers. rewrite occ_cons. lia. }
  split; auto.
  - intros n h. rewrite e in h. destruct (v =? n) eqn:q.
    + apply Nat.eqb_eq in q. subst. exact hv.
    + apply h2. lia.
  - intros n h. specialize (h3 n h). rewrite e, occ_cons. intuition lia.
Qed.

(** ** A primitive fires *)

Lemma fire_ok vd p d st L rt root (sp args : list addr) st' l (r : addr) :
  inv st L [] rt [] -> In vd L -> rc st vd = 3%N ->
  In r L -> r = nth (arity p - 1) sp 0 ->
  cell st r = App (prev root sp (arity p)) (nth (arity p - 1) args 0) ->
  incl args L -> arity p <= length args ->
  (forall h t, p = pHEAD \/ p = pTAIL -> cell st (nth 0 args 0) = Cons h t -> 2 <= length args) ->
  (rule p <> None -> length args = arity p) ->
  fire vd p d st root sp args = Some (st', l) ->
  exists L', inv st' L' [] (l ++ rt) [] /\ incl L L' /\
    (forall m, In m L -> m <> r -> cell st' m = cell st m) /\
    (forall m, In m L -> rc st m = 3%N -> rc st' m = 3%N).
Proof.
  intros H hv hs hr er ec ha hl hc hrl hf.
  assert (hnth : forall i, i < length args -> In (nth i args 0) L).
  { intros i hi. apply ha. apply nth_In. exact hi. }
  assert (ow : forall np, In np L ->
    let fin := [prev root sp (arity p); nth (arity p - 1) args 0] in
    exists L', inv (overwrite st r np) L' [] (fin ++ rt) [] /\ incl L L' /\
    (forall m, In m L -> m <> r -> cell (overwrite st r np) m = cell st m) /\
    (forall m, In m L -> rc st m = 3%N -> rc (overwrite st r np) m = 3%N)).
  { intros np hnp fin. exists L. split.
    - pose proof (overwrite_ok _ _ _ _ _ H hr hnp) as q. rewrite ec in q. exact q.
    - split; [apply incl_refl|]. split.
      + intros m _ hm. apply overwrite_cell. exact hm.
      + intros m _. apply overwrite_sat. }
  assert (ow0 : forall np, In np L ->
    exists L', inv (overwrite st r np) L' [] ([] ++ rt) [] /\ incl L L' /\
    (forall m, In m L -> m <> r -> cell (overwrite st r np) m = cell st m) /\
    (forall m, In m L -> rc st m = 3%N -> rc (overwrite st r np) m = 3%N)).
  { intros np hnp. destruct (ow np hnp) as (L' & h1 & h2). exists L'. split; auto.
    apply (inv_weaken _ _ _ _ _ _ h1). }
  assert (sc : forall c, c <> Dead -> kids c = [] -> (forall b k, c <> Tab b k) ->
    let fin := [prev root sp (arity p); nth (arity p - 1) args 0] in
    exists L', inv (set_cell st r c) L' [] (fin ++ rt) [] /\ incl L L' /\
    (forall m, In m L -> m <> r -> cell (set_cell st r c) m = cell st m) /\
    (forall m, In m L -> rc st m = 3%N -> rc (set_cell st r c) m = 3%N)).
  { intros c hd hk ht fin. exists L. split.
    - assert (q : inv (set_cell st r c) L [] (kids (cell st r) ++ rt) (kids c ++ [])).
      { apply inv_set; auto.
        - rewrite hk. intros x [].
        - intros b k e. exfalso. eapply ht. exact e. }
      rewrite ec, hk in q. exact q.
    - split; [apply incl_refl|]. split; auto.
      intros m _ hm. apply upd_other. exact hm. }
  assert (bd : forall b, rule p = Some b ->
    let fin := [prev root sp (arity p); nth (arity p - 1) args 0] in
    exists L', inv (build_redex st args r b) L' [] (fin ++ rt) [] /\ incl L L' /\
    (forall m, In m L -> m <> r -> cell (build_redex st args r b) m = cell st m) /\
    (forall m, In m L -> rc st m = 3%N -> rc (build_redex st args r b) m = 3%N)).
  { intros b eb fin. assert (ht : rule_fine (length args) b = true).
    { rewrite hrl by congruence. apply rules_fine. exact eb. }
    destruct (build_ok _ _ _ _ _ _ H ha hr ht) as (L' & b1 & b2 & b3 & b4 & _).
    exists L'. rewrite ec in b1. auto. }
  pose proof (arity_pos p) as ap.
  assert (i0 : In (nth 0 args 0) L) by (apply hnth; lia).
  unfold fire in hf. cbn zeta in hf. rewrite <- er in hf.
  destruct p; cbn [arity] in *;
    try (destruct (rule _) as [b|] eqn:eb in hf; [|discriminate];
         injection hf as <- <-; apply bd; exact eb).
  - (* K *) injection hf as <- <-. apply ow. exact i0.
  - (* NSEQ *) injection hf as <- <-. apply ow. apply hnth. lia.
  - (* SEQ *) destruct (is_fail _); injection hf as <- <-; [apply ow0; exact i0|].
    apply ow. apply hnth. lia.
  - (* I *) injection hf as <- <-. apply ow. exact i0.
  - (* THEN *) destruct (is_fail _).
    + injection hf as <- <-. apply ow0. exact i0.
    + destruct (rule pTHEN) as [b|] eqn:eb; [|discriminate].
      injection hf as <- <-. apply bd. reflexivity.
  - (* HEAD *) destruct (cell st (nth 0 args 0)) eqn:e0; try discriminate.
    + injection hf as <- <-. apply ow. apply hnth. specialize (hc _ _ (or_introl eq_refl) eq_refl). lia.
    + injection hf as <- <-. destruct (sc Fail) as (L' & h1 & h2); try discriminate; auto.
      exists L'. split; auto. apply (inv_weaken _ _ _ _ _ _ h1).
    + injection hf as <- <-. apply ow0. exact i0.
  - (* TAIL *) destruct (cell st (nth 0 args 0)) eqn:e0; try discriminate.
    + injection hf as <- <-. apply ow. apply hnth. specialize (hc _ _ (or_intror eq_refl) eq_refl). lia.
    + injection hf as <- <-. destruct (sc Fail) as (L' & h1 & h2); try discriminate; auto.
      exists L'. split; auto. apply (inv_weaken _ _ _ _ _ _ h1).
    + injection hf as <- <-. apply ow0. exact i0.
  - (* PCATCH *) destruct (cell st (nth 0 args 0)) eqn:e0; injection hf as <- <-;
      apply ow; auto; apply hnth; lia.
  - (* PLUS *) destruct (is_fail _); [injection hf as <- <-; apply ow0; exact i0|].
    destruct (is_fail _); [injection hf as <- <-; apply ow0; apply hnth; lia|].
    destruct (cell st (nth 0 args 0)); try discriminate.
    destruct (cell st (nth 1 args 0)); try discriminate.
    injection hf as <- <-. apply sc; try discriminate; reflexivity.
  - (* COND *) destruct d as [[|]|]; [injection hf as <- <-; apply ow; apply hnth; lia..|].
    destruct (is_fail _); [|discriminate]. injection hf as <- <-. apply ow0. exact i0.
  - (* MKREF *) injection hf as <- <-. exists L. split; [|split; [apply incl_refl|split]].
    + pose proof (inv_new_tab _ _ _ _ _ r (nth 0 args 0) true H hr i0) as q.
      apply inv_incr in q. rewrite ec in q. exact q.
    + intros m _ hm. apply upd_other. exact hm.
    + intros m _ h. cbn [rc set_cell]. apply incr_sat. exact h.
  - (* DEREF *) destruct (cell st (nth 0 args 0)) as [| | | | | | | | |b k|] eqn:e0; try discriminate.
    + injection hf as <- <-. exists L. split; [|split; [apply incl_refl|split]].
      * eapply inv_weaken. apply (overwrite_ok (incr st r)); auto.
        apply inv_incr_leak. exact H.
      * intros m _ hm. rewrite overwrite_cell by exact hm. reflexivity.
      * intros m _ h. apply overwrite_sat, incr_sat. exact h.
    + destruct b; [|discriminate]. destruct (nth k (tabs st) []) as [|v [|? ?]] eqn:ek; try discriminate.
      injection hf as <- <-.
      assert (hvL : In v L).
      { eapply (inv_tabc _ _ _ _ _ H (nth 0 args 0)); eauto. rewrite ek. left. reflexivity. }
      exists L. split; [|split; [apply incl_refl|split]].
      * assert (q : inv (incr (incr st r) v) L [] (v :: rt) []).
        { apply inv_incr. apply inv_root_add; auto. apply inv_incr_leak. exact H. }
        pose proof (overwrite_ok _ _ _ r v q hr hvL) as q'.
        change (cell (incr (incr st r) v) r) with (cell st r) in q'.
        rewrite ec in q'. cbn [kids app] in q'.
        apply (inv_weaken _ _ _ [prev root sp 1]). cbn [app].
        eapply inv_perm; [|apply Permutation_refl|exact q'].
        apply perm_skip. cbn. apply perm_swap.
      * intros m _ hm. rewrite overwrite_cell by exact hm. reflexivity.
      * intros m _ h. apply overwrite_sat, incr_sat, incr_sat. exact h.
  - (* UPDATE *) destruct (cell st (nth 0 args 0)) as [| | | | | | | | |b k|] eqn:e0; try discriminate.
    destruct b; [|discriminate]. injection hf as <- <-.
    assert (h1 : In (nth 1 args 0) L) by (apply hnth; lia).
    exists L. split; [|split; [apply incl_refl|split]].
    + assert (q : inv (incr (set_tabs st (put k [nth 1 args 0] (tabs st))) (nth 1 args 0)) L [] rt []).
      { apply inv_incr. apply inv_set_tab; auto. exact (i_tab _ _ _ _ _ H _ true k i0 e0). }
      pose proof (overwrite_ok _ _ _ r vd q hr hv) as q'.
      change (cell (incr (set_tabs st (put k [nth 1 args 0] (tabs st))) (nth 1 args 0)) r)
        with (cell st r) in q'. rewrite ec in q'. exact q'.
    + intros m _ hm. rewrite overwrite_cell by exact hm. reflexivity.
    + intros m _ h. apply overwrite_sat, incr_sat. exact h.
Qed.
