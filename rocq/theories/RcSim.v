(** * Two runs that differ only in the memory management *)

From Coq Require Import List Bool Arith NArith ZArith Lia Permutation.
Import ListNotations.
From Verif Require Import RcModel RcSpec RcInv RcDec RcGc RcWalk RcFire RcLoop RcMain.

Definition mapn (q : addr -> addr) (c : node) : node :=
  match c with
  | App l r => App (q l) (q r)
  | Cons h t => Cons (q h) (q t)
  | c => c
  end.

Lemma mapn_kids q c : kids (mapn q c) = map q (kids c).
Proof. destruct c; reflexivity. Qed.

Lemma nth_map (q : addr -> addr) (l : list addr) i d : i < length l -> nth i (map q l) d = q (nth i l d).
Proof.
  intros h. rewrite (nth_indep (map q l) d (q d)) by (rewrite map_length; exact h). apply map_nth.
Qed.

Lemma reach_ext a a' rs n : cell a' = cell a -> tabs a' = tabs a -> reach a' rs n -> reach a rs n.
Proof.
  intros h1 h2. induction 1.
  - apply reach_root; auto.
  - rewrite h1 in *. eapply reach_kid; eauto.
  - rewrite h1, h2 in *. eapply reach_tab; eauto.
Qed.

Section Rel.
Variable rt : list addr.

(** [q] takes the nodes of [a] that can be got at to those of [b]. *)
Record rel (q : addr -> addr) (ns : list addr) (a b : store) : Prop := {
  r_cell : forall n, reach a (ns ++ rt) n -> cell b (q n) = mapn q (cell a n);
  r_inj : forall n m, reach a (ns ++ rt) n -> reach a (ns ++ rt) m -> q n = q m -> n = m;
  r_root : forall n, In n rt -> q n = n;
  r_tab : forall n t k, reach a (ns ++ rt) n -> cell a n = Tab t k ->
            nth k (tabs b) [] = map q (nth k (tabs a) []);
  r_len : length (tabs b) = length (tabs a)
}.

Lemma rel_reach q ns a b n : rel q ns a b -> reach a (ns ++ rt) n -> reach b (map q ns ++ rt) (q n).
Proof.
  intros [h1 h2 h3 h4 h5]. induction 1 as [n hn|m n hm IH hn|m t k n hm IH he hn].
  - apply reach_root. apply in_or_app. apply in_app_or in hn. destruct hn as [hn|hn].
    + left. apply in_map. exact hn.
    + right. rewrite h3; auto.
  - eapply reach_kid; [exact IH|]. rewrite h1 by exact hm. rewrite mapn_kids. apply in_map. exact hn.
  - eapply reach_tab; [exact IH| |].
    + rewrite h1 by exact hm. rewrite he. reflexivity.
    + erewrite h4 by eauto. apply in_map. exact hn.
Qed.

Lemma rel_weak q ns a b : rel q ns a b -> rel q [] a b.
Proof.
  intros [h1 h2 h3 h4 h5]. split; auto; cbn [app]; intros.
  - apply h1. apply reach_more; auto.
  - apply h2; auto; apply reach_more; auto.
  - eapply h4; eauto. apply reach_more; auto.
Qed.

Lemma rel_same q ns a b a' b' : cell a' = cell a -> tabs a' = tabs a -> cell b' = cell b -> tabs b' = tabs b ->
  rel q ns a b -> rel q ns a' b'.
Proof.
  intros e1 e2 e3 e4 [h1 h2 h3 h4 h5].
  split; intros; rewrite ?e1, ?e2, ?e3, ?e4; auto.
  - apply h1. eapply reach_ext; eauto.
  - apply h2; auto; eapply reach_ext; eauto.
  - rewrite e1 in *. eapply h4; eauto. eapply reach_ext; eauto.
Qed.

Lemma rel_keeps q a b a' b' : rel q [] a b -> keeps rt a a' -> keeps rt b b' -> rel q [] a' b'.
Proof.
  intros H k1 k2. pose proof H as [h1 h2 h3 h4 h5].
  assert (hb : forall n, reach a' rt n -> reach a rt n) by (intros; eapply keeps_back; eauto).
  split; cbn [app] in *.
  - intros n hn. pose proof (hb n hn) as hn'. rewrite (proj2 k1 n hn'), <- (h1 n hn').
    apply k2. exact (rel_reach _ _ _ _ _ H hn').
  - auto.
  - auto.
  - intros n t k hn e. pose proof (hb n hn) as hn'. rewrite (proj2 k1 n hn') in e.
    rewrite (proj1 k1), (proj1 k2). eauto.
  - rewrite (proj1 k1), (proj1 k2). auto.
Qed.

(** Storing in a node. *)
Lemma set_reach a rs r c n :
  (forall m, In m (kids c) -> reach a rs m) ->
  (forall t k m, c = Tab t k -> In m (nth k (tabs a) []) -> reach a rs m) ->
  reach (set_cell a r c) rs n -> reach a rs n.
Proof.
  intros h1 h2. induction 1 as [n hn|m n hm IH hn|m t k n hm IH he hn].
  - apply reach_root; auto.
  - cbn [cell set_cell] in hn. destruct (Nat.eq_dec m r) as [->|ne].
    + rewrite upd_same in hn. auto.
    + rewrite upd_other in hn by exact ne. eapply reach_kid; eauto.
  - cbn [cell set_cell tabs] in *. destruct (Nat.eq_dec m r) as [->|ne].
    + rewrite upd_same in he. eauto.
    + rewrite upd_other in he by exact ne. eapply reach_tab; eauto.
Qed.

Lemma rel_set q ns a b r c :
  rel q ns a b -> reach a (ns ++ rt) r ->
  (forall m, In m (kids c) -> reach a (ns ++ rt) m) ->
  (forall t k, c = Tab t k -> nth k (tabs b) [] = map q (nth k (tabs a) []) /\
     forall m, In m (nth k (tabs a) []) -> reach a (ns ++ rt) m) ->
  rel q ns (set_cell a r c) (set_cell b (q r) (mapn q c)).
Proof.
  intros [h1 h2 h3 h4 h5] hr hk ht.
  assert (hb : forall n, reach (set_cell a r c) (ns ++ rt) n -> reach a (ns ++ rt) n).
  { intros n. apply set_reach; auto. intros t k m e. apply (ht t k e). }
  split; auto.
  - intros n hn. pose proof (hb n hn) as hn'. cbn [cell set_cell].
    destruct (Nat.eq_dec n r) as [->|ne].
    + rewrite !upd_same. reflexivity.
    + rewrite !upd_other; auto.
  - intros n t k hn e. cbn [cell set_cell tabs] in *. destruct (Nat.eq_dec n r) as [->|ne].
    + rewrite upd_same in e. apply (ht t k e).
    + rewrite upd_other in e by exact ne. eauto.
Qed.

Lemma rel_overwrite q a b r np :
  rel q [] a b -> reach a rt r -> reach a rt np -> rel q [] (overwrite a r np) (overwrite b (q r) (q np)).
Proof.
  intros H hr hn. unfold overwrite.
  eapply rel_same; try apply incr_all_cell; try apply incr_all_tabs.
  rewrite (r_cell _ _ _ _ H np hn). apply rel_set; auto.
  - intros m hm. eapply reach_kid; eauto.
  - intros t k e. split; [eapply r_tab; eauto|]. intros m hm. eapply reach_tab; eauto.
Qed.

Lemma rel_leaf q a b r c : kids c = [] -> (forall t k, c <> Tab t k) ->
  rel q [] a b -> reach a rt r -> rel q [] (set_cell a r c) (set_cell b (q r) c).
Proof.
  intros hk ht H hr.
  assert (e : mapn q c = c) by (destruct c; try discriminate hk; reflexivity).
  rewrite <- e at 2. apply rel_set; auto.
  - rewrite hk. intros m [].
  - intros t k z. destruct (ht t k z).
Qed.

(** A new node. *)
Lemma rel_alloc q ns a b La Lb da db c n a' n' b' :
  rel q ns a b -> inv a La [] (ns ++ rt) da -> inv b Lb [] (map q ns ++ rt) db ->
  c <> Dead -> (forall t k, c <> Tab t k) -> (forall m, In m (kids c) -> reach a (ns ++ rt) m) ->
  alloc a c = (n, a') -> alloc b (mapn q c) = (n', b') ->
  rel (upd q n n') (n :: ns) a' b' /\
  inv a' (n :: La) [] ((n :: ns) ++ rt) (kids c ++ da) /\
  inv b' (n' :: Lb) [] (map (upd q n n') (n :: ns) ++ rt) (kids (mapn q c) ++ db) /\
  (forall m, reach a (ns ++ rt) m -> upd q n n' m = q m /\ reach a' ((n :: ns) ++ rt) m).
Proof.
  intros H Ia Ib hd ht hk ea eb. pose proof H as [h1 h2 h3 h4 h5].
  assert (ka : forall x, In x (kids c) -> In x La) by (intros x hx; eapply inv_reach; eauto).
  assert (kb : forall x, In x (kids (mapn q c)) -> In x Lb).
  { intros x. rewrite mapn_kids, in_map_iff. intros (m & <- & hm).
    eapply inv_reach; [exact Ib|]. apply rel_reach with (a := a); auto. }
  assert (hd' : mapn q c <> Dead) by (destruct c; cbn; congruence).
  assert (ht' : forall t k, mapn q c <> Tab t k) by (intros t k; destruct c; cbn; congruence).
  destruct (inv_alloc _ _ _ _ _ _ _ _ Ia hd ka ht ea) as (Ia' & na & ca & ta & _ & _).
  destruct (inv_alloc _ _ _ _ _ _ _ _ Ib hd' kb ht' eb) as (Ib' & nb & cb & tb & _ & _).
  assert (hne : forall m, reach a (ns ++ rt) m -> m <> n).
  { intros m hm ->. apply na. eapply inv_reach; eauto. }
  assert (hqe : forall m, reach a (ns ++ rt) m -> upd q n n' m = q m).
  { intros m hm. apply upd_other. apply hne. exact hm. }
  assert (hqn : forall m, reach a (ns ++ rt) m -> q m <> n').
  { intros m hm e. apply nb. rewrite <- e. eapply inv_reach; [exact Ib|].
    apply rel_reach with (a := a); auto. }
  assert (hb : forall m, reach a' ((n :: ns) ++ rt) m -> m = n \/ reach a (ns ++ rt) m).
  { induction 1 as [m hm|m m' hm IH hm'|m t k m' hm IH he hm'].
    - destruct hm as [<-|hm]; auto. right. apply reach_root. exact hm.
    - rewrite ca in hm'. destruct IH as [->|IH].
      + rewrite upd_same in hm'. right. auto.
      + rewrite upd_other in hm' by (apply hne; exact IH). right. eapply reach_kid; eauto.
    - rewrite ca in he. rewrite ta in hm'. destruct IH as [->|IH].
      + rewrite upd_same in he. destruct (ht _ _ he).
      + rewrite upd_other in he by (apply hne; exact IH). right. eapply reach_tab; eauto. }
  assert (hf : forall m, reach a (ns ++ rt) m -> reach a' ((n :: ns) ++ rt) m).
  { induction 1 as [m hm|m m' hm IH hm'|m t k m' hm IH he hm'].
    - apply reach_root. right. exact hm.
    - eapply reach_kid; [exact IH|]. rewrite ca, upd_other by (apply hne; exact hm). exact hm'.
    - eapply reach_tab; [exact IH| |].
      + rewrite ca, upd_other by (apply hne; exact hm). exact he.
      + rewrite ta. exact hm'. }
  assert (hmap : forall d, (forall m, In m (kids d) -> reach a (ns ++ rt) m) ->
                 mapn (upd q n n') d = mapn q d).
  { intros d hkd. destruct d; cbn [mapn]; auto; rewrite !hqe; auto; apply hkd; cbn; auto. }
  split; [split|split; [exact Ia'|split]].
  - intros m hm. rewrite ca, cb. destruct (hb m hm) as [->|hm'].
    + rewrite !upd_same. symmetry. apply hmap. exact hk.
    + rewrite hqe by exact hm'. rewrite !upd_other; [|apply hne; exact hm'|apply hqn; exact hm'].
      rewrite hmap; [apply h1; exact hm'|]. intros x hx. eapply reach_kid; eauto.
  - intros m1 m2 hm1 hm2. destruct (hb m1 hm1) as [->|u1], (hb m2 hm2) as [->|u2]; auto.
    + rewrite upd_same, (hqe m2 u2). intros e. destruct (hqn m2 u2). auto.
    + rewrite upd_same, (hqe m1 u1). intros e. destruct (hqn m1 u1). auto.
    + rewrite (hqe m1 u1), (hqe m2 u2). auto.
  - intros m hm. rewrite hqe; [auto|]. apply reach_root. apply in_or_app. auto.
  - intros m t k hm e. rewrite ca in e. rewrite ta, tb. destruct (hb m hm) as [->|hm'].
    + rewrite upd_same in e. destruct (ht _ _ e).
    + rewrite upd_other in e by (apply hne; exact hm'). rewrite (h4 m t k hm' e).
      apply map_ext_in. intros x hx. symmetry. apply hqe. eapply reach_tab; eauto.
  - congruence.
  - cbn [map]. rewrite upd_same.
    assert (e : map (upd q n n') ns = map q ns).
    { apply map_ext_in. intros x hx. apply hqe. apply reach_root. apply in_or_app. auto. }
    rewrite e. exact Ib'.
  - auto.
Qed.

Lemma val_map q (args new : list addr) r o :
  fine (length args) (length new) o = true ->
  val (map q args) (map q new) (q r) o = q (val args new r o).
Proof.
  destruct o; cbn; auto; intros h; apply Nat.ltb_lt in h; apply nth_map; exact h.
Qed.

Lemma val_reach a rs (args new : list addr) r o :
  (forall m, In m args -> reach a rs m) -> (forall m, In m new -> reach a rs m) -> reach a rs r ->
  fine (length args) (length new) o = true -> reach a rs (val args new r o).
Proof.
  intros h1 h2 h3. destruct o; cbn; auto; intros h; apply Nat.ltb_lt in h.
  - apply h1. apply nth_In. exact h.
  - apply h2. apply nth_In. exact h.
Qed.

Lemma make_rel (args : list addr) r l : forall q ns a b La Lb da db (new new' newb : list addr) a' b',
  rel q ns a b -> inv a La [] (ns ++ rt) da -> inv b Lb [] (map q ns ++ rt) db ->
  (forall m, In m args -> reach a (ns ++ rt) m) -> (forall m, In m new -> reach a (ns ++ rt) m) ->
  reach a (ns ++ rt) r -> fine_all (length args) (length new) l = true ->
  make a args new r l = (new', a') -> make b (map q args) (map q new) (q r) l = (newb, b') ->
  exists q' ns', rel q' ns' a' b' /\ newb = map q' new' /\ length new' = length new + length l /\
    (forall m, reach a (ns ++ rt) m -> q' m = q m /\ reach a' (ns' ++ rt) m) /\
    (forall m, In m new' -> reach a' (ns' ++ rt) m).
Proof.
  induction l as [|[o1 o2] l IH]; intros q ns a b La Lb da db new new' newb a' b'
    H Ia Ib ha hn hr hf ea eb; cbn [make] in ea, eb.
  - injection ea as <- <-. injection eb as <- <-. exists q, ns.
    split; [exact H|]. split; [reflexivity|]. split; [cbn; lia|]. auto.
  - cbn [fine_all] in hf. apply andb_prop in hf. destruct hf as [hf h3].
    apply andb_prop in hf. destruct hf as [h1 h2].
    rewrite !val_map in eb by assumption.
    destruct (alloc a (App (val args new r o1) (val args new r o2))) as [n a1] eqn:e1.
    destruct (alloc b (App (q (val args new r o1)) (q (val args new r o2)))) as [n' b1] eqn:e2.
    destruct (rel_alloc q ns a b La Lb da db (App (val args new r o1) (val args new r o2)) n a1 n' b1 H Ia Ib)
      as (H1 & Ia1 & Ib1 & hs); auto; try discriminate.
    { intros m [<-|[<-|[]]]; apply val_reach; auto. }
    set (q1 := upd q n n') in *.
    assert (m1 : map q1 args = map q args) by (apply map_ext_in; intros m hm; apply hs; auto).
    assert (m2 : map q1 (new ++ [n]) = map q new ++ [n']).
    { rewrite map_app. cbn [map]. unfold q1 at 2. rewrite upd_same. f_equal.
      apply map_ext_in. intros m hm. apply hs. auto. }
    assert (m3 : q1 r = q r) by (apply hs; exact hr).
    rewrite <- m1, <- m2, <- m3 in eb.
    destruct (IH q1 (n :: ns) a1 b1 _ _ _ _ (new ++ [n]) new' newb a' b' H1 Ia1 Ib1)
      as (q' & ns' & H' & f1 & f2 & f3 & f4); auto.
    + intros m hm. apply hs. auto.
    + intros m hm. apply in_app_or in hm. destruct hm as [hm|[<-|[]]]; [apply hs; auto|].
      apply reach_root. left. reflexivity.
    + apply hs. exact hr.
    + rewrite app_length. cbn [length]. rewrite Nat.add_1_r. exact h3.
    + exists q', ns'. split; auto. split; auto.
      split; [rewrite f2, app_length; cbn [length]; lia|]. split; auto.
      intros m hm. destruct (hs m hm) as [g1 g2]. destruct (f3 m g2) as [g3 g4]. split; congruence.
Qed.

Lemma build_rel q a b La Lb (args : list addr) r B :
  rel q [] a b -> inv a La [] rt [] -> inv b Lb [] rt [] ->
  (forall m, In m args -> reach a rt m) -> reach a rt r -> rule_fine (length args) B = true ->
  exists q', rel q' [] (build_redex a args r B) (build_redex b (map q args) (q r) B) /\
    forall m, reach a rt m -> q' m = q m.
Proof.
  intros H Ia Ib ha hr hf. unfold rule_fine in hf.
  apply andb_prop in hf. destruct hf as [hf _]. apply andb_prop in hf. destruct hf as [hf h2].
  apply andb_prop in hf. destruct hf as [h0 h1]. unfold build_redex.
  destruct (make a args [] r (made B)) as [new a1] eqn:ea.
  destruct (make b (map q args) [] (q r) (made B)) as [newb b1] eqn:eb.
  destruct (make_rel args r (made B) q [] a b La Lb [] [] [] new newb a1 b1 H Ia Ib ha
              (fun m hm => match hm with end) hr h0 ea eb) as (q' & ns' & H' & f1 & f2 & f3 & f4).
  cbn [length plus app] in f2, f3. rewrite <- f2 in h1, h2.
  assert (m1 : map q args = map q' args).
  { apply map_ext_in. intros m hm. symmetry. apply f3. auto. }
  assert (m3 : q r = q' r) by (symmetry; apply f3; exact hr).
  exists q'. split; [|intros m hm; apply f3; exact hm].
  subst newb. rewrite m1, m3, !val_map by assumption.
  eapply rel_same; try apply incr_all_cell; try apply incr_all_tabs.
  eapply rel_weak.
  assert (ha' : forall m, In m args -> reach a1 (ns' ++ rt) m) by (intros m hm; apply f3; auto).
  assert (hr' : reach a1 (ns' ++ rt) r) by (apply f3; auto).
  pose proof (rel_set q' ns' a1 b1 r (if is_cons B then Cons (val args new r (bl B)) (val args new r (br B))
                else App (val args new r (bl B)) (val args new r (br B))) H' hr') as Q.
  destruct (is_cons B); apply Q; try discriminate;
    (intros m [<-|[<-|[]]]; apply val_reach; auto).
Qed.

(** Tables. *)
Lemma rel_newtab q a b L v r : rel q [] a b -> inv a L [] rt [] -> reach a rt v -> reach a rt r ->
  rel q [] (set_cell (set_tabs a (tabs a ++ [[v]])) r (Tab true (length (tabs a))))
           (set_cell (set_tabs b (tabs b ++ [[q v]])) (q r) (Tab true (length (tabs b)))).
Proof.
  intros H I0 hv hr. pose proof H as [h1 h2 h3 h4 h5]. cbn [app] in *.
  assert (ht : forall n t k, reach a rt n -> cell a n = Tab t k -> k < length (tabs a)).
  { intros n t k hn e. eapply i_tab; eauto. eapply inv_reach; eauto. }
  assert (hb : forall n, reach (set_cell (set_tabs a (tabs a ++ [[v]])) r (Tab true (length (tabs a)))) rt n ->
               reach a rt n).
  { induction 1 as [n hn|m n hm IH hn|m t k n hm IH he hn].
    - apply reach_root; auto.
    - cbn [cell set_cell set_tabs] in hn. destruct (Nat.eq_dec m r) as [->|ne].
      + rewrite upd_same in hn. destruct hn.
      + rewrite upd_other in hn by exact ne. eapply reach_kid; eauto.
    - cbn [cell set_cell set_tabs tabs] in *. destruct (Nat.eq_dec m r) as [->|ne].
      + rewrite upd_same in he. injection he as <- <-. rewrite nth_middle in hn.
        destruct hn as [<-|[]]. exact hv.
      + rewrite upd_other in he by exact ne. rewrite app_nth1 in hn by eauto. eapply reach_tab; eauto. }
  split; cbn [app]; auto.
  - intros n hn. pose proof (hb n hn) as hn'. cbn [cell set_cell set_tabs].
    destruct (Nat.eq_dec n r) as [->|ne].
    + rewrite !upd_same, h5. reflexivity.
    + rewrite !upd_other; auto.
  - intros n t k hn e. pose proof (hb n hn) as hn'. cbn [cell set_cell set_tabs tabs] in *.
    destruct (Nat.eq_dec n r) as [->|ne].
    + rewrite upd_same in e. injection e as <- <-. rewrite nth_middle, <- h5, nth_middle. reflexivity.
    + rewrite upd_other in e by exact ne. rewrite !app_nth1; eauto. rewrite h5. eauto.
  - cbn [tabs set_cell set_tabs]. rewrite !app_length, h5. reflexivity.
Qed.

Lemma put_nth {A} i (v : A) l j d : i < length l -> nth j (put i v l) d = if j =? i then v else nth j l d.
Proof.
  intros h. unfold put. assert (hl : length (firstn i l) = i) by (apply firstn_length_le; lia).
  destruct (Nat.eqb_spec j i) as [->|ne].
  - rewrite app_nth2 by lia. rewrite hl, Nat.sub_diag. reflexivity.
  - destruct (le_lt_dec i j) as [q|q].
    + rewrite app_nth2 by lia. rewrite hl. replace (j - i) with (S (j - S i)) by lia. cbn [nth].
      rewrite <- (firstn_skipn (S i) l) at 2.
      assert (hl2 : length (firstn (S i) l) = S i) by (apply firstn_length_le; lia).
      rewrite app_nth2 by lia. rewrite hl2. reflexivity.
    + rewrite app_nth1 by lia. rewrite <- (firstn_skipn i l) at 2. rewrite app_nth1 by lia. reflexivity.
Qed.

Lemma put_length {A} i (v : A) l : i < length l -> length (put i v l) = length l.
Proof.
  intros h. unfold put. rewrite app_length. cbn [length]. rewrite firstn_length_le, skipn_length by lia. lia.
Qed.

Lemma rel_update q a b k v r c : kids c = [] -> (forall t k, c <> Tab t k) ->
  rel q [] a b -> reach a rt v -> reach a rt r -> k < length (tabs a) ->
  rel q [] (set_cell (set_tabs a (put k [v] (tabs a))) r c)
           (set_cell (set_tabs b (put k [q v] (tabs b))) (q r) c).
Proof.
  intros hkc htc H hv hr hk. pose proof H as [h1 h2 h3 h4 h5]. cbn [app] in *.
  assert (ec : mapn q c = c) by (destruct c; try discriminate hkc; reflexivity).
  assert (hb : forall n, reach (set_cell (set_tabs a (put k [v] (tabs a))) r c) rt n -> reach a rt n).
  { induction 1 as [n hn|m n hm IH hn|m t k' n hm IH he hn].
    - apply reach_root; auto.
    - cbn [cell set_cell set_tabs] in hn. destruct (Nat.eq_dec m r) as [->|ne].
      + rewrite upd_same, hkc in hn. destruct hn.
      + rewrite upd_other in hn by exact ne. eapply reach_kid; eauto.
    - cbn [cell set_cell set_tabs tabs] in *. destruct (Nat.eq_dec m r) as [->|ne].
      + rewrite upd_same in he. destruct (htc _ _ he).
      + rewrite upd_other in he by exact ne. rewrite put_nth in hn by exact hk.
        destruct (k' =? k); [destruct hn as [<-|[]]; exact hv|]. eapply reach_tab; eauto. }
  split; cbn [app]; auto.
  - intros n hn. pose proof (hb n hn) as hn'. cbn [cell set_cell set_tabs].
    destruct (Nat.eq_dec n r) as [->|ne].
    + rewrite !upd_same. auto.
    + rewrite !upd_other; auto.
  - intros n t k' hn e. pose proof (hb n hn) as hn'. cbn [cell set_cell set_tabs tabs] in *.
    destruct (Nat.eq_dec n r) as [->|ne].
    + rewrite upd_same in e. destruct (htc _ _ e).
    + rewrite upd_other in e by exact ne.
      rewrite !put_nth by congruence. destruct (k' =? k); [reflexivity|]. eauto.
  - cbn [tabs set_cell set_tabs]. rewrite !put_length; congruence.
Qed.

(** Spines. *)
Lemma lnk_rel q a b sp : forall root x, rel q [] a b -> reach a rt x -> lnk a root sp x ->
  lnk b (q root) (map q sp) (q x) /\ rights b (map q sp) = map q (rights a sp).
Proof.
  intros root x H hx hl. destruct (reach_lnk _ _ _ _ _ hl hx) as [_ hs]. clear hx.
  revert root hl. induction sp as [|s sp IH]; intros root hl; cbn [lnk map rights] in *.
  - subst. auto.
  - destruct hl as [(z & e) hl]. destruct (IH (fun m hm => hs m (or_intror hm)) s hl) as [l1 l2].
    pose proof (r_cell _ _ _ _ H s (hs s (or_introl eq_refl))) as hc. rewrite e in hc. cbn [mapn] in hc.
    split; [split; eauto|]. unfold rights in *. cbn [map]. rewrite hc, e. cbn [right_of]. f_equal. exact l2.
Qed.

Lemma whead_map q c (sp : list addr) : whead c sp -> whead (mapn q c) (map q sp).
Proof. destruct c; cbn; auto; intros e; try (rewrite e; reflexivity). rewrite map_length. exact e. Qed.

Lemma whnf_rel q a b n : rel q [] a b -> reach a rt n -> whnf a n -> whnf b (q n).
Proof.
  intros H hn (root & sp & h1 & h2). destruct (lnk_rel _ _ _ _ _ _ H hn h1) as [l1 _].
  exists (q root), (map q sp). split; auto.
  rewrite (r_cell _ _ _ _ H root); [apply whead_map; exact h2|].
  exact (proj1 (reach_lnk _ _ _ _ _ h1 hn)).
Qed.

Lemma decide_rel q a b p (args : list addr) : rel q [] a b -> 1 <= length args ->
  reach a rt (nth 0 args 0) -> decide p b (map q args) = decide p a args.
Proof.
  intros H hl hr. unfold decide. rewrite nth_map by lia. rewrite (r_cell _ _ _ _ H _ hr).
  destruct p; auto. destruct (cell a (nth 0 args 0)); reflexivity.
Qed.

Lemma is_fail_map q c : is_fail (mapn q c) = is_fail c.
Proof. destruct c; reflexivity. Qed.

Lemma want1_rel q a b p d (args : list addr) : rel q [] a b -> arity p <= length args ->
  reach a rt (nth 0 args 0) ->
  want1 p d b (map q args) = match want1 p d a args with Some (j, z) => Some (j, q z) | None => None end.
Proof.
  intros H hl hr. pose proof (arity_pos p). unfold want1. rewrite nth_map by lia.
  rewrite (r_cell _ _ _ _ H _ hr), is_fail_map.
  destruct p; cbn [arity] in hl; auto; rewrite ?nth_map by lia;
    destruct (cell a (nth 0 args 0)) as [| | | | | | | | |[|] ?|]; cbn [mapn is_fail]; auto;
    destruct d as [[|]|]; reflexivity.
Qed.

End Rel.
