(* Save_graph and Load_graph as a whole. *)
From Coq Require Import ZArith List Ascii Bool Lia.
From Verif Require Import SerModel SerSpec SerNum SerThms SerTrav.
Import ListNotations.
Open Scope Z_scope.

(* ---- depth of the recursion ---- *)
Definition unseen (dom seen : list ptr) : nat := length (filter (fun x => negb (mem x seen)) dom).

Lemma unseen_mono dom s s' : incl s s' -> (unseen dom s' <= unseen dom s)%nat.
Proof.
  intros H. unfold unseen. induction dom as [|x r IH]; [reflexivity|]. cbn [filter].
  destruct (mem x s) eqn:M.
  - assert (M' : mem x s' = true) by (apply mem_in, H, mem_in; exact M). rewrite M'. exact IH.
  - destruct (mem x s'); cbn [negb length]; lia.
Qed.
Lemma unseen_step dom s p : In p dom -> ~ In p s -> (unseen dom (p :: s) < unseen dom s)%nat.
Proof.
  intros I N. unfold unseen. induction dom as [|x r IH]; [destruct I|]. cbn [filter].
  assert (L := unseen_mono r s (p :: s) ltac:(intros y Hy; right; exact Hy)). unfold unseen in L.
  destruct (Pos.eq_dec x p) as [->|Nx].
  - assert (M : mem p s = false). { destruct (mem p s) eqn:M; [|reflexivity]. apply mem_in in M. contradiction. }
    assert (M' : mem p (p :: s) = true) by (apply mem_in; left; reflexivity).
    rewrite M, M'. cbn [negb length]. lia.
  - destruct I as [X|I]; [congruence|]. specialize (IH I).
    assert (M : mem x (p :: s) = mem x s).
    { unfold mem. cbn [existsb]. destruct (Pos.eqb_spec x p); [congruence|reflexivity]. }
    rewrite M. destruct (mem x s); cbn [negb length]; lia.
Qed.
Lemma unseen_le dom s : (unseen dom s <= length dom)%nat.
Proof.
  unfold unseen. induction dom as [|x r IH]; [reflexivity|]. cbn [filter].
  destruct (negb (mem x s)); cbn [length]; lia.
Qed.

Section Top.
Variables (h : ptr -> option node) (refs : Z -> option ptr) (dom : list ptr).
Hypothesis Cl : closed h refs dom.

(* ---- can_be_saved ---- *)
Definition node_ok (x : ptr) : Prop := exists n, h x = Some n /\ savable n.

Lemma std_dec s : existsb (chars_eqb s) std_streams = true <-> In s std_streams.
Proof.
  split; [|apply existsb_in]. intros H. apply existsb_exists in H. destruct H as (x & I & Ex).
  apply chars_eqb_eq in Ex. subst. exact I.
Qed.

Lemma check_spec f : forall p seen b s', can_be_saved h refs f p seen = Some (b, s') ->
  incl seen s'
  /\ (b = true -> In p s' /\ forall x, In x s' -> In x seen \/ (node_ok x /\ forall q, edge h refs x q -> In q s'))
  /\ (b = false -> exists x n, reach h refs p x /\ h x = Some n /\ ~ savable n).
Proof.
  induction f as [|f IH]; intros p seen b s' H; cbn [can_be_saved] in H; [discriminate|].
  destruct (mem p seen) eqn:M.
  { injection H as <- <-. split; [apply incl_refl|]. split; [|discriminate].
    intros _. split; [apply mem_in; exact M|]. auto. }
  destruct (h p) as [n|] eqn:Hn; [|discriminate].
  (* the children *)
  assert (K : forall l seen0 b s', check_kids (can_be_saved h refs f) l seen0 = Some (b, s') ->
    incl seen0 s'
    /\ (b = true -> incl l s' /\ forall x, In x s' -> In x seen0 \/ (node_ok x /\ forall q, edge h refs x q -> In q s'))
    /\ (b = false -> exists k x n, In k l /\ reach h refs k x /\ h x = Some n /\ ~ savable n)).
  { induction l as [|k l IHl]; intros seen0 b0 s0 H0; cbn [check_kids] in H0.
    - injection H0 as <- <-. split; [apply incl_refl|]. split; [|discriminate].
      intros _. split; [intros x []|]. auto.
    - destruct (can_be_saved h refs f k seen0) as [[[|] s1]|] eqn:E1; [| |discriminate].
      + destruct (IH _ _ _ _ E1) as (A1 & A2 & _). destruct (A2 eq_refl) as [A3 A4].
        destruct (IHl _ _ _ H0) as (B1 & B2 & B3). split; [eapply incl_tran; eauto|]. split.
        * intros Eb. destruct (B2 Eb) as [B4 B5]. split.
          { intros x [<-|I]; [apply B1; exact A3|apply B4; exact I]. }
          { intros x I. destruct (B5 x I) as [I1|I1]; [|auto]. destruct (A4 x I1) as [I2|[I2 I3]]; [auto|].
            right. split; [exact I2|]. intros q Hq. apply B1. auto. }
        * intros Eb. destruct (B3 Eb) as (k' & x & n' & I & X). exists k', x, n'. split; [right; exact I|exact X].
      + injection H0 as <- <-. destruct (IH _ _ _ _ E1) as (A1 & _ & A3). split; [exact A1|].
        split; [discriminate|]. intros _. destruct (A3 eq_refl) as (x & n' & X).
        exists k, x, n'. split; [left; reflexivity|exact X]. }
  (* a node with children l, itself savable *)
  assert (N : forall l, savable n -> (forall q, edge h refs p q <-> In q l) ->
    check_kids (can_be_saved h refs f) l (p :: seen) = Some (b, s') ->
    incl seen s'
    /\ (b = true -> In p s' /\ forall x, In x s' -> In x seen \/ (node_ok x /\ forall q, edge h refs x q -> In q s'))
    /\ (b = false -> exists x n, reach h refs p x /\ h x = Some n /\ ~ savable n)).
  { intros l Sv He Hk. destruct (K _ _ _ _ Hk) as (A1 & A2 & A3). split; [intros x I; apply A1; right; exact I|]. split.
    - intros Eb. destruct (A2 Eb) as [A4 A5]. split; [apply A1; left; reflexivity|].
      intros x I. destruct (A5 x I) as [[<-|I1]|I1]; [|auto|auto].
      right. split; [exists n; auto|]. intros q Hq. apply A4. apply He. exact Hq.
    - intros Eb. destruct (A3 Eb) as (k & x & n' & I & Rk & X). exists x, n'. split; [|exact X].
      apply He in I. clear -I Rk. induction Rk as [|a c Rk IHr Ed]; [eapply R_step; [apply R_here|exact I]|].
      eapply R_step; eauto. }
  (* a leaf *)
  assert (L : (forall q, ~ edge h refs p q) -> (b = true -> savable n) -> (b = false -> ~ savable n) -> s' = p :: seen ->
    incl seen s'
    /\ (b = true -> In p s' /\ forall x, In x s' -> In x seen \/ (node_ok x /\ forall q, edge h refs x q -> In q s'))
    /\ (b = false -> exists x n, reach h refs p x /\ h x = Some n /\ ~ savable n)).
  { intros He Ht Hf ->. split; [intros x I; right; exact I|]. split.
    - intros Eb. split; [left; reflexivity|]. intros x [<-|I]; [|auto]. right.
      split; [exists n; auto|]. intros q Hq. destruct (He q Hq).
    - intros Eb. exists p, n. split; [apply R_here|]. auto. }
  assert (He := kids_edge h refs p n).
  destruct n; cbn [kids] in He.
  - apply (N [l; r]); [exact I| |exact H]. intros q. rewrite (He q Hn). reflexivity.
  - injection H as <- <-. apply L; [intros q Hq; exact (proj2 (He q Hn) Hq)|intros _; exact I|discriminate|reflexivity].
  - apply (N [h0; t]); [exact I| |exact H]. intros q. rewrite (He q Hn). reflexivity.
  - injection H as <- <-. apply L; [intros q Hq; exact (proj2 (He q Hn) Hq)|intros _; exact I|discriminate|reflexivity].
  - injection H as <- <-. apply L; [intros q Hq; exact (proj2 (He q Hn) Hq)|intros _; exact I|discriminate|reflexivity].
  - injection H as <- <-. apply L; [intros q Hq; exact (proj2 (He q Hn) Hq)|intros _; exact I|discriminate|reflexivity].
  - injection H as <- <-. apply L; [intros q Hq; exact (proj2 (He q Hn) Hq)|intros _; exact I|discriminate|reflexivity].
  - injection H as <- <-. apply L; [intros q Hq; exact (proj2 (He q Hn) Hq)|intros _; exact I|discriminate|reflexivity].
  - injection H as <- <-. apply L; [intros q Hq; exact (proj2 (He q Hn) Hq)|discriminate|intros _ X; exact X|reflexivity].
  - injection H as <- <-. apply L; auto.
    + intros q Hq. exact (proj2 (He q Hn) Hq).
    + intros X. apply std_dec. exact X.
    + intros X Y. assert (Y2 := proj2 (std_dec name) Y). exact (eq_true_false_abs _ Y2 X).
  - destruct (refs r) as [c|] eqn:Er; [|discriminate]. apply (N [c]); [exact I| |exact H].
    intros q. rewrite (He q Hn). reflexivity.
  - injection H as <- <-. apply L; [intros q Hq; exact (proj2 (He q Hn) Hq)|intros _; exact I|discriminate|reflexivity].
  - injection H as <- <-. apply L; [intros q Hq; exact (proj2 (He q Hn) Hq)|intros _; exact I|discriminate|reflexivity].
  - injection H as <- <-. apply L; [intros q Hq; exact (proj2 (He q Hn) Hq)|intros _; exact I|discriminate|reflexivity].
Qed.

Lemma check_total f : forall p seen, In p dom -> (unseen dom seen < f)%nat ->
  can_be_saved h refs f p seen <> None.
Proof.
  induction f as [|f IH]; intros p seen Ip Hf; [lia|]. cbn [can_be_saved].
  destruct (mem p seen) eqn:M; [discriminate|].
  assert (Np : ~ In p seen) by (intros X; apply mem_in in X; congruence).
  destruct (Cl p Ip) as [(n & Hn & Hr) He]. rewrite Hn.
  assert (U := unseen_step dom seen p Ip Np).
  assert (K : forall l seen0, incl l dom -> (unseen dom seen0 < f)%nat ->
    check_kids (can_be_saved h refs f) l seen0 <> None).
  { induction l as [|k l IHl]; intros seen0 Il U0; cbn [check_kids]; [discriminate|].
    destruct (can_be_saved h refs f k seen0) as [[[|] s1]|] eqn:E1; [|discriminate|].
    - apply IHl; [intros x I; apply Il; right; exact I|].
      assert (X := unseen_mono dom seen0 s1 (proj1 (check_spec _ _ _ _ _ E1))). lia.
    - intros _. apply (IH k seen0); [apply Il; left; reflexivity|exact U0|exact E1]. }
  assert (D : forall q, In q (kids refs n) -> In q dom).
  { intros q I. apply He. apply (kids_edge h refs p n q Hn). exact I. }
  destruct n; try discriminate.
  - apply K; [intros x I; apply D; exact I|lia].
  - apply K; [intros x I; apply D; exact I|lia].
  - destruct (Hr r eq_refl) as [c Hc]. cbn [kids] in D. rewrite Hc in *.
    apply K; [intros x I; apply D; exact I|lia].
Qed.

Lemma reach_dom p q : In p dom -> reach h refs p q -> In q dom.
Proof. intros I R. induction R as [|a b R IH Ed]; [exact I|]. exact (proj2 (Cl a IH) b Ed). Qed.

(* can_be_saved answers whether every node of the graph can be saved. *)
Lemma can_be_saved_spec f p : In p dom -> (length dom < f)%nat ->
  exists b s, can_be_saved h refs f p [] = Some (b, s)
    /\ (b = true <-> forall x n, reach h refs p x -> h x = Some n -> savable n).
Proof.
  intros Ip Hf. destruct (can_be_saved h refs f p []) as [[b s]|] eqn:Ec.
  2:{ exfalso. apply (check_total f p [] Ip); [|exact Ec]. pose proof (unseen_le dom []). lia. }
  exists b, s. split; [reflexivity|]. destruct (check_spec _ _ _ _ _ Ec) as (_ & A2 & A3). split.
  - intros Eb x n Rx Hn. destruct (A2 Eb) as [Ips A4].
    assert (Is : In x s).
    { clear Hn. induction Rx as [|a c Rx IHr Ed]; [exact Ips|].
      destruct (A4 a IHr) as [[]|[_ X]]. exact (X c Ed). }
    destruct (A4 x Is) as [[]|[(n' & Hn' & Sv) _]]. congruence.
  - intros Hall. destruct b; [reflexivity|]. destruct (A3 eq_refl) as (x & n & Rx & Hn & Ns).
    exfalso. apply Ns. eapply Hall; eauto.
Qed.

(* ---- the writer ---- *)
Lemma write_leaf_total n w : savable n -> (forall a b, n <> NApp a b) -> (forall a b, n <> NCons a b) ->
  (forall r, n <> NRef r) -> write_leaf n w <> None.
Proof.
  intros Sv N1 N2 N3. destruct n; cbn [write_leaf]; try discriminate.
  - destruct (N1 _ _ eq_refl).
  - destruct (N2 _ _ eq_refl).
  - destruct (put_arbi z w). discriminate.
  - destruct (put_string s w). discriminate.
  - destruct (put_formula f w). discriminate.
  - destruct (put_bexpr e w). discriminate.
  - destruct (put_bv fs w). discriminate.
  - destruct Sv.
  - destruct (put_string name w). discriminate.
  - destruct (N3 _ eq_refl).
Qed.

Variable root : ptr.
Hypothesis Hroot : In root dom.
Hypothesis Sv : forall x n, reach h refs root x -> h x = Some n -> savable n.

Lemma write_total f : forall p w, reach h refs root p -> (unseen dom (w_seen w) < f)%nat ->
  write_ptr h refs f p w <> None.
Proof.
  induction f as [|f IH]; intros p w Rp Hf; [lia|]. cbn [write_ptr].
  destruct (mem p (w_seen w)) eqn:M; [discriminate|].
  assert (Np : ~ In p (w_seen w)) by (intros X; apply mem_in in X; congruence).
  assert (Ip : In p dom) by (exact (reach_dom _ _ Hroot Rp)).
  destruct (Cl p Ip) as [(n & Hn & Hr) He]. rewrite Hn.
  assert (U := unseen_step dom (w_seen w) p Ip Np).
  set (w1 := mk_w (p :: w_seen w) (w_strs w) (w_bools w) (w_bexprs w)).
  assert (K : forall l w0, (forall q, In q l -> reach h refs root q) -> (unseen dom (w_seen w0) < f)%nat ->
    write_kids (write_ptr h refs f) l w0 <> None).
  { induction l as [|k l IHl]; intros w0 Il U0; cbn [write_kids]; [discriminate|].
    destruct (write_ptr h refs f k w0) as [[t1 s1]|] eqn:E1.
    - destruct (write_kids (write_ptr h refs f) l s1) as [[t2 s2]|] eqn:E2; [discriminate|].
      exfalso. apply (IHl s1); [intros q I; apply Il; right; exact I| |exact E2].
      assert (X := unseen_mono dom (w_seen w0) (w_seen s1) (proj1 (proj1 (write_ptr_ext _ _ _ _ _ _ _ E1)))). lia.
    - exfalso. apply (IH k w0); [apply Il; left; reflexivity|exact U0|exact E1]. }
  assert (D : forall q, In q (kids refs n) -> reach h refs root q).
  { intros q I. eapply R_step; [exact Rp|]. apply (kids_edge h refs p n q Hn). exact I. }
  assert (Kt : forall c l, (forall q, In q l -> reach h refs root q) ->
    exists y, tagged c (write_kids (write_ptr h refs f) l w1) = Some y).
  { intros c l Hl. destruct (write_kids (write_ptr h refs f) l w1) as [[t2 w2]|] eqn:E2; [cbn; eauto|].
    exfalso. apply (K l w1 Hl); [cbn; lia|exact E2]. }
  assert (Lf : (forall a b, n <> NApp a b) -> (forall a b, n <> NCons a b) -> (forall r, n <> NRef r) ->
    exists y, write_leaf n w1 = Some y).
  { intros N1 N2 N3. destruct (write_leaf n w1) as [y|] eqn:Ey; [eauto|].
    exfalso. apply (write_leaf_total n w1 (Sv _ _ Rp Hn) N1 N2 N3 Ey). }
  match goal with |- match ?X with _ => _ end <> None => assert (G : exists y, X = Some y) end.
  2:{ destruct G as [[t2 w2] ->]. discriminate. }
  destruct n; try (apply Lf; discriminate).
  - apply Kt. exact D.
  - apply Kt. exact D.
  - destruct (Hr r eq_refl) as [c Hc]. cbn [kids] in D. rewrite Hc in *. apply Kt. exact D.
Qed.

Hypothesis Ff : forall x n, reach h refs root x -> h x = Some n -> faithful n.

Lemma show_base_chars b c : 2 <= b -> forall fuel n acc, 0 <= n -> In c (show_base fuel b n acc) ->
  In c acc \/ exists d, 0 <= d < b /\ c = digit_chr d.
Proof.
  intros Hb. induction fuel as [|f IH]; intros n acc Hn I; cbn [show_base] in I; [auto|].
  destruct (Z.ltb_spec n b) as [L|L].
  - destruct I as [<-|I]; [right; exists n; split; [lia|reflexivity]|auto].
  - apply IH in I; [|apply Z.div_pos; lia]. destruct I as [[<-|I]|I]; auto.
    right. exists (n mod b). split; [apply Z.mod_pos_bound; lia|reflexivity].
Qed.
Lemma show_int_no_nul z : ~ In "000"%char (show_int z).
Proof.
  assert (G : forall n, 0 <= n -> ~ In "000"%char (show_num 10 n)).
  { intros n Hn I. apply show_base_chars in I; [|lia|exact Hn]. destruct I as [[]|(d & Hd & Ed)].
    assert (X := dec_cases d Hd). rewrite <- Ed in X. cbn in X. repeat (destruct X as [X|X]; [discriminate|]). exact X. }
  unfold show_int. destruct (Z.ltb_spec z 0) as [L|L].
  - intros [X|I]; [discriminate|]. exact (G (- z) ltac:(lia) I).
  - apply G. exact L.
Qed.

Definition strs_ok (w : wstate) : Prop := Forall (fun e => text_ok (snd e)) (w_strs w).

Lemma find_insert_Forall {A} (eqb : A -> A -> bool) (Q : A -> Prop) x l i l' :
  find_insert eqb x l = (i, l') -> Q x -> Forall Q l -> Forall Q l'.
Proof.
  unfold find_insert. destruct (index_of eqb x l); intros H Qx Ql; injection H as <- <-; [exact Ql|].
  apply Forall_app. split; [exact Ql|]. constructor; [exact Qx|constructor].
Qed.
Lemma put_string_ok s w t w' : put_string s w = (t, w') -> text_ok s -> strs_ok w -> strs_ok w'.
Proof.
  unfold put_string. destruct (find_insert entry_eqb (true, s) (w_strs w)) as [i l] eqn:Ef.
  intros H Ts Hw. injection H as <- <-. unfold strs_ok. cbn.
  exact (find_insert_Forall entry_eqb (fun e => text_ok (snd e)) _ _ _ _ Ef Ts Hw).
Qed.
Lemma bool_idx_strs f w i w' : bool_idx f w = (i, w') -> w_strs w' = w_strs w.
Proof. unfold bool_idx. destruct (find_insert Z.eqb f (w_bools w)). intros H. injection H as <- <-. reflexivity. Qed.
Lemma put_bits_strs fs : forall w t w', put_bits fs w = (t, w') -> w_strs w' = w_strs w.
Proof.
  induction fs as [|f r IH]; intros w t w' H; cbn [put_bits] in H; [injection H as <- <-; reflexivity|].
  destruct (bool_idx f w) as [i w1] eqn:E1. destruct (put_bits r w1) as [t2 w2] eqn:E2. injection H as <- <-.
  rewrite (IH _ _ _ E2). exact (bool_idx_strs _ _ _ _ E1).
Qed.

Lemma write_leaf_ok n w t w' : write_leaf n w = Some (t, w') -> faithful n -> strs_ok w -> strs_ok w'.
Proof.
  intros H F Hw. destruct n; cbn [write_leaf] in H; try discriminate.
  - injection H as <- <-. exact Hw.
  - unfold put_arbi in H. destruct (find_insert entry_eqb (false, show_int z) (w_strs w)) as [i l] eqn:Ef.
    injection H as <- <-. unfold strs_ok. cbn.
    refine (find_insert_Forall entry_eqb (fun e => text_ok (snd e)) _ _ _ _ Ef _ Hw).
    split; [apply show_int_no_nul|exact F].
  - destruct (put_string s w) as [t1 w1] eqn:Ep. injection H as <- <-. eapply put_string_ok; eauto. apply F.
  - unfold put_formula in H. destruct (bool_idx f w) as [i w1] eqn:Ep. injection H as <- <-.
    unfold strs_ok. rewrite (bool_idx_strs _ _ _ _ Ep). exact Hw.
  - unfold put_bexpr in H. destruct (find_insert Z.eqb e (w_bexprs w)). injection H as <- <-. exact Hw.
  - unfold put_bv in H. destruct (put_bits fs w) as [t1 w1] eqn:Ep. injection H as <- <-.
    unfold strs_ok. rewrite (put_bits_strs _ _ _ _ Ep). exact Hw.
  - destruct (put_string name w) as [t1 w1] eqn:Ep. injection H as <- <-. eapply put_string_ok; eauto.
  - injection H as <- <-. exact Hw.
  - injection H as <- <-. exact Hw.
  - injection H as <- <-. exact Hw.
Qed.

Lemma write_ok f : forall p w t w', reach h refs root p -> write_ptr h refs f p w = Some (t, w') ->
  strs_ok w -> (forall x, In x (w_seen w) -> reach h refs root x) ->
  strs_ok w' /\ (forall x, In x (w_seen w') -> reach h refs root x).
Proof.
  induction f as [|f IH]; intros p w t w' Rp H Hw Hs; cbn [write_ptr] in H; [discriminate|].
  destruct (mem p (w_seen w)) eqn:M; [injection H as <- <-; auto|].
  destruct (h p) as [n|] eqn:Hn; [|discriminate].
  set (w1 := mk_w (p :: w_seen w) (w_strs w) (w_bools w) (w_bexprs w)) in *.
  assert (Hw1 : strs_ok w1) by exact Hw.
  assert (Hs1 : forall x, In x (w_seen w1) -> reach h refs root x).
  { intros x [<-|I]; [exact Rp|auto]. }
  match type of H with match ?X with _ => _ end = _ => destruct X as [[t2 w2]|] eqn:EX; [|discriminate] end.
  injection H as <- <-.
  assert (K : forall l w0 t0 w0', (forall q, In q l -> reach h refs root q) ->
    write_kids (write_ptr h refs f) l w0 = Some (t0, w0') -> strs_ok w0 ->
    (forall x, In x (w_seen w0) -> reach h refs root x) ->
    strs_ok w0' /\ (forall x, In x (w_seen w0') -> reach h refs root x)).
  { induction l as [|k l IHl]; intros w0 t0 w0' Hl H0 A1 A2; cbn [write_kids] in H0.
    - injection H0 as <- <-. auto.
    - destruct (write_ptr h refs f k w0) as [[ta wa]|] eqn:E1; [|discriminate].
      destruct (write_kids (write_ptr h refs f) l wa) as [[tc wc]|] eqn:E2; [|discriminate].
      injection H0 as <- <-.
      destruct (IH k w0 ta wa (Hl k (or_introl eq_refl)) E1 A1 A2) as [B1 B2].
      eapply IHl; eauto. intros q I. apply Hl. right. exact I. }
  assert (D : forall q, In q (kids refs n) -> reach h refs root q).
  { intros q I. eapply R_step; [exact Rp|]. apply (kids_edge h refs p n q Hn). exact I. }
  assert (L : write_leaf n w1 = Some (t2, w2) ->
    strs_ok w2 /\ (forall x, In x (w_seen w2) -> reach h refs root x)).
  { intros G. split; [exact (write_leaf_ok _ _ _ _ G (Ff _ _ Rp Hn) Hw1)|].
    rewrite (proj1 (write_leaf_ext _ _ _ _ G)). exact Hs1. }
  destruct n; try (apply L; exact EX).
  - apply tagged_inv in EX. destruct EX as (t' & G & _). eapply K; eauto.
  - apply tagged_inv in EX. destruct EX as (t' & G & _). eapply K; eauto.
  - cbn [kids] in D. destruct (refs r); [|discriminate].
    apply tagged_inv in EX. destruct EX as (t' & G & _). eapply K; eauto.
Qed.
End Top.

Lemma Forall2_nth {A C} (R : A -> C -> Prop) l l' : Forall2 R l l' ->
  forall i x, nth_error l i = Some x -> exists y, nth_error l' i = Some y /\ R x y.
Proof.
  induction 1 as [|a b l l' Hab F IH]; intros [|i] x Hx; cbn in Hx; try discriminate.
  - injection Hx as <-. exists b. auto.
  - exact (IH i x Hx).
Qed.

(* ---- the signature ---- *)
Lemma is_prefix_app a b : is_prefix a (a ++ b) = true.
Proof. induction a as [|x a IH]; [reflexivity|]. cbn. rewrite Ascii.eqb_refl. exact IH. Qed.
Lemma fgets_line n : forall s r, ~ In nl s -> (length s < n)%nat -> fgets n (s ++ nl :: r) = s ++ [nl].
Proof.
  induction n as [|n IH]; intros s r Hs Hl; [lia|]. destruct s as [|c s]; [reflexivity|].
  cbn [app fgets]. destruct (Ascii.eqb_spec c nl) as [->|N]; [exfalso; apply Hs; left; reflexivity|].
  f_equal. apply IH; [intros X; apply Hs; right; exact X|cbn in Hl; lia].
Qed.
Lemma sig_ok_self cnt sig : ~ In nl sig -> (forall c r, sig = c :: r -> is_space c = false) -> sig <> [] ->
  Z.of_nat (length sig) < 129998 -> sig_ok sig (put_int cnt ++ sig ++ [nl]) = Some true.
Proof.
  intros Hn Hs He Hl. unfold sig_ok. rewrite get_int_put.
  - rewrite fgets_line by (try exact Hn; apply Nat2Z.inj_lt; rewrite Z2Nat.id by lia; exact Hl).
    rewrite is_prefix_app. reflexivity.
  - destruct sig as [|c r]; [congruence|]. apply nows_cons. exact (Hs c r eq_refl).
Qed.

(* ---- together ---- *)
Theorem save_answers h refs dom root fuel cnt sig : closed h refs dom -> In root dom -> (length dom < fuel)%nat ->
  exists o, save_graph fuel cnt sig h refs root = Some o
    /\ (o <> None <-> forall x n, reach h refs root x -> h x = Some n -> savable n).
Proof.
  intros Cl Hr Hf. destruct (can_be_saved_spec h refs dom Cl fuel root Hr Hf) as (b & s & Ec & Hb).
  unfold save_graph. rewrite Ec. destruct b.
  - assert (Sv := proj1 Hb eq_refl).
    destruct (write_ptr h refs fuel root (mk_w [] [] [] [])) as [[t w]|] eqn:Ew.
    + eexists. split; [reflexivity|]. split; [intros _; exact Sv|discriminate].
    + exfalso. revert Ew. eapply (write_total h refs dom Cl root Hr Sv); [apply R_here|].
      cbn. pose proof (unseen_le dom []). lia.
  - exists None. split; [reflexivity|]. split; [congruence|]. intros X. apply Hb in X. discriminate.
Qed.

Theorem load_saved h refs dom root fuel cnt sig a (B E : Z -> Z -> Prop) bools bexprs streams redex s :
  closed h refs dom -> In root dom -> (length dom < fuel)%nat ->
  (forall x n, reach h refs root x -> h x = Some n -> faithful n) ->
  (forall x y r, reach h refs root x -> reach h refs root y -> h x = Some (NRef r) -> h y = Some (NRef r) -> x = y) ->
  ~ In nl sig -> (forall c r, sig = c :: r -> is_space c = false) -> sig <> [] -> Z.of_nat (length sig) < 129998 ->
  save_graph fuel cnt sig h refs root = Some (Some a) ->
  (forall f g f' g', B f f' -> B g g' -> f' = g' -> f = g) ->
  Forall2 B (a_bools a) bools -> Forall2 E (a_bexprs a) bexprs ->
  incl std_streams streams -> session_ok s -> (redex < s_next s)%positive ->
  exists p s', load_graph fuel sig a bools bexprs streams redex s = Some (Some (p, s'))
    /\ same_graph B E h refs root (s_heap s') (s_refs s') p
    /\ s_heap s' redex = s_heap s' p
    /\ (forall q, s_heap s q <> None -> q <> redex -> s_heap s' q = s_heap s q)
    /\ (forall r, s_refs s r <> None -> s_refs s' r = s_refs s r).
Proof.
  intros Cl Hr Hf Ff Un Sg1 Sg2 Sg3 Sg4 Sa Binj Fb Fe Hst [Ss1 Ss2] Hred.
  unfold save_graph in Sa. destruct (can_be_saved_spec h refs dom Cl fuel root Hr Hf) as (b & sn & Ec & Hb).
  rewrite Ec in Sa. destruct b; [|discriminate]. assert (Sv := proj1 Hb eq_refl).
  destruct (write_ptr h refs fuel root (mk_w [] [] [] [])) as [[t w]|] eqn:Ew; [|discriminate].
  injection Sa as <-. cbn [a_bools a_bexprs] in *.
  destruct (write_ok h refs root Ff fuel root _ _ _ (R_here _ _ _) Ew) as [Ok Rs].
  { constructor. } { intros x []. }
  unfold load_graph. cbn [a_sig a_strs a_graph].
  rewrite (sig_ok_self cnt sig Sg1 Sg2 Sg3 Sg4).
  rewrite (read_entries_put (w_strs w) Ok (S (length (strs_file (w_strs w))))
    (proj2 (Nat.lt_succ_r _ _) (strs_file_length (w_strs w)))).
  set (tb := mk_t (map snd (w_strs w) ++ [[]]) bools bexprs streams).
  assert (Tb : good_tables B E tb w).
  { split; [|split].
    - intros i e He. cbn. rewrite nth_error_app1.
      + exact (map_nth_error snd i (w_strs w) He).
      + rewrite map_length. apply (proj1 (nth_error_Some (w_strs w) i)). intros X. pose proof (eq_trans (eq_sym X) He). discriminate.
    - intros i f Hi. exact (Forall2_nth _ _ _ Fb i f Hi).
    - intros i f Hi. exact (Forall2_nth _ _ _ Fe i f Hi). }
  set (st0 := mk_r [] s).
  assert (I0 : inv h refs B E (s_next s) [] (mk_w [] [] [] []) st0).
  { split; unfold mapped; cbn; try discriminate.
    intros x. split; [intros []|]. intros [y Hy]. discriminate. }
  assert (Fo := follows_all h refs B E tb Binj Hst (reach h refs root)
      (fun p q Rp Ed => R_step _ _ _ _ _ Rp Ed)
      (fun p n Rp Hn => conj (Sv p n Rp Hn) (Ff p n Rp Hn)) fuel).
  destruct (Fo root _ t w Ew Tb (R_here _ _ _) (s_next s) [] st0 [] I0 (Pos.le_refl _) nows_nil)
    as (q & st & Rd & I & Mq & G).
  rewrite app_nil_r in Rd. rewrite Rd.
  assert (Hgood : forall x y, mapped st x y -> good h refs B E st x y).
  { intros x y M. apply (i_good _ _ _ _ _ _ _ _ I x y M). intros []. }
  destruct (Hgood root q Mq) as (n0 & m0 & Hn0 & Hm0 & Rl0). rewrite Hm0.
  exists q. eexists. split; [reflexivity|].
  assert (Hlow : forall x y, mapped st x y -> s_heap (set_node redex m0 (r_ses st)) y = s_heap (r_ses st) y).
  { intros x y M. cbn. apply (i_rng _ _ _ _ _ _ _ _ I) in M. destruct (Pos.eqb_spec y redex); [lia|reflexivity]. }
  split.
  - exists (mapped st).
    exists (fun r r' => exists x y, mapped st x y /\ h x = Some (NRef r) /\ s_heap (r_ses st) y = Some (NRef r')).
    assert (Hreach : forall x y, mapped st x y -> reach h refs root x).
    { intros x y M. apply Rs. apply (i_dom _ _ _ _ _ _ _ _ I). eauto. }
    split; [exact Mq|]. split; [|split; [|split]].
    + split; [intros p y y' M M'; exact (mapped_fun _ _ _ _ M M')|].
      intros p p' y M M'. exact (i_inj _ _ _ _ _ _ _ _ I _ _ _ M M').
    + split.
      * intros r r1 r2 (x & y & M & H1 & H2) (x' & y' & M' & H1' & H2').
        assert (x = x') by (eapply Un; eauto). subst x'.
        assert (y = y') by exact (mapped_fun _ _ _ _ M M'). subst y'. congruence.
      * intros r1 r2 r (x & y & M & H1 & H2) (x' & y' & M' & H1' & H2').
        assert (y = y').
        { exact (i_ref _ _ _ _ _ _ _ _ I x x' y y' r M M' (fun X => X) (fun X => X) H2 H2'). }
        subst y'. assert (x = x') by exact (i_inj _ _ _ _ _ _ _ _ I _ _ _ M M'). subst x'. congruence.
    + intros x y M. destruct (Hgood x y M) as (n & m & Hn & Hm & Rl). exists n, m.
      split; [exact Hn|]. split; [rewrite (Hlow x y M); exact Hm|].
      inversion Rl; subst; constructor; auto. exists x, y. auto.
    + intros r r' (x & y & M & H1 & H2). destruct (Hgood x y M) as (n & m & Hn & Hm & Rl).
      rewrite H1 in Hn. injection Hn as <-. rewrite H2 in Hm. injection Hm as <-.
      inversion Rl as [| | | | | | | | |ra rb V| | |]; subst. destruct V as (_ & c & c' & V1 & V2 & V3).
      exists c, c'. split; [exact V1|]. split; [exact V2|exact V3].
  - split; [|split].
    + rewrite (Hlow root q Mq), Hm0. cbn. rewrite Pos.eqb_refl. reflexivity.
    + intros a Ha Na. cbn. destruct (Pos.eqb_spec a redex); [congruence|].
      apply (g_heap _ _ G). destruct (Pos.ltb_spec a (s_next s)) as [L|L]; [exact L|].
      exfalso. apply Ha. apply Ss1. exact L.
    + intros r Hrr. apply (g_refs _ _ G). destruct (Z.lt_ge_cases r (s_nrefs s)) as [L|L]; [exact L|].
      exfalso. apply Hrr. apply Ss2. exact L.
Qed.
