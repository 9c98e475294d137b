(* The text hashed for a graph determines the graph up to addresses, and conversely. *)
From Coq Require Import ZArith List Bool Ascii Lia.
From Verif Require Import ShaModel ShaSpec ShaThms VnameModel VnameThms ShaGraph ShaGraphSpec.
Import ListNotations.
Open Scope Z_scope.
Open Scope list_scope.

Local Notation length := List.length.

(* --- lines ------------------------------------------------------------------------ *)

Lemma split_digits : forall d d' c c' s s', Forall (fun x => digit x = true) d ->
  Forall (fun x => digit x = true) d' -> digit c = false -> digit c' = false ->
  d ++ c :: s = d' ++ c' :: s' -> d = d' /\ c = c' /\ s = s'.
Proof.
  induction d as [|x d IH]; intros d' c c' s s' F F' C C' E.
  - destruct d' as [|y d'].
    + injection E as -> ->. auto.
    + injection E as -> _. inversion F'; subst. congruence.
  - destruct d' as [|y d'].
    + injection E as -> _. inversion F; subst. congruence.
    + injection E as -> E. inversion F; inversion F'; subst.
      destruct (IH d' c c' s s') as [-> [-> ->]]; auto.
Qed.

Lemma show_nat_digits : forall n, 0 <= n -> Forall (fun x => digit x = true) (show_nat n) /\ show_nat n <> [].
Proof. intros n N. destruct (show_nat_ok n N) as [ds [-> [F [E _]]]]. auto. Qed.

Lemma show_nat_inj : forall n m, 0 <= n -> 0 <= m -> show_nat n = show_nat m -> n = m.
Proof.
  intros n m N M E. destruct (show_nat_ok n N) as [d [D [_ [_ R]]]]. destruct (show_nat_ok m M) as [e [D' [_ [_ R']]]].
  assert (A := R []). assert (B := R' []). rewrite app_nil_r in A, B. cbn in A, B. congruence.
Qed.

Lemma show_int_inj : forall n m, show_int n = show_int m -> n = m.
Proof.
  intros n m E. destruct (show_int_ok n) as [A _]. destruct (show_int_ok m) as [B _].
  specialize (A [] I). specialize (B [] I). rewrite app_nil_r in A, B. congruence.
Qed.

Definition label (n : node) : node :=
  match n with
  | NLam v _ => NLam v None | NApp _ _ => NApp None None | NCons _ _ => NCons None None | _ => n
  end.

Lemma two_nums : forall a b c d x y, 0 <= a -> 0 <= b -> 0 <= c -> 0 <= d -> digit x = false -> digit y = false ->
  show_nat a ++ x :: show_nat b = show_nat c ++ y :: show_nat d -> a = c /\ x = y /\ b = d.
Proof.
  intros a b c d x y A B C D X Y E.
  destruct (split_digits _ _ _ _ _ _ (proj1 (show_nat_digits a A)) (proj1 (show_nat_digits c C)) X Y E) as [E1 [E2 E3]].
  apply show_nat_inj in E1; try assumption. apply show_nat_inj in E3; try assumption. auto.
Qed.

Lemma first_digit : forall a s, 0 <= a -> exists c t, show_nat a ++ s = c :: t /\ digit c = true.
Proof.
  intros a s A. destruct (show_nat_digits a A) as [F N]. destruct (show_nat a) as [|c t]; [congruence|].
  inversion F; subst. exists c, (t ++ s). auto.
Qed.

Lemma body_inj : forall n m cs ds, Forall (fun c => 0 <= c) cs -> Forall (fun c => 0 <= c) ds ->
  length cs = length (kids n) -> length ds = length (kids m) ->
  body n cs = body m ds -> label n = label m /\ cs = ds.
Proof.
  intros n m cs ds P Q L M E.
  assert (G : forall l i, Forall (fun c => 0 <= c) l -> 0 <= nth i l 1).
  { intros l i H. destruct (nth_in_or_default i l 1) as [I|I]; [|lia].
    rewrite Forall_forall in H. apply H. exact I. }
  assert (P0 := G cs 0%nat P). assert (P1 := G cs 1%nat P). assert (Q0 := G ds 0%nat Q). assert (Q1 := G ds 1%nat Q).
  assert (X1 := first_digit (nth 0 cs 1) ("@"%char :: show_nat (nth 1 cs 1)) P0).
  assert (X2 := first_digit (nth 0 cs 1) (":"%char :: show_nat (nth 1 cs 1)) P0).
  assert (Y1 := first_digit (nth 0 ds 1) ("@"%char :: show_nat (nth 1 ds 1)) Q0).
  assert (Y2 := first_digit (nth 0 ds 1) (":"%char :: show_nat (nth 1 ds 1)) Q0).
  assert (T : forall c t s, digit c = true -> c :: t = s ->
    match s with [] => True | c' :: _ => digit c' = true end) by (intros c t s H <-; exact H).
  unfold body in E; cbv zeta in E.
  destruct n as [|v b|l r|l r|[z|s|s|s|s|s]]; destruct m as [|v' b'|l' r'|l' r'|[z'|s'|s'|s'|s'|s']]; cbn [app] in E;
    try discriminate E;
    try (destruct X1 as [c [t [X1 D]]]; rewrite X1 in E; specialize (T _ _ _ D E); discriminate T);
    try (destruct X2 as [c [t [X2 D]]]; rewrite X2 in E; specialize (T _ _ _ D E); discriminate T);
    try (destruct Y1 as [c [t [Y1 D]]]; rewrite Y1 in E; symmetry in E; specialize (T _ _ _ D E); discriminate T);
    try (destruct Y2 as [c [t [Y2 D]]]; rewrite Y2 in E; symmetry in E; specialize (T _ _ _ D E); discriminate T);
    cbn [kids length] in L, M; cbn [label].
  - destruct cs; [|discriminate]. destruct ds; [|discriminate]. auto.
  - injection E as E. destruct cs as [|c [|? ?]]; try discriminate. destruct ds as [|d [|? ?]]; try discriminate.
    cbn [nth] in *. apply (f_equal (@rev ascii)) in E. rewrite !rev_app_distr in E. cbn [rev] in E.
    rewrite <- !app_assoc in E. cbn [app] in E.
    destruct (split_digits _ _ "."%char "."%char _ _ (Forall_rev (proj1 (show_nat_digits c P0))) (Forall_rev (proj1 (show_nat_digits d Q0)))
      eq_refl eq_refl E) as [E1 [_ E3]].
    apply (f_equal (@rev ascii)) in E1. rewrite !rev_involutive in E1. apply show_nat_inj in E1; try assumption.
    apply (f_equal (@rev ascii)) in E3. rewrite !rev_involutive in E3. subst. auto.
  - destruct cs as [|c [|c2 [|? ?]]]; try discriminate. destruct ds as [|d [|d2 [|? ?]]]; try discriminate.
    cbn [nth] in *. apply two_nums in E; try assumption; try reflexivity. destruct E as [-> [_ ->]]. auto.
  - apply two_nums in E; try assumption; try reflexivity. destruct E as [_ [E _]]. discriminate.
  - apply two_nums in E; try assumption; try reflexivity. destruct E as [_ [E _]]. discriminate.
  - destruct cs as [|c [|c2 [|? ?]]]; try discriminate. destruct ds as [|d [|d2 [|? ?]]]; try discriminate.
    cbn [nth] in *. apply two_nums in E; try assumption; try reflexivity. destruct E as [-> [_ ->]]. auto.
  - injection E as E. apply show_int_inj in E. subst. destruct cs; [|discriminate]. destruct ds; [|discriminate]. auto.
  - injection E as E. apply app_inv_tail in E. subst. destruct cs; [|discriminate]. destruct ds; [|discriminate]. auto.
  - injection E as E. subst. destruct cs; [|discriminate]. destruct ds; [|discriminate]. auto.
  - injection E as E. apply app_inv_tail in E. subst. destruct cs; [|discriminate]. destruct ds; [|discriminate]. auto.
  - injection E as E. subst. destruct cs; [|discriminate]. destruct ds; [|discriminate]. auto.
  - injection E as E. subst. destruct cs; [|discriminate]. destruct ds; [|discriminate]. auto.
Qed.

Lemma line_inj : forall a b n m cs ds, 0 <= a -> 0 <= b -> Forall (fun c => 0 <= c) cs -> Forall (fun c => 0 <= c) ds ->
  length cs = length (kids n) -> length ds = length (kids m) ->
  line a n cs = line b m ds -> a = b /\ label n = label m /\ cs = ds.
Proof.
  intros a b n m cs ds A B P Q L M E. unfold line in E.
  destruct (split_digits _ _ "="%char "="%char _ _ (proj1 (show_nat_digits a A)) (proj1 (show_nat_digits b B)) eq_refl eq_refl E)
    as [E1 [_ E2]].
  apply app_inv_tail in E2. apply show_nat_inj in E1; try assumption. split; [exact E1|]. apply body_inj; assumption.
Qed.

(* No newline but the last, no 0, at most 4095 characters. *)
Definition plain (s : chars) : Prop := forall c, In c s -> c <> nl /\ c <> zero.

Lemma plain_app : forall s t, plain s -> plain t -> plain (s ++ t).
Proof. intros s t S T c H. apply in_app_iff in H as [H|H]; auto. Qed.
Lemma plain_cons : forall c t, c <> nl -> c <> zero -> plain t -> plain (c :: t).
Proof. intros c t A B T d [<-|H]; auto. Qed.
Lemma plain_nil : plain [].
Proof. intros c []. Qed.
Lemma plain_digits : forall s, Forall (fun x => digit x = true) s -> plain s.
Proof.
  intros s F c H. rewrite Forall_forall in F. specialize (F c H). split; intros ->; vm_compute in F; discriminate.
Qed.
Lemma plain_nat : forall n, 0 <= n -> plain (show_nat n).
Proof. intros n N. apply plain_digits, show_nat_digits, N. Qed.
Lemma plain_text : forall n, text_ok n -> plain (node_text n).
Proof. intros n [A [B _]] c H. split; intros ->; auto. Qed.

Ltac plains := repeat first [apply plain_nil | apply plain_cons; [discriminate|discriminate|] | apply plain_app |
  apply plain_nat; assumption | assumption].

Lemma body_plain : forall n cs, text_ok n -> Forall (fun c => 0 <= c) cs -> plain (body n cs).
Proof.
  intros n cs T P.
  assert (G : forall i, 0 <= nth i cs 1).
  { intros i. destruct (nth_in_or_default i cs 1) as [I|I]; [|lia]. rewrite Forall_forall in P. apply P. exact I. }
  assert (X := plain_text n T). assert (G0 := G 0%nat). assert (G1 := G 1%nat). unfold body. cbv zeta.
  destruct n as [|v b|l r|l r|[z|s|s|s|s|s]]; cbn [node_text leaf_text app] in *; plains.
Qed.

Lemma show_digits_length : forall fuel n acc, (length (show_digits fuel n acc) <= fuel + length acc)%nat.
Proof.
  induction fuel as [|k IH]; intros n acc; [cbn; lia|]. cbn [show_digits].
  destruct (n <? 10); [cbn [length]; lia|]. specialize (IH (n / 10) (digit_char (n mod 10) :: acc)). cbn [length] in IH. lia.
Qed.

Lemma show_nat_length : forall n, 0 <= n < 2 ^ 31 -> (length (show_nat n) <= 31)%nat.
Proof.
  intros n N. unfold show_nat. assert (H := show_digits_length (S (Z.to_nat (Z.log2 n))) n []).
  assert (B : Z.log2 n <= 30).
  { destruct (Z.eq_dec n 0); [subst; cbn; lia|]. apply Z.lt_succ_r. apply Z.log2_lt_pow2; lia. }
  cbn [length] in H. lia.
Qed.

Lemma body_length : forall n cs, text_ok n -> Forall (fun c => 0 <= c < 2 ^ 31) cs -> (length (body n cs) <= 4000)%nat.
Proof.
  intros n cs [_ [_ T]] P.
  assert (G : forall i, (length (show_nat (nth i cs 1%Z)) <= 31)%nat).
  { intros i. apply show_nat_length. destruct (nth_in_or_default i cs 1) as [I|I]; [|lia].
    rewrite Forall_forall in P. apply P. exact I. }
  assert (G0 := G 0%nat). assert (G1 := G 1%nat). unfold body. cbv zeta.
  destruct n as [|v b|l r|l r|[z|s|s|s|s|s]]; cbn [node_text leaf_text app] in *;
    cbn [length]; rewrite ?app_length; cbn [length]; lia.
Qed.

Lemma byte_of_inj : forall c d, byte_of c = byte_of d -> c = d.
Proof.
  intros c d E. unfold byte_of in E. apply Nat2Z.inj in E.
  rewrite <- (ascii_nat_embedding c), <- (ascii_nat_embedding d), E. reflexivity.
Qed.

Lemma before_nul_id : forall s, ~ In zero s -> before_nul (map byte_of s) = map byte_of s.
Proof.
  induction s as [|c s IH]; intros H; [reflexivity|]. cbn [map before_nul].
  destruct (Z.eqb_spec (byte_of c) 0) as [E|E].
  - exfalso. apply H. left. apply byte_of_inj. exact E.
  - rewrite IH; [reflexivity|]. intros I. apply H. right. exact I.
Qed.

Definition good_line (l : chars) : Prop := exists s, l = s ++ [nl] /\ plain s /\ (length l <= 4095)%nat.

Lemma line_good : forall a n cs, text_ok n -> 0 <= a < 2 ^ 31 -> Forall (fun c => 0 <= c < 2 ^ 31) cs ->
  good_line (line a n cs).
Proof.
  intros a n cs T A P. exists (show_nat a ++ "="%char :: body n cs). unfold line. split.
  - rewrite <- app_assoc. reflexivity.
  - split.
    + apply plain_app; [apply plain_nat; lia|]. apply plain_cons; [discriminate|discriminate|].
      apply body_plain; [exact T|]. eapply Forall_impl; [|exact P]. cbn. lia.
    + rewrite app_length. cbn [length]. rewrite app_length. cbn [length].
      assert (X := show_nat_length a A). assert (Y := body_length n cs T P). lia.
Qed.

Lemma kept_good : forall l, good_line l -> kept l = map byte_of l.
Proof.
  intros l [s [E [P L]]]. unfold kept. rewrite firstn_all2.
  - apply before_nul_id. intros I. rewrite E in I. apply in_app_iff in I as [I|I].
    + apply (proj2 (P _ I)). reflexivity.
    + cbn in I. destruct I as [I|[]]. discriminate.
  - rewrite map_length. exact L.
Qed.

Lemma cut_lines : forall s s' x y, plain s -> plain s' ->
  map byte_of (s ++ [nl]) ++ x = map byte_of (s' ++ [nl]) ++ y -> s = s' /\ x = y.
Proof.
  induction s as [|c s IH]; intros s' x y P P' E.
  - destruct s' as [|c' s'].
    + cbn in E. injection E as E. auto.
    + cbn in E. injection E as E _. change 10 with (byte_of nl) in E. apply byte_of_inj in E.
      exfalso. apply (proj1 (P' c' (or_introl eq_refl))). symmetry. exact E.
  - destruct s' as [|c' s'].
    + cbn in E. injection E as E _. change 10 with (byte_of nl) in E. apply byte_of_inj in E.
      exfalso. apply (proj1 (P c (or_introl eq_refl))). exact E.
    + cbn [map app] in E. injection E as E1 E2. apply byte_of_inj in E1.
      destruct (IH s' x y) as [-> ->]; try exact E2.
      * intros d D. apply P. right. exact D.
      * intros d D. apply P'. right. exact D.
      * subst. auto.
Qed.

Lemma stream_inj : forall ls ms, Forall good_line ls -> Forall good_line ms -> stream ls = stream ms -> ls = ms.
Proof.
  unfold stream. induction ls as [|l ls IH]; intros ms F G E.
  - destruct ms as [|m ms]; [reflexivity|]. inversion G as [|? ? G1 G2]; subst. cbn [map concat] in E.
    rewrite (kept_good m G1) in E. destruct G1 as [s [-> _]]. destruct s; discriminate.
  - inversion F as [|? ? F1 F2]; subst. destruct ms as [|m ms].
    + cbn [map concat] in E. rewrite (kept_good l F1) in E. destruct F1 as [s [-> _]]. destruct s; discriminate.
    + inversion G as [|? ? G1 G2]; subst. cbn [map concat] in E.
      rewrite (kept_good l F1), (kept_good m G1) in E.
      destruct F1 as [s [-> [P _]]]. destruct G1 as [s' [-> [P' _]]].
      apply cut_lines in E; try assumption. destruct E as [-> E]. f_equal. apply IH; assumption.
Qed.

(* --- the traversal -------------------------------------------------------------------- *)

Lemma lookup_in : forall p t n, lookup p t = Some n -> In (p, n) t.
Proof.
  induction t as [|[q m] t IH]; intros n H; [discriminate|]. cbn in H. destruct (Nat.eqb_spec q p).
  - injection H as <-. subst. left. reflexivity.
  - right. apply IH. exact H.
Qed.
Lemma lookup_none : forall p t, lookup p t = None -> ~ In p (map fst t).
Proof.
  induction t as [|[q m] t IH]; intros H; [tauto|]. cbn in H. destruct (Nat.eqb_spec q p); [discriminate|].
  intros [E|E]; [cbn in E; congruence|]. exact (IH H E).
Qed.

(* The line of p is printed. *)
Definition described (h : heap) (s : state) (p : ptr) (n : Z) (l : chars) : Prop :=
  exists nd ks cs, h p = Some nd /\ kids nd = map Some ks /\ l = line n nd cs
    /\ Forall2 (fun k c => In (k, c) (s_tbl s)) ks cs.
Definition wf (h : heap) (s : state) : Prop :=
  NoDup (map fst (s_tbl s)) /\ NoDup (map snd (s_tbl s))
  /\ (forall p n, In (p, n) (s_tbl s) -> 1 <= n < s_cnt s) /\ 1 <= s_cnt s
  /\ (forall l, In l (s_out s) -> exists p n, In (p, n) (s_tbl s) /\ described h s p n l).
Definition ext (s s' : state) : Prop :=
  incl (s_tbl s) (s_tbl s') /\ incl (s_out s) (s_out s') /\ s_cnt s <= s_cnt s'.
Definition news (h : heap) (s s' : state) : Prop :=
  forall p n, In (p, n) (s_tbl s') -> In (p, n) (s_tbl s) \/ exists l, In l (s_out s') /\ described h s' p n l.

Lemma described_mono : forall h s s' p n l, ext s s' -> described h s p n l -> described h s' p n l.
Proof.
  intros h s s' p n l [T _] [nd [ks [cs [A [B [C D]]]]]]. exists nd, ks, cs. repeat split; try assumption.
  clear - D T. induction D; constructor; [apply T|]; assumption.
Qed.
Lemma ext_refl : forall s, ext s s.
Proof. intros s. repeat split; try apply incl_refl. lia. Qed.
Lemma ext_trans : forall a b c, ext a b -> ext b c -> ext a c.
Proof.
  intros a b c [A1 [A2 A3]] [B1 [B2 B3]]. split; [|split]; [eapply incl_tran; eassumption|eapply incl_tran; eassumption|lia].
Qed.
Lemma news_trans : forall h a b c, ext b c -> news h a b -> news h b c -> news h a c.
Proof.
  intros h a b c E N M p n H. destruct (M p n H) as [B|B]; [|right; exact B].
  destruct (N p n B) as [A|[l [A1 A2]]]; [left; exact A|]. right. exists l. split.
  - destruct E as [_ [E _]]. apply E. exact A1.
  - eapply described_mono; eassumption.
Qed.

Definition closed' (h : heap) (ks : list (option ptr)) (dom : list ptr) : Prop :=
  forall k, In k ks -> exists q, k = Some q /\ In q dom.

Lemma each_spec : forall h dom f ks s cs s',
  (forall q s n s', In q dom -> wf h s -> f (Some q) s = Some (n, s') ->
     wf h s' /\ ext s s' /\ news h s s' /\ In (q, n) (s_tbl s')) ->
  closed' h ks dom -> wf h s -> each f ks s = Some (cs, s') ->
  wf h s' /\ ext s s' /\ news h s s' /\ exists qs, ks = map Some qs /\ Forall2 (fun k c => In (k, c) (s_tbl s')) qs cs.
Proof.
  intros h dom f. induction ks as [|k ks IH]; intros s cs s' F C W E.
  - injection E as <- <-. split; [exact W|]. split; [apply ext_refl|]. split; [intros p n H; left; exact H|].
    exists []. split; [reflexivity|constructor].
  - cbn [each] in E. destruct (C k (or_introl eq_refl)) as [q [-> Q]].
    destruct (f (Some q) s) as [[n s1]|] eqn:E1; [|discriminate].
    destruct (each f ks s1) as [[ns s2]|] eqn:E2; [|discriminate]. injection E as <- <-.
    destruct (F q s n s1 Q W E1) as [W1 [X1 [N1 I1]]].
    destruct (IH s1 ns s2) as [W2 [X2 [N2 [qs [Q1 Q2]]]]]; try assumption.
    { intros k K. apply C. right. exact K. }
    split; [exact W2|]. split; [eapply ext_trans; eassumption|]. split; [eapply news_trans; eassumption|].
    exists (q :: qs). split; [cbn; f_equal; exact Q1|]. constructor; [|exact Q2].
    destruct X2 as [X2 _]. apply X2. exact I1.
Qed.

Lemma trav_spec : forall h dom, closed h dom -> forall k q s n s', In q dom -> wf h s ->
  trav k h (Some q) s = Some (n, s') -> wf h s' /\ ext s s' /\ news h s s' /\ In (q, n) (s_tbl s').
Proof.
  intros h dom C. induction k as [|k IH]; intros q s n s' Q W E; [discriminate|].
  cbn [trav] in E. destruct (lookup q (s_tbl s)) as [m|] eqn:EL.
  - injection E as <- <-. apply lookup_in in EL. split; [exact W|]. split; [apply ext_refl|].
    split; [intros p x H; left; exact H|exact EL].
  - destruct (C q Q) as [nd [HN CK]]. rewrite HN in E.
    set (s1 := State (s_cnt s + 1) ((q, s_cnt s) :: s_tbl s) (s_out s)) in *.
    destruct (each (trav k h) (kids nd) s1) as [[cs s2]|] eqn:EE; [|discriminate]. injection E as <- <-.
    apply lookup_none in EL. destruct W as [W1 [W2 [W3 [W4 W5]]]].
    assert (X1 : ext s s1).
    { split; [|split]; unfold s1; cbn; [apply incl_tl, incl_refl|apply incl_refl|lia]. }
    assert (WS1 : wf h s1).
    { unfold s1. split; [|split; [|split; [|split]]]; cbn [s_tbl s_cnt s_out map fst snd].
      - constructor; assumption.
      - constructor; [|exact W2]. intros I. apply in_map_iff in I as [[p m] [E I]]. cbn in E. subst.
        specialize (W3 _ _ I). lia.
      - intros p m [I|I]; [injection I as <- <-; lia|]. specialize (W3 _ _ I). lia.
      - lia.
      - intros l I. destruct (W5 l I) as [p [m [A B]]]. exists p, m. split; [right; exact A|].
        apply (described_mono h s s1 p m l X1 B). }
    destruct (each_spec h dom (trav k h) (kids nd) s1 cs s2 IH CK WS1 EE) as [V [X2 [N2 [qs [K1 K2]]]]].
    set (s3 := State (s_cnt s2) (s_tbl s2) (s_out s2 ++ [line (s_cnt s) nd cs])).
    assert (X3 : ext s2 s3) by (split; [|split]; unfold s3; cbn; [apply incl_refl|apply incl_appl, incl_refl|lia]).
    assert (D : described h s3 q (s_cnt s) (line (s_cnt s) nd cs)) by (exists nd, qs, cs; auto).
    assert (IQ : In (q, s_cnt s) (s_tbl s2)) by (destruct X2 as [X2 _]; apply X2; left; reflexivity).
    split; [|split; [|split]].
    + destruct V as [V1 [V2 [V3 [V4 V5]]]]. split; [exact V1|]. split; [exact V2|]. split; [exact V3|]. split; [exact V4|].
      intros l I. cbn [s3 s_out] in I. apply in_app_iff in I as [I|[<-|[]]].
      * destruct (V5 l I) as [p [m [A B]]]. exists p, m. split; [exact A|]. eapply described_mono; eassumption.
      * exists q, (s_cnt s). split; [exact IQ|exact D].
    + eapply ext_trans; [exact X1|]. eapply ext_trans; eassumption.
    + intros p m I. cbn [s3 s_tbl] in I. destruct (N2 p m I) as [A|[l [A B]]].
      * cbn [s1 s_tbl] in A. destruct A as [A|A]; [|left; exact A]. injection A as <- <-. right.
        eexists. split; [|exact D]. cbn [s3 s_out]. apply in_or_app. right. left. reflexivity.
      * right. exists l. split; [cbn [s3 s_out]; apply in_or_app; left; exact A|]. eapply described_mono; eassumption.
    + exact IQ.
Qed.

Lemma start_wf : forall h, wf h start.
Proof.
  intros h. split; [constructor|]. split; [constructor|]. split; [intros p n []|]. split; [cbn; lia|intros l []].
Qed.

(* What a complete run leaves behind. *)
Lemma run_spec : forall h dom r k s n, closed h dom -> In r dom -> trav k h (Some r) start = Some (n, s) ->
  wf h s /\ n = 1 /\ In (r, 1) (s_tbl s)
  /\ forall p m, In (p, m) (s_tbl s) -> exists l, In l (s_out s) /\ described h s p m l.
Proof.
  intros h dom r k s n C R E. destruct (trav_spec h dom C k r start n s R (start_wf h) E) as [W [X [N I]]].
  assert (E1 : n = 1).
  { destruct k as [|k]; [discriminate|]. cbn [trav start s_tbl lookup] in E. destruct (h r); [|discriminate].
    destruct (each _ _ _) as [[cs s1]|]; [|discriminate]. injection E as <- _. reflexivity. }
  subst n. split; [exact W|]. split; [reflexivity|]. split; [exact I|].
  intros p m H. destruct (N p m H) as [[]|A]. exact A.
Qed.

Lemma in_fun : forall (t : list (ptr * Z)) p a b, NoDup (map fst t) -> In (p, a) t -> In (p, b) t -> a = b.
Proof.
  induction t as [|[q m] t IH]; intros p a b N A B; [destruct A|]. cbn in N. inversion N as [|? ? N1 N2]; subst.
  destruct A as [A|A], B as [B|B].
  - congruence.
  - injection A as -> ->. exfalso. apply N1. apply in_map_iff. exists (p, b). auto.
  - injection B as -> ->. exfalso. apply N1. apply in_map_iff. exists (p, a). auto.
  - eapply IH; eassumption.
Qed.
Lemma in_inj : forall (t : list (ptr * Z)) p q a, NoDup (map snd t) -> In (p, a) t -> In (q, a) t -> p = q.
Proof.
  induction t as [|[q' m] t IH]; intros p q a N A B; [destruct A|]. cbn in N. inversion N as [|? ? N1 N2]; subst.
  destruct A as [A|A], B as [B|B].
  - congruence.
  - injection A as -> ->. exfalso. apply N1. apply in_map_iff. exists (q, a). auto.
  - injection B as -> ->. exfalso. apply N1. apply in_map_iff. exists (p, a). auto.
  - eapply IH; eassumption.
Qed.

Lemma F2_length : forall (A B : Type) (P : A -> B -> Prop) l m, Forall2 P l m -> length l = length m.
Proof. intros A B P l m F. induction F; cbn; congruence. Qed.

Lemma lines_iso : forall h1 d1 r1 k1 n1 s1 h2 d2 r2 k2 n2 s2,
  closed h1 d1 -> In r1 d1 -> trav k1 h1 (Some r1) start = Some (n1, s1) ->
  closed h2 d2 -> In r2 d2 -> trav k2 h2 (Some r2) start = Some (n2, s2) ->
  s_out s1 = s_out s2 -> isomorphic h1 r1 h2 r2.
Proof.
  intros h1 d1 r1 k1 n1 s1 h2 d2 r2 k2 n2 s2 C1 R1 E1 C2 R2 E2 EO.
  destruct (run_spec _ _ _ _ _ _ C1 R1 E1) as [[A1 [A2 [A3 [A4 A5]]]] [_ [A6 A7]]].
  destruct (run_spec _ _ _ _ _ _ C2 R2 E2) as [[B1 [B2 [B3 [B4 B5]]]] [_ [B6 B7]]].
  exists (fun p q => exists n, In (p, n) (s_tbl s1) /\ In (q, n) (s_tbl s2)).
  split; [exists 1; auto|]. split; [|split].
  - intros p q q' [n [H1 H2]] [m [H3 H4]]. assert (n = m) by exact (in_fun _ _ _ _ A1 H1 H3). subst.
    exact (in_inj _ _ _ _ B2 H2 H4).
  - intros p p' q [n [H1 H2]] [m [H3 H4]]. assert (n = m) by exact (in_fun _ _ _ _ B1 H2 H4). subst.
    exact (in_inj _ _ _ _ A2 H1 H3).
  - intros p q [n [H1 H2]]. destruct (A7 p n H1) as [l [L1 [nd [ks [cs [D1 [D2 [D3 D4]]]]]]]].
    rewrite EO in L1. destruct (B5 l L1) as [q' [m [Q1 [nd' [ks' [cs' [F1 [F2 [F3 F4]]]]]]]]].
    assert (PC : Forall (fun c => 0 <= c) cs).
    { clear - D4 A3. induction D4; constructor; [|assumption]. specialize (A3 _ _ H). lia. }
    assert (PD : Forall (fun c => 0 <= c) cs').
    { clear - F4 B3. induction F4; constructor; [|assumption]. specialize (B3 _ _ H). lia. }
    assert (LC : length cs = length (kids nd)) by (rewrite D2, map_length; symmetry; eapply F2_length; exact D4).
    assert (LD : length cs' = length (kids nd')) by (rewrite F2, map_length; symmetry; eapply F2_length; exact F4).
    rewrite D3 in F3. assert (N1 := A3 _ _ H1). assert (N2 := B3 _ _ Q1).
    apply line_inj in F3; try assumption; try lia. destruct F3 as [<- [EL <-]].
    assert (q' = q) by exact (in_inj _ _ _ _ B2 Q1 H2). subst q'.
    exists nd, nd'. split; [exact D1|]. split; [exact F1|].
    assert (KK : Forall2 (opt_rel (fun p q => exists n, In (p, n) (s_tbl s1) /\ In (q, n) (s_tbl s2))) (kids nd) (kids nd')).
    { rewrite D2, F2. clear - D4 F4. revert ks' F4. induction D4 as [|k c ks cs H D4 IH]; intros ks' F4; inversion F4; subst.
      - constructor.
      - cbn. constructor; [|apply IH; assumption]. constructor. exists c. auto. }
    clear - EL KK. destruct nd, nd'; try discriminate EL; cbn [kids] in KK.
    + constructor.
    + injection EL as ->. inversion KK; subst. constructor. assumption.
    + inversion KK as [|? ? ? ? K1 K2]; subst. inversion K2; subst. constructor; assumption.
    + inversion KK as [|? ? ? ? K1 K2]; subst. inversion K2; subst. constructor; assumption.
    + injection EL as ->. constructor.
Qed.

(* Numbers stay below the number of nodes. *)
Lemma lines_good : forall h dom r k n s, closed h dom -> In r dom -> (forall p nd, h p = Some nd -> text_ok nd) ->
  s_cnt s <= 2 ^ 31 -> trav k h (Some r) start = Some (n, s) -> Forall good_line (s_out s).
Proof.
  intros h dom r k n s C R T B E. destruct (run_spec _ _ _ _ _ _ C R E) as [[A1 [A2 [A3 [A4 A5]]]] _].
  apply Forall_forall. intros l L. destruct (A5 l L) as [p [m [P [nd [ks [cs [D1 [_ [-> D4]]]]]]]]].
  apply line_good.
  - eapply T. exact D1.
  - specialize (A3 _ _ P). lia.
  - clear - D4 A3 B. induction D4; constructor; [|assumption]. specialize (A3 _ _ H). lia.
Qed.

(* --- totality ----------------------------------------------------------------------------- *)

Definition seen (s : state) (p : ptr) : bool := match lookup p (s_tbl s) with Some _ => true | None => false end.
Definition left (dom : list ptr) (s : state) : nat := length (filter (fun p => negb (seen s p)) dom).

Lemma lookup_some : forall p n t, In (p, n) t -> exists m, lookup p t = Some m.
Proof.
  induction t as [|[q m] t IH]; intros I; [destruct I|]. cbn. destruct (Nat.eqb_spec q p); [eexists; reflexivity|].
  destruct I as [I|I]; [injection I as -> ->; congruence|]. apply IH. exact I.
Qed.

Lemma seen_mono : forall s s' p, incl (s_tbl s) (s_tbl s') -> seen s p = true -> seen s' p = true.
Proof.
  intros s s' p X H. unfold seen in *. destruct (lookup p (s_tbl s)) eqn:E; [|discriminate].
  apply lookup_in in E. apply X in E. destruct (lookup_some _ _ _ E) as [m ->]. reflexivity.
Qed.

Lemma left_mono : forall dom s s', incl (s_tbl s) (s_tbl s') -> (left dom s' <= left dom s)%nat.
Proof.
  intros dom s s' X. unfold left. induction dom as [|p dom IH]; [apply le_n|]. cbn [filter].
  destruct (seen s p) eqn:E.
  - rewrite (seen_mono _ _ _ X E). exact IH.
  - cbn [negb]. destruct (negb (seen s' p)); cbn [length]; lia.
Qed.

Lemma left_dec : forall dom s s' p, In p dom -> incl (s_tbl s) (s_tbl s') -> seen s p = false -> seen s' p = true ->
  (left dom s' < left dom s)%nat.
Proof.
  intros dom s s' p I X F T. induction dom as [|q dom IH]; [destruct I|]. unfold left in *. cbn [filter].
  assert (M := left_mono dom s s' X). unfold left in M.
  destruct I as [->|I].
  - rewrite F, T. cbn [negb length]. lia.
  - specialize (IH I). destruct (seen s q) eqn:E.
    + rewrite (seen_mono _ _ _ X E). exact IH.
    + cbn [negb]. destruct (negb (seen s' q)); cbn [length]; lia.
Qed.

Lemma trav_total : forall h dom, closed h dom -> forall k q s, In q dom -> (left dom s < k)%nat ->
  exists n s', trav k h (Some q) s = Some (n, s') /\ incl (s_tbl s) (s_tbl s').
Proof.
  intros h dom C. induction k as [|k IH]; intros q s Q L; [lia|]. cbn [trav].
  destruct (lookup q (s_tbl s)) as [m|] eqn:EL; [eexists _, _; split; [reflexivity|apply incl_refl]|].
  destruct (C q Q) as [nd [HN CK]]. rewrite HN.
  set (s1 := State (s_cnt s + 1) ((q, s_cnt s) :: s_tbl s) (s_out s)).
  assert (X1 : incl (s_tbl s) (s_tbl s1)) by (apply incl_tl, incl_refl).
  assert (L1 : (left dom s1 < k)%nat).
  { assert (D := left_dec dom s s1 q Q X1). unfold seen at 1 in D. rewrite EL in D. specialize (D eq_refl).
    unfold seen in D. cbn [s1 s_tbl lookup] in D. rewrite Nat.eqb_refl in D. specialize (D eq_refl). lia. }
  assert (EA : forall ks s1, (forall k, In k ks -> exists q, k = Some q /\ In q dom) -> (left dom s1 < k)%nat ->
    exists cs s2, each (trav k h) ks s1 = Some (cs, s2) /\ incl (s_tbl s1) (s_tbl s2)).
  { clear - IH. induction ks as [|x ks IHk]; intros s1 CK L1; [eexists _, _; split; [reflexivity|apply incl_refl]|].
    destruct (CK x (or_introl eq_refl)) as [q [-> Q]]. cbn [each].
    destruct (IH q s1 Q L1) as [n [s2 [-> X]]].
    destruct (IHk s2) as [cs [s3 [-> X']]].
    - intros y Y. apply CK. right. exact Y.
    - assert (M := left_mono dom s1 s2 X). lia.
    - eexists _, _. split; [reflexivity|]. eapply incl_tran; eassumption. }
  destruct (EA (kids nd) s1 CK L1) as [cs [s2 [-> X]]]. eexists _, _. split; [reflexivity|].
  cbn [s_tbl]. eapply incl_tran; eassumption.
Qed.

Lemma left_start : forall dom, (left dom start <= length dom)%nat.
Proof. intros dom. unfold left. induction dom as [|p dom IH]; [apply le_n|]. cbn. cbn in IH. lia. Qed.

(* The counter: one number for each node of dom at most. *)
Lemma counter : forall h dom, closed h dom -> forall k q s n s', In q dom -> trav k h (Some q) s = Some (n, s') ->
  s_cnt s = 1 + Z.of_nat (length (s_tbl s)) -> incl (map fst (s_tbl s)) dom ->
  s_cnt s' = 1 + Z.of_nat (length (s_tbl s')) /\ incl (map fst (s_tbl s')) dom.
Proof.
  intros h dom C. induction k as [|k IH]; intros q s n s' Q E CT X; [discriminate|]. cbn [trav] in E.
  destruct (lookup q (s_tbl s)) as [m|]; [injection E as <- <-; auto|].
  destruct (C q Q) as [nd [HN CK]]. rewrite HN in E.
  set (s1 := State (s_cnt s + 1) ((q, s_cnt s) :: s_tbl s) (s_out s)) in *.
  destruct (each (trav k h) (kids nd) s1) as [[cs s2]|] eqn:EE; [|discriminate]. injection E as <- <-. cbn [s_cnt s_tbl].
  assert (C1 : s_cnt s1 = 1 + Z.of_nat (length (s_tbl s1))) by (cbn [s1 s_cnt s_tbl length]; lia).
  assert (X1 : incl (map fst (s_tbl s1)) dom) by (cbn [s1 s_tbl map fst]; intros p [<-|I]; [exact Q|apply X; exact I]).
  clearbody s1. revert s1 cs EE C1 X1. clear - IH CK. induction (kids nd) as [|x ks IHk]; intros s1 cs EE C1 X1.
  - injection EE as <- <-. auto.
  - cbn [each] in EE. destruct (CK x (or_introl eq_refl)) as [q [-> Q]].
    destruct (trav k h (Some q) s1) as [[n s3]|] eqn:E1; [|discriminate].
    destruct (each (trav k h) ks s3) as [[ns s4]|] eqn:E2; [|discriminate]. injection EE as <- <-.
    destruct (IH _ _ _ _ Q E1 C1 X1) as [C3 X3]. eapply IHk; try eassumption.
    intros y Y. apply CK. right. exact Y.
Qed.

Lemma counter_bound : forall h dom r k n s, closed h dom -> In r dom ->
  trav k h (Some r) start = Some (n, s) -> s_cnt s <= 1 + Z.of_nat (length dom).
Proof.
  intros h dom r k n s C R E.
  destruct (counter h dom C k r start n s R E eq_refl) as [C1 X1]; [intros p []|].
  destruct (run_spec _ _ _ _ _ _ C R E) as [[A1 _] _].
  assert (L := NoDup_incl_length A1 X1). rewrite map_length in L. lia.
Qed.

(* --- isomorphic graphs print the same ----------------------------------------------------------- *)

Lemma iso_same : forall h1 h2 (R : ptr -> ptr -> Prop),
  (forall p q q', R p q -> R p q' -> q = q') -> (forall p p' q, R p q -> R p' q -> p = p') ->
  (forall p q, R p q -> exists n m, h1 p = Some n /\ h2 q = Some m /\ node_rel R n m) ->
  forall k p q s t, opt_rel R p q -> s_cnt s = s_cnt t -> s_out s = s_out t ->
  (forall p q, R p q -> lookup p (s_tbl s) = lookup q (s_tbl t)) ->
  match trav k h1 p s, trav k h2 q t with
  | Some (n, s'), Some (m, t') =>
      n = m /\ s_cnt s' = s_cnt t' /\ s_out s' = s_out t' /\ (forall p q, R p q -> lookup p (s_tbl s') = lookup q (s_tbl t'))
  | None, None => True
  | _, _ => False
  end.
Proof.
  intros h1 h2 R FN IN ND. induction k as [|k IH]; intros p q s t O SC SO SL; [exact I|].
  destruct O as [|p q H]; [cbn; auto|]. cbn [trav]. rewrite <- (SL p q H).
  destruct (lookup p (s_tbl s)) as [n|] eqn:EL; [auto|].
  destruct (ND p q H) as [n [m [E1 [E2 NR]]]]. rewrite E1, E2.
  set (s1 := State (s_cnt s + 1) ((p, s_cnt s) :: s_tbl s) (s_out s)).
  set (t1 := State (s_cnt t + 1) ((q, s_cnt t) :: s_tbl t) (s_out t)).
  assert (L1 : forall p' q', R p' q' -> lookup p' (s_tbl s1) = lookup q' (s_tbl t1)).
  { intros p' q' H'. cbn [s1 t1 s_tbl lookup]. destruct (Nat.eqb_spec p p') as [->|NE].
    - assert (q = q') by (eapply FN; eassumption). subst. rewrite Nat.eqb_refl, SC. reflexivity.
    - destruct (Nat.eqb_spec q q') as [->|NE']; [exfalso; apply NE; eapply IN; eassumption|]. apply SL. exact H'. }
  assert (KR : Forall2 (opt_rel R) (kids n) (kids m)) by (destruct NR; cbn [kids]; repeat constructor; assumption).
  assert (BD : forall cs, body n cs = body m cs) by (intros cs; destruct NR; reflexivity).
  assert (EA : match each (trav k h1) (kids n) s1, each (trav k h2) (kids m) t1 with
    | Some (cs, s'), Some (ds, t') => cs = ds /\ s_cnt s' = s_cnt t' /\ s_out s' = s_out t'
        /\ (forall p q, R p q -> lookup p (s_tbl s') = lookup q (s_tbl t'))
    | None, None => True | _, _ => False end).
  { assert (C1 : s_cnt s1 = s_cnt t1) by (cbn; lia). assert (O1 : s_out s1 = s_out t1) by exact SO.
    clearbody s1 t1. clear - IH KR L1 C1 O1. revert s1 t1 L1 C1 O1.
    induction KR as [|a b ks ls AB KR IHk]; intros s1 t1 L1 C1 O1; [cbn; auto|]. cbn [each].
    specialize (IH a b s1 t1 AB C1 O1 L1).
    destruct (trav k h1 a s1) as [[x s2]|], (trav k h2 b t1) as [[y t2]|]; try contradiction; [|exact I].
    destruct IH as [-> [C2 [O2 L2]]]. specialize (IHk s2 t2 L2 C2 O2).
    destruct (each (trav k h1) ks s2) as [[xs s3]|], (each (trav k h2) ls t2) as [[ys t3]|]; try contradiction; [|exact I].
    destruct IHk as [-> [C3 [O3 L3]]]. auto. }
  destruct (each (trav k h1) (kids n) s1) as [[cs s2]|], (each (trav k h2) (kids m) t1) as [[ds t2]|]; try contradiction; [|exact I].
  destruct EA as [-> [C2 [O2 L2]]]. cbn [s_cnt s_out s_tbl]. split; [exact SC|]. split; [exact C2|]. split; [|exact L2].
  unfold line. rewrite SC, O2, BD. reflexivity.
Qed.

(* --- theorems -------------------------------------------------------------------------------------- *)

Theorem graph_total : forall h dom r, closed h dom -> In r dom -> exists ls, lines_of (S (length dom)) h r = Some ls.
Proof.
  intros h dom r C R. destruct (trav_total h dom C (S (length dom)) r start R) as [n [s [E _]]].
  - assert (L := left_start dom). lia.
  - exists (s_out s). unfold lines_of. rewrite E. reflexivity.
Qed.

Theorem graph_iso : forall h1 r1 h2 r2 k, isomorphic h1 r1 h2 r2 -> lines_of k h1 r1 = lines_of k h2 r2.
Proof.
  intros h1 r1 h2 r2 k [R [RR [FN [IN ND]]]].
  assert (H := iso_same h1 h2 R FN IN ND k (Some r1) (Some r2) start start (OR_ptr R r1 r2 RR) eq_refl eq_refl
    (fun _ _ _ => eq_refl)).
  unfold lines_of. destruct (trav k h1 (Some r1) start) as [[n s]|], (trav k h2 (Some r2) start) as [[m t]|];
    try contradiction; [|reflexivity]. destruct H as [_ [_ [-> _]]]. reflexivity.
Qed.

Theorem stream_iso : forall h1 d1 r1 k1 l1 h2 d2 r2 k2 l2,
  closed h1 d1 -> In r1 d1 -> closed h2 d2 -> In r2 d2 ->
  (forall p nd, h1 p = Some nd -> text_ok nd) -> (forall p nd, h2 p = Some nd -> text_ok nd) ->
  Z.of_nat (length d1) < 2 ^ 31 -> Z.of_nat (length d2) < 2 ^ 31 ->
  lines_of k1 h1 r1 = Some l1 -> lines_of k2 h2 r2 = Some l2 ->
  stream l1 = stream l2 -> isomorphic h1 r1 h2 r2.
Proof.
  intros h1 d1 r1 k1 l1 h2 d2 r2 k2 l2 C1 R1 C2 R2 T1 T2 B1 B2 E1 E2 ES. unfold lines_of in E1, E2.
  destruct (trav k1 h1 (Some r1) start) as [[n1 s1]|] eqn:F1; [|discriminate].
  destruct (trav k2 h2 (Some r2) start) as [[n2 s2]|] eqn:F2; [|discriminate].
  injection E1 as <-. injection E2 as <-.
  assert (N1 := counter_bound _ _ _ _ _ _ C1 R1 F1). assert (N2 := counter_bound _ _ _ _ _ _ C2 R2 F2).
  apply (lines_iso _ _ _ _ _ _ _ _ _ _ _ _ C1 R1 F1 C2 R2 F2). apply stream_inj; [| |exact ES].
  - apply (lines_good h1 d1 r1 k1 n1 s1 C1 R1 T1); [lia|exact F1].
  - apply (lines_good h2 d2 r2 k2 n2 s2 C2 R2 T2); [lia|exact F2].
Qed.

(* The signature is the SHA-256 digest of the stream in hexadecimal. *)
Lemma kept_bytes : forall l, bytes (kept l) /\ Z.of_nat (length (kept l)) < 2 ^ 29.
Proof.
  intros l. unfold kept.
  assert (G : forall s, bytes s -> bytes (before_nul s) /\ (length (before_nul s) <= length s)%nat).
  { induction s as [|b s IH]; intros B; [split; [constructor|apply le_n]|]. inversion B as [|? ? B1 B2]; subst.
    cbn [before_nul]. destruct (b =? 0); [split; [constructor|cbn; lia]|]. destruct (IH B2) as [I1 I2].
    split; [constructor; assumption|cbn; lia]. }
  assert (B : bytes (map byte_of l)).
  { apply Forall_forall. intros b I. apply in_map_iff in I as [c [<- _]]. unfold byte_of.
    assert (H := nat_ascii_bounded c). lia. }
  destruct (G (firstn (SHA_BUF_SIZE - 1) (map byte_of l)) (bytes_firstn _ _ B)) as [G1 G2].
  split; [exact G1|]. rewrite firstn_length in G2. unfold SHA_BUF_SIZE in G2.
  apply Z.le_lt_trans with (Z.of_nat (4096 - 1)); [|reflexivity]. apply Nat2Z.inj_le.
  eapply Nat.le_trans; [exact G2|apply Nat.le_min_l].
Qed.

Lemma hex_ok : forall d, bytes d -> flat_map (fun b => [hex_digit (b / 16); hex_digit (b mod 16)]) d = hex d.
Proof.
  assert (G : forall x, 0 <= x < 16 -> hex_digit x = nth (Z.to_nat x) hex_digits zero).
  { intros x H.
    assert (E : x = 0 \/ x = 1 \/ x = 2 \/ x = 3 \/ x = 4 \/ x = 5 \/ x = 6 \/ x = 7 \/ x = 8 \/ x = 9 \/ x = 10
      \/ x = 11 \/ x = 12 \/ x = 13 \/ x = 14 \/ x = 15) by lia.
    decompose [or] E; subst; reflexivity. }
  intros d B. unfold hex. induction B as [|b d H B IH]; [reflexivity|]. cbn [flat_map]. rewrite IH.
  rewrite (G (b / 16)), (G (b mod 16)); [reflexivity| |].
  - apply Z.mod_pos_bound. lia.
  - split; [apply Z.div_pos; lia|]. apply Z.div_lt_upper_bound; lia.
Qed.

Lemma sha256_bytes : forall m, bytes (sha256 m).
Proof.
  intros m. unfold sha256. apply Forall_flat_map, Forall_forall. intros x _. apply be_bytes_bytes.
Qed.

Theorem signature_ok : forall g ls, length g = 64%nat -> signature g ls = hex (sha256 (stream ls)).
Proof.
  intros g ls G.
  assert (E : forall c, fold_left (fun c l => sha_printf c (map byte_of l)) ls c = fold_left sha_update (map kept ls) c).
  { induction ls as [|l ls IH]; intros c; [reflexivity|]. cbn [fold_left map]. rewrite IH. reflexivity. }
  unfold signature, sha_hash, stream. rewrite E, sha_chunks_ok; [apply hex_ok, sha256_bytes|exact G| |].
  - apply Forall_forall. intros m I. apply in_map_iff in I as [l [<- _]]. apply kept_bytes.
  - apply Forall_forall. intros m I. apply in_map_iff in I as [l [<- _]]. apply kept_bytes.
Qed.
