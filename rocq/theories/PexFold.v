(* Folding instances into one keeps the meaning of a design. *)
From Coq Require Import ZArith List Bool Ascii String Lia Permutation.
From Verif Require Import IlistModel IlistSpec IlistThms VnameModel VnameThms VnameMerge PexModel PexSpec PexName PexThms.
Import ListNotations.
Open Scope list_scope.
Local Notation length := List.length.

(* --- names that share a scalar ------------------------------------------------------------- *)

Lemma simple_wire : forall s, simple s -> wire s.
Proof. intros s [n [o [W [O [-> _]]]]]. now exists n, o. Qed.

Lemma simple_share : forall x y s, simple x -> simple y -> In s (expand x) -> In s (expand y) ->
  chars_eqb (signature (split_name x)) (signature (split_name y)) = true
  /\ vector_overlap (split_name x) (split_name y) = true.
Proof.
  intros x y s [n [o [W [O [-> T]]]]] [n' [o' [W' [O' [-> T']]]]] X Y.
  rewrite expand_named in X, Y by assumption.
  assert (n = n') by (rewrite <- (cut_scalar n o s W X); now apply (cut_scalar n' o')). subst n'.
  rewrite !split_named by assumption.
  destruct o as [[rs suf]|], o' as [[rs' suf']|]; cbn [scalars_of] in X, Y.
  - apply in_map_iff in X as [i [<- X]]. apply in_map_iff in Y as [j [E Y]]. apply app_inv_head in E. injection E as E.
    assert (Q := show_end _ _ _ _ E). subst j. apply app_inv_head in E. injection E as <-.
    destruct T as [u [l [-> T]]], T' as [u' [l' [-> T']]]. cbn [joined_index joined merge_from vec_of].
    split; [now apply chars_eqb_eq|]. cbn [vector_overlap]. rewrite String.eqb_refl.
    assert (R : range_overlap [(u, l)] [(u', l')] = true) by (apply range_overlap_one; [exact T|exact T'|now exists i]).
    rewrite R. now rewrite String.eqb_refl.
  - exfalso. apply in_map_iff in X as [i [<- _]]. destruct Y as [E|[]].
    apply (f_equal (@length ascii)) in E. rewrite app_length in E. cbn in E. lia.
  - exfalso. apply in_map_iff in Y as [i [<- _]]. destruct X as [E|[]].
    apply (f_equal (@length ascii)) in E. rewrite app_length in E. cbn in E. lia.
  - cbn [joined_index vec_of vector_overlap]. rewrite String.eqb_refl. split; [now apply chars_eqb_eq|reflexivity].
Qed.

(* --- the sets --------------------------------------------------------------------------------- *)

Lemma add_new_in : forall a x l, In a (add_new x l) <-> a = x \/ In a l.
Proof.
  intros a x l. unfold add_new. destruct (mem x l) eqn:M.
  - apply mem_in in M. split; [auto|]. intros [->|I]; auto.
  - rewrite in_app_iff. cbn. split; [intros [I|[I|[]]]; auto|]. intros [->|I]; auto.
Qed.

Definition edge (s : sets) (x : chars) : Prop := In x (f_inps s) \/ In x (f_outs s).

Lemma note_keeps : forall ids u w s x, edge s x -> edge (note ids u w s) x.
Proof.
  intros ids u w s x [E|E]; unfold note, edge; destruct (is_id ids (u_index w)); [now left| |now right|];
    destruct (u_input u); cbn; rewrite ?add_new_in; auto.
Qed.

Lemma note_from : forall ids u w s x, edge (note ids u w s) x -> edge s x \/ x = u_name u.
Proof.
  intros ids u w s x. unfold note, edge. destruct (is_id ids (u_index w)); [auto|].
  destruct (u_input u); cbn; rewrite add_new_in; tauto.
Qed.

Lemma note_adds : forall ids u w s, is_id ids (u_index w) = false -> edge (note ids u w s) (u_name u).
Proof.
  intros ids u w s E. unfold note, edge. rewrite E. destruct (u_input u); cbn; rewrite add_new_in; auto.
Qed.

Lemma notes_keeps : forall ids u ws s x, edge s x -> edge (fold_left (fun s w => note ids u w s) ws s) x.
Proof. induction ws as [|w ws IH]; intros s x E; [exact E|]. cbn. apply IH. now apply note_keeps. Qed.

Lemma notes_adds : forall ids u ws w s, In w ws -> is_id ids (u_index w) = false ->
  edge (fold_left (fun s w => note ids u w s) ws s) (u_name u).
Proof.
  induction ws as [|w0 ws IH]; intros w s I E; [destruct I|]. cbn. destruct I as [->|I]; [|now apply (IH w)].
  apply notes_keeps. now apply note_adds.
Qed.

Lemma notes_from : forall ids u ws s x, edge (fold_left (fun s w => note ids u w s) ws s) x -> edge s x \/ x = u_name u.
Proof.
  induction ws as [|w ws IH]; intros s x E; [now left|]. cbn in E. apply IH in E as [E| ->]; [|now right].
  now apply note_from in E.
Qed.

Definition scan_uses (ids : list nat) (us l : list use) (s : sets) : sets :=
  fold_left (fun s u => fold_left (fun s w => note ids u w s) (filter (meets u) us) s) l s.

Lemma scan_keeps : forall ids us l s x, edge s x -> edge (scan_uses ids us l s) x.
Proof. induction l as [|u l IH]; intros s x E; [exact E|]. cbn. apply IH. now apply notes_keeps. Qed.

Lemma scan_adds : forall ids us l s u w, In u l -> In w us -> meets u w = true -> is_id ids (u_index w) = false ->
  edge (scan_uses ids us l s) (u_name u).
Proof.
  induction l as [|u0 l IH]; intros s u w U W M E; [destruct U|]. cbn. destruct U as [->|U]; [|now apply (IH _ u w)].
  apply scan_keeps. apply (notes_adds ids u _ w); [|exact E]. apply filter_In. auto.
Qed.

Lemma scan_from : forall ids us l s x, edge (scan_uses ids us l s) x -> edge s x \/ exists u, In u l /\ x = u_name u.
Proof.
  induction l as [|u l IH]; intros s x E; [now left|]. cbn in E. apply IH in E as [E|[v [V ->]]].
  - apply notes_from in E as [E| ->]; [now left|]. right. exists u. split; [now left|reflexivity].
  - right. exists v. split; [now right|reflexivity].
Qed.

(* --- uses ----------------------------------------------------------------------------------------- *)

Section Fold.
Context {F : Type}.

Lemma uses_in : forall (l : list (pex F)) i u, In u (children_uses i l) <->
  exists j c, nth_error l j = Some c /\ In u (child_uses (i + j) (head_of c)).
Proof.
  induction l as [|c l IH]; intros i u; cbn [children_uses].
  - split; [intros []|]. intros [[|j] [c [E _]]]; discriminate.
  - rewrite in_app_iff, IH. split.
    + intros [U|[j [d [E U]]]]; [exists O, c; rewrite Nat.add_0_r; auto|]. exists (S j), d.
      now replace (i + S j)%nat with (S i + j)%nat by lia.
    + intros [[|j] [d [E U]]]; [left; injection E as <-; now rewrite Nat.add_0_r in U|].
      right. exists j, d. now replace (S i + j)%nat with (i + S j)%nat by lia.
Qed.

Lemma child_use : forall i h u, In u (child_uses i h) <->
  u_index u = i /\ if u_input u then In (u_name u) (flat_map snd (h_inps h)) else In (u_name u) (flat_map snd (h_outs h)).
Proof.
  intros i h [j b n]. unfold child_uses. rewrite in_app_iff, !in_map_iff. cbn. split.
  - intros [[x [E I]]|[x [E I]]]; injection E as <- <- <-; auto.
  - intros [-> I]. destruct b; [left|right]; exists n; auto.
Qed.

Lemma root_use : forall h u, In u (root_uses h) <->
  u_index u = 0%nat /\ if u_input u then In (u_name u) (map fst (h_outs h)) else In (u_name u) (map fst (h_inps h)).
Proof.
  intros h [j b n]. unfold root_uses. rewrite in_app_iff, !(in_map_iff (Use _ _)). cbn. split.
  - intros [[x [E I]]|[x [E I]]]; injection E as <- <- <-; auto.
  - intros [-> I]. destruct b; [right|left]; exists n; auto.
Qed.

Lemma is_id_in : forall ids i, is_id ids i = true <-> In i ids.
Proof.
  intros ids i. unfold is_id. rewrite existsb_exists. split.
  - intros [x [I E]]. apply Nat.eqb_eq in E. now subst.
  - intros I. exists i. split; [exact I|apply Nat.eqb_refl].
Qed.

Lemma select_in : forall b ids (l : list (pex F)) i c, In c (select b ids i l) <->
  exists j, nth_error l j = Some c /\ is_id ids (i + j) = b.
Proof.
  induction l as [|d l IH]; intros i c; cbn [select].
  - split; [intros []|]. intros [[|j] [E _]]; discriminate.
  - rewrite in_app_iff, IH. split.
    + intros [I|[j [E B]]].
      * destruct (Bool.eqb (is_id ids i) b) eqn:Q; [|destruct I]. destruct I as [->|[]]. apply Bool.eqb_prop in Q.
        exists O. rewrite Nat.add_0_r. auto.
      * exists (S j). now replace (i + S j)%nat with (S i + j)%nat by lia.
    + intros [[|j] [E B]].
      * left. injection E as ->. rewrite Nat.add_0_r in B. rewrite B, Bool.eqb_reflx. now left.
      * right. exists j. now replace (S i + j)%nat with (i + S j)%nat by lia.
Qed.

Lemma select_forall : forall (P : pex F -> Prop) ids l i,
  Forall P l <-> Forall P (select true ids i l) /\ Forall P (select false ids i l).
Proof.
  intros P ids. induction l as [|c l IH]; intros i; cbn [select]; [repeat split; constructor|].
  rewrite !Forall_app, Forall_cons_iff, (IH (S i)). destruct (is_id ids i); cbn; rewrite ?Forall_cons_iff; intuition constructor.
Qed.

Lemma chosen_select : forall b ids (l : list (pex F)), chosen b ids l = select b ids 1 l.
Proof.
  intros b ids l. unfold chosen. generalize 1%nat as i. induction l as [|c l IH]; intros i; [reflexivity|].
  cbn [length seq combine filter fst select]. unfold is_id. destruct (Bool.eqb (existsb (Nat.eqb i) ids) b); cbn; now rewrite IH.
Qed.

Lemma use_simple : forall h (l : list (pex F)) i u, simply h l -> In u (root_uses h ++ children_uses i l) -> simple (u_name u) \/ constant (u_name u).
Proof.
  intros h l i u [S1 S2] U. apply in_app_iff in U as [U|U].
  - left. apply root_use in U as [_ U]. rewrite Forall_forall in S1. apply S1. unfold formals. rewrite map_app, in_app_iff.
    destruct (u_input u); auto.
  - apply uses_in in U as [j [c [N U]]]. apply child_use in U as [_ U]. apply nth_error_In in N.
    destruct (u_input u); apply in_flat_map in U as [a [A U]]; apply (S2 c a); auto; apply in_app_iff; auto.
Qed.

Lemma use_known : forall h (l : list (pex F)) i u, simply h l -> In u (root_uses h ++ children_uses i l) -> known (u_name u).
Proof. intros h l i u S U. destruct (use_simple h l i u S U); [left; now apply simple_wire|now right]. Qed.

Definition use_of (us : list use) (s : chars) (b : bool) (i : nat) : Prop :=
  exists u, In u us /\ u_index u = i /\ u_input u = b /\ In s (expand (u_name u)).

Theorem fold_ok : forall scan h (l : list (pex F)) ids name,
  (forall x a, In a (scan x) <-> In a x) -> simply h l -> ~ In 0%nat ids -> linked h l ids ->
  exists h' hp, let p := Hier h' (Hier hp (chosen true ids l) :: chosen false ids l) in
    fold scan (Hier h l) ids name = Ok p
    /\ (h_name h' = h_name h /\ h_inps h' = h_inps h /\ h_outs h' = h_outs h /\ h_name hp = name)
    /\ forall V (K : ascii -> V) sat e,
         possible K sat (Hier h l) (formals h) e <-> possible K sat p (formals h) e.
Proof.
  intros scan h l ids name SC SI N0 LI.
  set (us := root_uses h ++ children_uses 1 l).
  set (mine := filter (fun u => is_id ids (u_index u)) (children_uses 1 l)).
  set (s := scan_uses ids us mine (Sets [] [] [])).
  rewrite !chosen_select.
  do 2 eexists. cbv zeta. split; [reflexivity|]. split; [repeat split|].
  change (fold_left _ mine (Sets [] [] [])) with s.
  assert (KE : forall x, edge s x -> known x).
  { intros x E. apply scan_from in E as [[[]|[]]|[u [U ->]]]. apply filter_In in U as [U _].
    apply (use_known h l 1); [exact SI|]. apply in_app_iff. now right. }
  (* the edge has all shared wires *)
  assert (CROSS : forall t c d, In c mine -> In d us -> is_id ids (u_index d) = false ->
     In t (expand (u_name c)) -> In t (expand (u_name d)) -> ~ constant t -> u_input c <> u_input d ->
     exists x, edge s x /\ In t (expand x)).
  { intros t c d C D ID TC TD NC OP. exists (u_name c). split; [|exact TC].
    apply filter_In in C as C'. destruct C' as [C1 C2].
    assert (NCO : forall y, In t (expand y) -> ~ constant y).
    { intros y Y [r [NE [B ->]]]. apply NC. now apply (const_scalars r). }
    assert (SX : simple (u_name c)).
    { destruct (use_simple h l 1 c SI) as [Q|Q]; [apply in_app_iff; now right|exact Q|]. now apply NCO in Q. }
    assert (SY : simple (u_name d)).
    { destruct (use_simple h l 1 d SI D) as [Q|Q]; [exact Q|]. now apply NCO in Q. }
    destruct (simple_share _ _ t SX SY TC TD) as [SH OV].
    apply (scan_adds ids us mine _ c d); auto. unfold meets. rewrite SH, OV.
    destruct (u_input c), (u_input d); try reflexivity; now destruct OP. }
  assert (KN : Forall known (formals h)) by (eapply Forall_impl; [|exact (proj1 SI)]; intros; left; now apply simple_wire).
  assert (KA : forall c x, In c l -> In x (acts c) -> known x).
  { intros c x C X. unfold acts in X. apply in_flat_map in X as [a [A X]]. destruct (proj2 SI c a x C A X) as [Q|Q]; [left; now apply simple_wire|now right]. }
  assert (TOUCH : forall c t, In c l -> In t (flat_map expand (acts c)) -> touches c t).
  { intros c t C I. apply in_flat_map in I as [x [X I]]. assert (KX := KA c x C X). unfold acts in X.
    apply in_flat_map in X as [a [A X]]. exists a. split; [exact A|]. exists x, (expand x). split; [exact X|]. split; [now apply known_stands|exact I]. }
  assert (PUSE : forall pl t, at_port pl t -> exists x, In x (flat_map snd pl) /\ In t (expand x)).
  { intros pl t [a [A [x [ss [X [S I]]]]]]. exists x. rewrite (stands_expand _ _ S). split; [|exact I].
    apply in_flat_map. exists a. auto. }
  assert (MINE : forall c t, In c (select true ids 1 l) -> In t (flat_map expand (acts c)) ->
     exists u, In u mine /\ In t (expand (u_name u))).
  { intros c t C I. apply select_in in C as [j [N ID]]. apply in_flat_map in I as [x [X I]]. unfold acts in X.
    rewrite flat_map_app, in_app_iff in X. destruct X as [X|X]; [exists (Use (1 + j) true x)|exists (Use (1 + j) false x)];
      (split; [apply filter_In; split; [apply uses_in; exists j, c; split; [exact N|now apply child_use]|exact ID]|exact I]). }
  assert (WHERE : forall u, In u us -> is_id ids (u_index u) = false \/ In u mine).
  { intros u U. apply in_app_iff in U as [U|U].
    - left. apply root_use in U as [-> _]. apply not_true_is_false. now rewrite is_id_in.
    - destruct (is_id ids (u_index u)) eqn:E; [right; now apply filter_In|now left]. }
  assert (SHARED : forall c t, In c (select true ids 1 l) -> In t (flat_map expand (acts c)) -> ~ constant t ->
     (exists d, In d (select false ids 1 l) /\ In t (flat_map expand (acts d))) \/ In t (flat_map expand (formals h)) ->
     exists x, edge s x /\ In t (expand x)).
  { intros c t C I NC O.
    assert (OUT : exists d, In d us /\ is_id ids (u_index d) = false /\ In t (expand (u_name d))).
    { destruct O as [[d [D J]]|J].
      - apply select_in in D as [j [N ID]]. apply in_flat_map in J as [x [X J]]. unfold acts in X.
        rewrite flat_map_app, in_app_iff in X. destruct X as [X|X]; [exists (Use (1 + j) true x)|exists (Use (1 + j) false x)];
          (split; [apply in_app_iff; right; apply uses_in; exists j, d; split; [exact N|now apply child_use]|split; [exact ID|exact J]]).
      - apply in_flat_map in J as [x [X J]]. unfold formals in X. rewrite map_app, in_app_iff in X.
        destruct X as [X|X]; [exists (Use 0 false x)|exists (Use 0 true x)];
          (split; [apply in_app_iff; left; now apply root_use|split; [|exact J]]; cbn; apply not_true_is_false; now rewrite is_id_in). }
    destruct (MINE c t C I) as [u [U TU]]. destruct OUT as [d [D [ID TD]]].
    assert (LK : driven h l t /\ read h l t).
    { apply select_in in C as [j [N IJ]]. apply is_id_in in IJ. apply (LI j c t N IJ); auto.
      - apply TOUCH; [now apply nth_error_In in N|exact I].
      - destruct O as [[d' [D' J]]|J]; [left|right; now apply in_names_expand].
        apply select_in in D' as [k [N' IK]]. exists k, d'. split; [exact N'|]. split; [|apply TOUCH; [now apply nth_error_In in N'|exact J]].
        intros Q. apply is_id_in in Q. cbn in IK. congruence. }
    assert (UB : forall b, exists w, In w us /\ u_input w = b /\ In t (expand (u_name w))).
    { destruct LK as [DR RD]. intros [].
      - destruct RD as [[c' [C' P]]|P].
        + apply PUSE in P as [x [X T]]. apply In_nth_error in C' as [j N]. exists (Use (1 + j) true x).
          split; [apply in_app_iff; right; apply uses_in; exists j, c'; split; [exact N|now apply child_use]|auto].
        + destruct P as [x [ss [X [S T]]]]. rewrite <- (stands_expand _ _ S) in T. exists (Use 0 true x).
          split; [apply in_app_iff; left; now apply root_use|auto].
      - destruct DR as [[c' [C' P]]|P].
        + apply PUSE in P as [x [X T]]. apply In_nth_error in C' as [j N]. exists (Use (1 + j) false x).
          split; [apply in_app_iff; right; apply uses_in; exists j, c'; split; [exact N|now apply child_use]|auto].
        + destruct P as [x [ss [X [S T]]]]. rewrite <- (stands_expand _ _ S) in T. exists (Use 0 false x).
          split; [apply in_app_iff; left; now apply root_use|auto]. }
    destruct (Bool.bool_dec (u_input u) (u_input d)) as [E|E]; [|now apply (CROSS t u d)].
    destruct (UB (negb (u_input u))) as [w [W [WI TW]]]. destruct (WHERE w W) as [WO|WM].
    - apply (CROSS t u w); auto. rewrite WI. destruct (u_input u); discriminate.
    - apply (CROSS t w d); auto. rewrite WI, <- E. destruct (u_input u); discriminate. }
  assert (IN1 : forall c, In c (select true ids 1 l) -> In c l) by (intros c C; apply select_in in C as [j [N _]]; now apply nth_error_In in N).
  assert (IN2 : forall c, In c (select false ids 1 l) -> In c l) by (intros c C; apply select_in in C as [j [N _]]; now apply nth_error_In in N).
  intros V K sat e.
  assert (EDGE : forall e1 e2, Forall (port e1 e2) (map (fun a => (a, [a])) (scan (f_inps s)) ++ map (fun a => (a, [a])) (scan (f_outs s)))
     <-> forall x t, edge s x -> In t (expand x) -> e2 t = (e1 t : V)).
  { intros e1 e2. rewrite Forall_app, !Forall_forall. split.
    - intros [P1 P2] x t E T.
      assert (P : port e1 e2 (x, [x])).
      { destruct E as [E|E]; apply SC in E; [apply P1|apply P2]; apply in_map_iff; exists x; auto. }
      apply port_expand in P as [_ [_ P]]. cbn in P. rewrite app_nil_r in P. clear - P T.
      induction (expand x) as [|y r IH]; [destruct T|]. cbn in P. injection P as Q1 Q2. destruct T as [<-|T]; auto.
    - intros H. split; intros a A; apply in_map_iff in A as [x [<- A]]; apply (proj1 (SC _ _)) in A; apply port_expand;
        (assert (E : edge s x) by (unfold edge; auto)); cbn; rewrite app_nil_r;
        (split; [now apply KE|]; split; [constructor; [now apply KE|constructor]|]); apply map_ext_in; intros t T; now apply (H x). }
  split.
  - intros [e1 [P1 [A1 I1]]]. exists e1. split; [exact P1|]. split; [exact A1|]. rewrite inside_hier in *.
    apply (select_forall _ ids l 1) in I1 as [I1 I2]. constructor; [|exact I2]. exists e1. split; [exact P1|]. split; [|now rewrite inside_hier].
    cbn [head_of h_inps h_outs]. apply EDGE. auto.
  - intros [e1 [P1 [A1 I1]]]. rewrite inside_hier in I1. apply Forall_cons_iff in I1 as [[e2 [P2 [PO I2]]] I1].
    rewrite inside_hier in I2. cbn [head_of h_inps h_outs] in PO. assert (PO2 := proj1 (EDGE e1 e2) PO). clear PO. rename PO2 into PO.
    set (mw := flat_map expand (flat_map acts (select true ids 1 l))).
    set (e3 := fun t => if mem t mw then e2 t else e1 t).
    assert (MW : forall t, In t mw -> exists c, In c (select true ids 1 l) /\ In t (flat_map expand (acts c))).
    { intros t T. unfold mw in T. apply in_flat_map in T as [x [X T]]. apply in_flat_map in X as [c [C X]]. exists c. split; [exact C|].
      apply in_flat_map. exists x. auto. }
    assert (MW' : forall c t, In c (select true ids 1 l) -> In t (flat_map expand (acts c)) -> In t mw).
    { intros c t C T. apply in_flat_map in T as [x [X T]]. apply in_flat_map. exists x. split; [|exact T]. apply in_flat_map. exists c. auto. }
    clearbody mw.
    assert (CONST : forall c, bit c -> e3 (const [c]) = K c).
    { intros c B. unfold e3. destruct (mem (const [c]) mw); auto. }
    assert (SAME : forall t, (exists d, In d (select false ids 1 l) /\ In t (flat_map expand (acts d))) \/ In t (flat_map expand (formals h)) -> e3 t = e1 t).
    { intros t O. unfold e3. destruct (mem t mw) eqn:M; [|reflexivity]. apply mem_in in M. destruct (MW t M) as [c [C T]].
      assert (D : (exists b, bit b /\ t = const [b]) \/ ~ constant t).
      { apply in_flat_map in T as [x [X T]]. destruct (KA c x (IN1 c C) X) as [W|[r [NE [B ->]]]].
        - right. apply wire_not_const. now apply (scalar_wire x).
        - left. rewrite expand_const in T by assumption. apply in_map_iff in T as [b [<- T]]. exists b. rewrite Forall_forall in B. auto. }
      destruct D as [[b [B ->]]|NC]; [now rewrite P1, P2|].
      destruct (SHARED c t C T NC O) as [x [E X]]. now apply (PO x). }
    exists e3. split; [exact CONST|]. split.
    + intros t T. rewrite <- A1 by exact T. apply SAME. right. now apply in_names_expand in T.
    + rewrite inside_hier. apply (select_forall _ ids l 1). split; apply Forall_forall; intros c C.
      * rewrite Forall_forall in I2. apply (child_ext K sat e2); [|now apply I2]. intros t T. unfold e3.
        assert (M : mem t mw = true) by (apply mem_in; now apply (MW' c)). now rewrite M.
      * rewrite Forall_forall in I1. apply (child_ext K sat e1); [|now apply I1]. intros t T. symmetry. apply SAME. left. now exists c.
Qed.
End Fold.
