(* The type of an overloaded function. *)
From Coq Require Import String List Bool Arith Lia.
From Verif Require Import TyModel TyThms InfModel InfSpec InfThms InfRun InfTop InfEnd
  OvModel OvSpec OvPath OvStore OvThms OvEnd ComModel ComSpec.
Import ListNotations.
Open Scope list_scope.

(* ---- s is t with some parts replaced by variables ---- *)
Fixpoint above (s t : tree) : Prop :=
  match s with
  | Nd (LVar _) _ => True
  | Nd (LCon c) ks =>
      match t with
      | Nd (LCon c') kt => c = c' /\
          (fix go ks kt : Prop :=
             match ks, kt with
             | [], [] => True
             | a :: ks, b :: kt => above a b /\ go ks kt
             | _, _ => False
             end) ks kt
      | _ => False
      end
  end.
Lemma above_con c ks t : above (Nd (LCon c) ks) t <-> exists kt, t = Nd (LCon c) kt /\ Forall2 above ks kt.
Proof.
  cbn. destruct t as [[v|c'] kt].
  - split; [tauto|]. intros (? & [=] & _).
  - assert (G : forall ks kt, (fix go ks kt : Prop :=
             match ks, kt with
             | [], [] => True
             | a :: ks, b :: kt => above a b /\ go ks kt
             | _, _ => False
             end) ks kt <-> Forall2 above ks kt).
    { clear. induction ks as [|a ks IH]; intros [|b kt].
      - split; auto.
      - split; [tauto|]. intros F; inversion F.
      - split; [tauto|]. intros F; inversion F.
      - rewrite IH. split; [intros [A B]; now constructor|]. intros F; inversion F; auto. }
    rewrite G. split; [intros [-> F]; eauto|]. intros (? & [= -> ->] & F). auto.
Qed.
Lemma above_refl t : above t t.
Proof.
  induction t as [[v|c] k IH] using tree_ind'; [exact I|]. apply above_con. exists k. split; [reflexivity|].
  induction IH; constructor; auto.
Qed.
Lemma above_trans a : forall b c, above a b -> above b c -> above a c.
Proof.
  induction a as [[v|x] k IH] using tree_ind'; intros b c A B; [exact I|].
  apply above_con in A as (k2 & -> & F). apply above_con in B as (k3 & -> & G). apply above_con.
  exists k3. split; [reflexivity|]. revert k3 G.
  induction F as [|a b k k2 A F IHF]; intros k3 G; inversion G; subst; constructor; inversion IH; subst; eauto.
Qed.
Lemma above_flat a : forall b, inst (fun _ => Nd (LVar 0) []) a = inst (fun _ => Nd (LVar 0) []) b -> above a b.
Proof.
  induction a as [[v|x] k IH] using tree_ind'; intros [[w|y] k2] E; [exact I|exact I|discriminate|].
  cbn in E. injection E as -> E. apply above_con. exists k2. split; [reflexivity|]. revert k2 E.
  induction IH as [|a k Ha IH IHk]; intros [|b k2] E; try discriminate; [constructor|].
  cbn in E. injection E as E1 E2. constructor; auto.
Qed.

(* ---- places ---- *)
Definition placed_at (pos : nat -> list nat) (path : list nat) (t : tree) : Prop :=
  forall p v k, sub t p = Some (Nd (LVar v) k) -> pos v = path ++ p.
Lemma placed_kid pos path l k i t : placed_at pos path (Nd l k) -> nth_error k i = Some t ->
  placed_at pos (path ++ [i]) t.
Proof. intros P E p v q Sb. rewrite <- app_assoc. apply (P (i :: p) v q). cbn. now rewrite E. Qed.
Lemma placed_con pos path c k : (forall i t, nth_error k i = Some t -> placed_at pos (path ++ [i]) t) ->
  placed_at pos path (Nd (LCon c) k).
Proof.
  intros P [|i p] v q Sb; cbn in Sb; [discriminate|]. destruct (nth_error k i) as [t|] eqn:E; [|discriminate].
  specialize (P _ _ E p v q Sb). now rewrite <- app_assoc in P.
Qed.
Lemma above_inst pos T s : forall path t, placed_at pos path s -> above s t -> sub T path = Some t ->
  inst (fun v => match sub T (pos v) with Some u => u | None => Nd (LVar v) [] end) s = t.
Proof.
  induction s as [[v|c] k IH] using tree_ind'; intros path t P A E.
  - cbn. rewrite (P [] v k eq_refl), app_nil_r, E. reflexivity.
  - apply above_con in A as (kt & -> & F). cbn. f_equal.
    assert (K : forall i s t, nth_error k i = Some s -> nth_error kt i = Some t ->
      inst (fun v => match sub T (pos v) with Some u => u | None => Nd (LVar v) [] end) s = t).
    { intros i s t Es Et. rewrite Forall_forall in IH. apply IH with (path := path ++ [i]).
      - eapply nth_error_In; eauto.
      - eapply placed_kid; eauto.
      - clear - F Es Et. revert i Es Et. induction F; intros [|i] Es Et; try discriminate; cbn in *; [congruence|eauto].
      - clear - E Et. revert T E. induction path as [|j path IHp]; intros T E; cbn in *.
        + injection E as ->. cbn. now rewrite Et.
        + destruct T as [l q]. destruct (nth_error q j); [auto|discriminate]. }
    clear - F K. induction F as [|a b k kt A F IHF]; cbn; [reflexivity|]. f_equal.
    + apply (K 0); reflexivity.
    + apply IHF. intros i. apply (K (S i)).
Qed.

Section Ar.
Variable ar : con -> nat.

Definition good (h : heap) (S : rd) : Prop :=
  store ar h /\ reading h S /\ forall p, nth_error h p = Some NVar -> S p = Nd (LVar p) [].
Definition grown (h : heap) (S : rd) (h' : heap) (S' : rd) : Prop :=
  good h' S' /\ (exists t, h' = h ++ t) /\ agree (length h) S S'.

Lemma grown_refl h S : good h S -> grown h S h S.
Proof. intros G. split; [assumption|]. split; [exists []; now rewrite app_nil_r|]. intros ? ?; reflexivity. Qed.
Lemma grown_trans h1 S1 h2 S2 h3 S3 : grown h1 S1 h2 S2 -> grown h2 S2 h3 S3 -> grown h1 S1 h3 S3.
Proof.
  intros (_ & (t1 & ->) & A1) (G & (t2 & ->) & A2). split; [assumption|].
  split; [exists (t1 ++ t2); now rewrite app_assoc|]. intros x L. rewrite A2, A1; auto.
  rewrite app_length. lia.
Qed.
Lemma grown_len h S h' S' : grown h S h' S' -> length h <= length h'.
Proof. intros (_ & (t & ->) & _). rewrite app_length. lia. Qed.
Lemma grown_nth h S h' S' p n : grown h S h' S' -> nth_error h p = Some n -> nth_error h' p = Some n.
Proof. intros (_ & (t & ->) & _) E. rewrite nth_error_app1; [assumption|]. eapply nth_lt; eauto. Qed.

Lemma grown_new h S n t : good h S -> (forall x, In x (kids_of n) -> x < length h) -> node_ar ar n ->
  node_ok S t n -> (n = NVar -> t = Nd (LVar (length h)) []) ->
  grown h S (h ++ [n]) (put (length h) t S).
Proof.
  intros (St & R & V) K A N NV. split; [|split; [eauto|apply put_agree]].
  split; [now apply store_new|]. split; [apply extend; auto; apply St|].
  intros p E. destruct (Nat.lt_ge_cases p (length h)) as [L|L].
  - rewrite nth_error_app1 in E by assumption. rewrite put_agree by assumption. auto.
  - rewrite nth_error_app2 in E by assumption.
    destruct (p - length h) as [|d] eqn:D; cbn in E; [|destruct d; discriminate]. injection E as ->.
    replace p with (length h) by lia. rewrite put_same. auto.
Qed.

(* Variables and their places are in the store. *)
Lemma good_sub h S p : good h S -> p < length h -> forall path v k, sub (S p) path = Some (Nd (LVar v) k) -> v < length h.
Proof.
  intros ((IR & AC & _) & R & V). induction (AC p) as [p _ IH]. intros L path v k E.
  destruct (nth_error h p) as [n|] eqn:N; [|apply nth_error_None in N; lia].
  pose proof (R _ _ N) as RN. destruct n as [|a|c l].
  - rewrite (V _ N) in E. destruct path as [|i path]; cbn in E; [congruence|destruct i; discriminate].
  - rewrite RN in E. eapply IH; [|eapply IR; [exact N|now left]|exact E]. exists (NInd a). split; [assumption|now left].
  - rewrite RN in E. destruct path as [|i path]; cbn in E; [discriminate|].
    destruct (nth_error (map S l) i) as [t|] eqn:Et; [|discriminate]. rewrite nth_error_map in Et.
    destruct (nth_error l i) as [a|] eqn:Ea; [|discriminate]. injection Et as <-. apply nth_error_In in Ea.
    eapply IH; [|eapply IR; [exact N|exact Ea]|exact E]. exists (NCon c l). auto.
Qed.
Lemma placed_more h S pos pos' path p : good h S -> p < length h -> (forall v, v < length h -> pos' v = pos v) ->
  placed_at pos path (S p) -> placed_at pos' path (S p).
Proof. intros G L E P q v k Sb. rewrite E; [eauto|]. eapply good_sub; eauto. Qed.

(* Equal types are found equal. *)
Lemma type_eq_same n ve h S : good h S -> (forall p, ve p p = true) ->
  forall p q, S p = S q -> type_eq n ve h p q <> Some false.
Proof.
  intros (_ & R & V) VE. induction n as [|n IH]; intros p q E; cbn; [discriminate|].
  destruct (Nat.eqb p q); [discriminate|].
  destruct (get_real n h p) as [p'|] eqn:Gp; [|discriminate].
  destruct (get_real n h q) as [q'|] eqn:Gq; [|discriminate].
  rewrite (proj2 (get_real_sound _ _ _ _ Gp) S R), (proj2 (get_real_sound _ _ _ _ Gq) S R) in E.
  destruct (get_real_sound _ _ _ _ Gp) as [(n1 & N1 & X1) _].
  destruct (get_real_sound _ _ _ _ Gq) as [(n2 & N2 & X2) _]. rewrite N1, N2.
  pose proof (R _ _ N1) as R1. pose proof (R _ _ N2) as R2.
  destruct n1 as [|a|c1 k1]; [|now destruct (X1 a)|]; (destruct n2 as [|b|c2 k2]; [|now destruct (X2 b)|]).
  - rewrite (V _ N1), (V _ N2) in E. injection E as ->. rewrite VE. discriminate.
  - rewrite (V _ N1), R2 in E. discriminate.
  - rewrite (V _ N2), R1 in E. discriminate.
  - rewrite R1, R2 in E. injection E as <- E.
    replace (con_eqb c1 c1) with true by (symmetry; now apply con_eqb_eq).
    clear - IH E. revert k2 E. induction k1 as [|a k1 IHk]; intros [|b k2] E; try discriminate.
    injection E as E1 E2. cbn. specialize (IH a b E1). destruct (type_eq n ve h a b) as [[]|]; auto.
Qed.
Lemma type_eq_above n ve h S p q : good h S -> type_eq n ve h p q = Some true -> above (S p) (S q).
Proof.
  intros (_ & R & V) E. apply above_flat.
  refine (type_eq_true n ve h (fun p => inst (fun _ => Nd (LVar 0) []) (S p)) (Nd (LVar 0) []) _ _ p q E).
  - now apply inst_reading.
  - intros x N. now rewrite (V _ N).
Qed.

Variable fuel : nat.
Variable veq : heap -> nat -> nat -> bool.

Definition common_spec (S : rd) (h : heap) (p q c : nat) (h' : heap) : Prop :=
  exists S', grown h S h' S' /\ c < length h'
    /\ above (S' c) (S p) /\ above (S' c) (S q)
    /\ (forall pos path, placed_at pos path (S p) -> placed_at pos path (S q) ->
        exists pos', (forall v, v < length h -> pos' v = pos v) /\ placed_at pos' path (S' c))
    /\ ((forall h p, veq h p p = true) -> forall path u,
        asub (S p) path = Some u -> asub (S q) path = Some u -> asub (S' c) path = Some u).
Definition list_spec (S : rd) (h : heap) (k1 k2 l : list nat) (s1 s2 : bool) (h' : heap) : Prop :=
  exists S', grown h S h' S' /\ (forall x, In x l -> x < length h')
    /\ Forall2 above (map S' l) (map S k1) /\ Forall2 above (map S' l) (map S k2)
    /\ (forall pos path i,
        (forall j t, nth_error (map S k1) j = Some t -> placed_at pos (path ++ [i + j]) t) ->
        (forall j t, nth_error (map S k2) j = Some t -> placed_at pos (path ++ [i + j]) t) ->
        exists pos', (forall v, v < length h -> pos' v = pos v)
          /\ forall j t, nth_error (map S' l) j = Some t -> placed_at pos' (path ++ [i + j]) t)
    /\ ((forall h p, veq h p p = true) -> forall path u i t1 t2,
        nth_error (map S k1) i = Some t1 -> nth_error (map S k2) i = Some t2 ->
        asub t1 path = Some u -> asub t2 path = Some u ->
        exists t, nth_error (map S' l) i = Some t /\ asub t path = Some u)
    /\ (s1 = true -> l = k1) /\ (s2 = true -> l = k2).

Lemma list_ok com : (forall p q h S c h', good h S -> p < length h -> q < length h ->
    com p q h = Some (c, h') -> common_spec S h p q c h') ->
  forall k1 k2 h S l s1 s2 h', good h S -> (forall x, In x k1 -> x < length h) -> (forall x, In x k2 -> x < length h) ->
  common_list com k1 k2 h = Some (l, (s1, s2), h') -> list_spec S h k1 k2 l s1 s2 h'.
Proof.
  intros CO. induction k1 as [|a k1 IH]; intros [|b k2] h S l s1 s2 h' G L1 L2 E; cbn in E; try discriminate.
  - injection E as <- <- <- <-. exists S. split; [now apply grown_refl|]. split; [intros ? []|].
    split; [constructor|]. split; [constructor|]. split; [|split; [|auto]].
    + intros pos path i _ _. exists pos. split; [auto|]. intros [|j] t Et; discriminate.
    + intros _ path u [|i] t1 t2 Et; discriminate.
  - destruct (common_list com k1 k2 h) as [[[l0 [f1 f2]] h1]|] eqn:E1; [|discriminate].
    destruct (com a b h1) as [[c h2]|] eqn:E2; [|discriminate]. injection E as <- <- <- <-.
    destruct (IH k2 h S l0 f1 f2 h1 G) as (S1 & G1 & B1 & A1 & A2 & P1 & K1 & F1 & F2);
      [intros; apply L1; now right|intros; apply L2; now right|exact E1|].
    assert (La : a < length h) by (apply L1; now left). assert (Lb : b < length h) by (apply L2; now left).
    pose proof (grown_len _ _ _ _ G1) as LL.
    destruct (CO a b h1 S1 c h2) as (S2 & G2 & Lc & B2 & B3 & P2 & K2);
      [apply G1|lia|lia|exact E2|].
    pose proof (grown_len _ _ _ _ G2) as LL2. destruct G1 as (G1 & T1 & Ag1). destruct G2 as (G2 & T2 & Ag2).
    rewrite (Ag1 a La) in *. rewrite (Ag1 b Lb) in *.
    assert (M : map S2 l0 = map S1 l0) by (apply map_ext_in; intros x I; apply Ag2; auto).
    exists S2. split; [apply (grown_trans h S h1 S1 h2 S2); (split; [|split]); assumption|].
    split; [intros x [<-|I]; [assumption|specialize (B1 x I); lia]|]. cbn. rewrite M.
    split; [now constructor|]. split; [now constructor|]. split; [|split; [|split]].
    + intros pos path i Q1 Q2.
      destruct (P1 pos path (Datatypes.S i)) as (pos1 & X1 & Y1).
      { intros j t Et. replace (Datatypes.S i + j) with (i + Datatypes.S j) by lia. now apply (Q1 (Datatypes.S j)). }
      { intros j t Et. replace (Datatypes.S i + j) with (i + Datatypes.S j) by lia. now apply (Q2 (Datatypes.S j)). }
      destruct (P2 pos1 (path ++ [i])) as (pos2 & X2 & Y2).
      { apply (placed_more h S pos); auto. rewrite <- (Nat.add_0_r i). now apply (Q1 0). }
      { apply (placed_more h S pos); auto. rewrite <- (Nat.add_0_r i). now apply (Q2 0). }
      exists pos2. split; [intros v Lv; rewrite X2 by lia; auto|].
      intros [|j] t Et; cbn in Et.
      * injection Et as <-. now rewrite Nat.add_0_r.
      * replace (i + Datatypes.S j) with (Datatypes.S i + j) by lia. specialize (Y1 j t Et).
        rewrite nth_error_map in Et. destruct (nth_error l0 j) as [x|] eqn:Ex; [|discriminate].
        injection Et as <-. apply (placed_more h1 S1 pos1); auto. apply B1. eapply nth_error_In; eauto.
    + intros VE path u [|i] t1 t2 Et1 Et2 U1 U2; cbn in *.
      * injection Et1 as <-. injection Et2 as <-. eauto.
      * eauto.
    + intros H. apply andb_true_iff in H as [H1 H2]. apply Nat.eqb_eq in H2 as ->. now rewrite F1.
    + intros H. apply andb_true_iff in H as [H1 H2]. apply Nat.eqb_eq in H2 as ->. now rewrite F2.
Qed.

Lemma common_ok n : forall p q h S c h', good h S -> p < length h -> q < length h ->
  common fuel veq n p q h = Some (c, h') -> common_spec S h p q c h'.
Proof.
  induction n as [|n IH]; intros p q h S c h' G Lp Lq E; cbn in E; [discriminate|].
  destruct (get_real fuel h p) as [p'|] eqn:Gp; [|discriminate].
  destruct (get_real fuel h q) as [q'|] eqn:Gq; [|discriminate].
  destruct (get_real_sound _ _ _ _ Gp) as [(n1 & N1 & X1) Y1].
  destruct (get_real_sound _ _ _ _ Gq) as [(n2 & N2 & X2) Y2].
  pose proof (proj1 (proj2 G)) as R. pose proof (proj2 (proj2 G)) as V. pose proof (proj1 G) as St.
  specialize (Y1 S R). specialize (Y2 S R).
  pose proof (nth_lt _ _ _ N1) as Lp'. pose proof (nth_lt _ _ _ N2) as Lq'.
  assert (CS : common_spec S h p' q' c h'); [|unfold common_spec in *; now rewrite Y1, Y2].
  destruct (type_eq fuel (veq h) h p' q') as [[]|] eqn:T; [| |discriminate].
  - injection E as <- <-. exists S. split; [now apply grown_refl|]. split; [assumption|].
    split; [apply above_refl|]. split; [eapply type_eq_above; eauto|]. split; [|auto].
    intros pos path P _. exists pos. auto.
  - rewrite N1, N2 in E. pose proof (R _ _ N1) as R1. pose proof (R _ _ N2) as R2.
    assert (NE : (forall h p, veq h p p = true) -> S p' <> S q').
    { intros VE X. eapply type_eq_same; eauto. }
    assert (LEFT : n1 = NVar -> common_spec S h p' q' p' h).
    { intros ->. exists S. split; [now apply grown_refl|]. split; [assumption|]. split; [apply above_refl|].
      split; [rewrite (V _ N1); exact I|]. split; [|auto]. intros pos path P _. exists pos. auto. }
    assert (RIGHT : n2 = NVar -> common_spec S h p' q' q' h).
    { intros ->. exists S. split; [now apply grown_refl|]. split; [assumption|].
      split; [rewrite (V _ N2); exact I|]. split; [apply above_refl|]. split; [|auto].
      intros pos path _ P. exists pos. auto. }
    assert (NEW : (forall k1 k2, n1 = NCon CArrow k1 -> n2 = NCon CArrow k2 -> False) ->
      common_spec S h p' q' (length h) (h ++ [NVar])).
    { intros NA. exists (put (length h) (Nd (LVar (length h)) []) S).
      split; [apply grown_new; auto; try exact I; intros ? []|].
      split; [rewrite app_length; cbn; lia|]. rewrite put_same. split; [exact I|]. split; [exact I|]. split.
      - intros pos path _ _. exists (fun v => if Nat.eqb v (length h) then path else pos v). split.
        + intros v L. destruct (Nat.eqb_spec v (length h)); [lia|reflexivity].
        + intros [|i x] v k Sb; cbn in Sb; [|destruct i; discriminate]. injection Sb as <- <-.
          now rewrite Nat.eqb_refl, app_nil_r.
      - intros VE [|i path] u U1 U2; cbn in U1, U2; [exfalso; apply (NE VE); congruence|]. exfalso.
        destruct n1 as [|a|c1 k1]; [|now destruct (X1 a)|]; [rewrite (V _ N1) in U1; discriminate|].
        destruct n2 as [|a|c2 k2]; [|now destruct (X2 a)|]; [rewrite (V _ N2) in U2; discriminate|].
        rewrite R1 in U1. rewrite R2 in U2. destruct c1; try discriminate. destruct c2; try discriminate. eauto. }
    destruct n1 as [|a|c1 k1]; [|now destruct (X1 a)|].
    { destruct n2 as [|b|c2 k2]; [|now destruct (X2 b)|]; injection E as <- <-; auto. }
    destruct n2 as [|b|c2 k2]; [|now destruct (X2 b)|].
    { destruct c1; injection E as <- <-; auto. }
    assert (D : (c1 = CArrow /\ c2 = CArrow) \/ (Some (new_node h NVar) = Some (c, h') /\
       ~ (c1 = CArrow /\ c2 = CArrow))).
    { destruct c1; try (right; split; [exact E|intros [? ?]; discriminate]).
      destruct c2; try (right; split; [exact E|intros [? ?]; discriminate]). left; auto. }
    destruct D as [[-> ->]|[E' ND]]; [|injection E' as <- <-; apply NEW; intros ? ? [= -> ->] [= -> ->]; tauto].
    destruct (common_list (common fuel veq n) k1 k2 h) as [[[l [s1 s2]] h1]|] eqn:EL; [|discriminate].
    assert (K1 : forall x, In x k1 -> x < length h) by (intros; eapply St; [exact N1|assumption]).
    assert (K2 : forall x, In x k2 -> x < length h) by (intros; eapply St; [exact N2|assumption]).
    destruct (list_ok _ IH k1 k2 h S l s1 s2 h1 G K1 K2 EL) as (S1 & G1 & B & A1 & A2 & P & K & F1 & F2).
    assert (FIN : forall S2 c', grown h S h' S2 -> c' < length h' -> S2 c' = Nd (LCon CArrow) (map S1 l) ->
      common_spec S h p' q' c' h').
    { intros S2 c' G2 Lc Ec. exists S2. split; [assumption|]. split; [assumption|]. rewrite Ec, R1, R2.
      split; [apply above_con; eauto|]. split; [apply above_con; eauto|]. split.
      - intros pos path Q1 Q2. destruct (P pos path 0) as (pos' & Z1 & Z2).
        + intros j t Et. exact (placed_kid _ _ _ _ _ _ Q1 Et).
        + intros j t Et. exact (placed_kid _ _ _ _ _ _ Q2 Et).
        + exists pos'. split; [assumption|]. now apply placed_con.
      - intros VE [|i path] u U1 U2; cbn in U1, U2 |- *.
        + exfalso. apply (NE VE). rewrite R1, R2. congruence.
        + destruct (nth_error (map S k1) i) as [t1|] eqn:Et1; [|discriminate].
          destruct (nth_error (map S k2) i) as [t2|] eqn:Et2; [|discriminate].
          destruct (K VE path u i t1 t2 Et1 Et2 U1 U2) as (t & -> & U). exact U. }
    pose proof (grown_len _ _ _ _ G1) as LL. pose proof G1 as ((St1 & Rd1 & _) & _ & _).
    destruct s1; [|destruct s2].
    + injection E as <- <-. apply (FIN S1); [assumption|lia|].
      rewrite (F1 eq_refl). apply (Rd1 p' (NCon CArrow k1)). exact (grown_nth _ _ _ _ _ _ G1 N1).
    + injection E as <- <-. apply (FIN S1); [assumption|lia|].
      rewrite (F2 eq_refl). apply (Rd1 q' (NCon CArrow k2)). exact (grown_nth _ _ _ _ _ _ G1 N2).
    + injection E as <- <-. apply (FIN (put (length h1) (Nd (LCon CArrow) (map S1 l)) S1)).
      * eapply grown_trans; [exact G1|]. apply grown_new; [apply G1|exact B| |reflexivity|discriminate].
        cbn. rewrite <- (proj2 (proj2 St) _ _ _ N1).
        apply Forall2_len in A1. now rewrite !map_length in A1.
      * rewrite app_length. cbn. lia.
      * apply put_same.
Qed.
End Ar.
