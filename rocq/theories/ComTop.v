(* Get_common_type answers, and its answer is at least as general as every alternative. *)
From Coq Require Import String List Bool Arith Lia Relations Wellfounded.
From Verif Require Import TyModel TyThms InfModel InfSpec InfThms InfRun InfTop InfEnd
  OvModel OvSpec OvPath OvStore OvThms OvEnd ComModel ComSpec ComThms.
Import ListNotations.
Open Scope list_scope.

Lemma asub_inst f path : forall t u, asub t path = Some u -> asub (inst f t) path = Some (inst f u).
Proof.
  induction path as [|i path IH]; intros t u E; cbn in *; [congruence|].
  destruct t as [[v|c] k]; [discriminate|]. destruct c; try discriminate. cbn. rewrite nth_error_map.
  destruct (nth_error k i) as [t|]; [|discriminate]. cbn. auto.
Qed.

Section Ar.
Variable ar : con -> nat.
Section Fuel.
Variable fuel : nat.
Variable veq : heap -> nat -> nat -> bool.

Lemma summary_ok cores : forall p h S q h', good ar h S -> p < length h -> (forall c, In c cores -> c < length h) ->
  summary fuel veq p cores h = Some (q, h') ->
  exists S', grown ar h S h' S' /\ q < length h'
    /\ (forall c, In c (p :: cores) -> above (S' q) (S c))
    /\ (forall pos, (forall c, In c (p :: cores) -> placed_at pos [] (S c)) -> exists pos', placed_at pos' [] (S' q))
    /\ ((forall h p, veq h p p = true) -> forall path u,
        (forall c, In c (p :: cores) -> asub (S c) path = Some u) -> asub (S' q) path = Some u).
Proof.
  induction cores as [|c cores IH]; intros p h S q h' G Lp Lc E; cbn in E.
  - injection E as <- <-. exists S. split; [now apply grown_refl|]. split; [assumption|]. split; [|split].
    + intros c [<-|[]]. apply above_refl.
    + intros pos P. exists pos. apply P. now left.
    + intros _ path u U. apply U. now left.
  - destruct (common fuel veq fuel p c h) as [[p1 h1]|] eqn:E1; [|discriminate].
    destruct (common_ok ar fuel veq fuel p c h S p1 h1 G Lp (Lc c (or_introl eq_refl)) E1)
      as (S1 & G1 & L1 & A1 & A2 & P1 & K1).
    pose proof (grown_len _ _ _ _ _ G1) as LL.
    destruct (IH p1 h1 S1 q h') as (S2 & G2 & L2 & A3 & P2 & K2); [apply G1|assumption| |exact E|].
    { intros x I. specialize (Lc x (or_intror I)). lia. }
    assert (AG : forall x, In x cores -> S1 x = S x).
    { intros x I. destruct G1 as (_ & _ & AG). apply AG, Lc. now right. }
    exists S2. split; [eapply grown_trans; eauto|]. split; [assumption|]. split; [|split].
    + intros x [<-|[<-|I]].
      * eapply above_trans; [apply A3; now left|exact A1].
      * eapply above_trans; [apply A3; now left|exact A2].
      * rewrite <- AG by assumption. apply A3. now right.
    + intros pos P. destruct (P1 pos []) as (pos1 & X1 & Y1); [apply P; now left|apply P; right; now left|].
      apply (P2 pos1). intros x [<-|I]; [assumption|]. rewrite AG by assumption.
      apply (placed_more ar h S pos); auto; [apply Lc; now right|]. apply P. right. now right.
    + intros VE path u U. apply K2; [assumption|]. intros x [<-|I].
      * apply K1; auto; apply U; [now left|right; now left].
      * rewrite AG by assumption. apply U. right. now right.
Qed.

Theorem common_type_ok dflt cores h sigma q g : good ar h sigma ->
  (forall c, In c (all dflt cores) -> c < length h) ->
  get_common_type fuel veq dflt cores h = Some (q, g) ->
  store ar g /\ (exists t, g = h ++ t) /\ q < length g
  /\ ((exists pos, forall c, In c (all dflt cores) -> placed pos (sigma c)) ->
      forall S, reading g S -> (forall p, nth_error g p = Some NVar -> S p = Nd (LVar p) []) ->
      forall c, In c (all dflt cores) -> exists w, S c = inst w (S q))
  /\ ((forall h p, veq h p p = true) -> all dflt cores <> [] -> forall path u,
      (forall c, In c (all dflt cores) -> asub (sigma c) path = Some u) ->
      forall r, reading g r -> exists f, asub (r q) path = Some (inst f u)).
Proof.
  intros G L E. unfold get_common_type in E. destruct cores as [|c0 cores].
  - destruct dflt as [t|]; injection E as <- <-.
    + split; [apply G|]. split; [exists []; now rewrite app_nil_r|]. split; [apply L; now left|]. split.
      * intros _ S R V c [<-|[]]. exists S. eapply reading_types; eauto; [apply G|apply L; now left].
      * intros _ _ path u U r R. exists r.
        rewrite (reading_types ar h sigma r) by (first [apply G|assumption|apply L; now left]).
        apply asub_inst, U. now left.
    + split; [apply store_new; [apply G|intros ? []|exact I]|]. split; [eauto|].
      split; [rewrite app_length; cbn; lia|]. split; [intros _ S R V c []|]. intros _ N. now destruct N.
  - set (p0 := match dflt with None => c0 | Some t => t end) in *.
    destruct (summary fuel veq p0 (c0 :: cores) h) as [[p h1]|] eqn:E1; [|discriminate].
    assert (IN : forall x, In x (p0 :: c0 :: cores) <-> In x (all dflt (c0 :: cores))).
    { intros x. unfold p0, all. destruct dflt; [tauto|]. cbn. tauto. }
    destruct (summary_ok (c0 :: cores) p0 h sigma p h1 G) as (S1 & G1 & L1 & A & P & K); [| |exact E1|].
    { apply L, IN. now left. }
    { intros x I. apply L, IN. now right. }
    destruct G1 as (G1 & (t1 & T1) & AG).
    destruct (copy_type_spec ar h1 S1 (proj1 (proj2 G1)) (proj2 (proj2 G1)) (proj1 G1) _ _ _ _ _ E (proj1 G1))
      as (Sg & (t2 & T2) & Lq & B & Fq & Cq).
    split; [assumption|]. split; [exists (t1 ++ t2); now rewrite T2, T1, app_assoc|]. split; [assumption|]. split.
    + intros (pos & PL) S R V c I. specialize (L c I). apply IN in I. pose proof (A c I) as Ac.
      destruct (P pos) as (pos' & P').
      { intros x Ix. intros pa v k Sb. cbn. apply IN in Ix. eapply PL; eauto. }
      pose proof (above_inst pos' (sigma c) (S1 p) [] (sigma c) P' Ac eq_refl) as EI.
      set (w := fun v => match sub (sigma c) (pos' v) with Some u => u | None => Nd (LVar v) [] end) in *.
      destruct (Cq S (fun v => inst S (w v)) (B _ R)) as (r' & R' & Ag & Eq).
      exists r'. rewrite <- (reading_types ar g S r' Sg R V R' q Lq), Eq, <- inst_inst, EI.
      assert (Eh : reading h S).
      { apply reading_prefix with t1. rewrite <- T1. auto. }
      rewrite <- (reading_types ar h sigma S (proj1 G) (proj1 (proj2 G)) (proj2 (proj2 G)) Eh c L). reflexivity.
    + intros VE _ path u U r R. destruct (Fq r R) as (f & ->). exists f. apply asub_inst, K; [assumption|].
      intros c I. apply U, IN, I.
Qed.
End Fuel.

(* ---- it answers ---- *)
Variable veq : heap -> nat -> nat -> bool.

Lemma get_real_app f h t p q : get_real f h p = Some q -> get_real f (h ++ t) p = Some q.
Proof.
  revert p. induction f as [|f IH]; intros p E; cbn in *; [discriminate|].
  destruct (nth_error h p) as [n|] eqn:N; [|discriminate].
  rewrite nth_error_app1, N by (eapply nth_lt; eauto). destruct n; auto.
Qed.

Lemma common_total h p : in_range h -> acyclic h -> p < length h -> forall t S q, good ar (h ++ t) S ->
  q < length (h ++ t) -> exists F x, forall f n, F <= f -> F <= n -> common f veq n p q (h ++ t) = Some x.
Proof.
  intros IR AC.
  pose proof (Acc_clos_trans _ _ _ (AC p)) as W. induction W as [p _ IH]. intros Lp t S q G Lq.
  destruct (get_real_total h p (AC p) IR Lp) as (f1 & p' & Ep0).
  assert (Gs := G). destruct Gs as ((IRt & ACt & ARt) & R & V).
  destruct (get_real_total (h ++ t) q (ACt q) IRt Lq) as (f2 & q' & Eq).
  destruct (get_real_sound _ _ _ _ Ep0) as [(n1 & N1 & X1) _].
  destruct (get_real_sound _ _ _ _ Eq) as [(n2 & N2 & X2) _].
  pose proof (get_real_app f1 h t p p' Ep0) as Ep.
  assert (N1' : nth_error (h ++ t) p' = Some n1) by (rewrite nth_error_app1; [assumption|eapply nth_lt; eauto]).
  destruct (type_eq_total (veq (h ++ t)) (h ++ t) IRt ACt p' q') as (f3 & b & ET).
  { eapply nth_lt; eauto. }
  { eapply nth_lt; eauto. }
  assert (Gen : forall f n, f1 <= f -> f2 <= f -> f3 <= f -> common f veq (Datatypes.S n) p q (h ++ t) =
    if b then Some (p', h ++ t) else
    match n1, n2 with
    | NCon CArrow k1, NCon CArrow k2 =>
        match common_list (common f veq n) k1 k2 (h ++ t) with
        | None => None
        | Some (l, (s1, s2), h) =>
            if (s1 : bool) then Some (p', h)
            else if (s2 : bool) then Some (q', h)
            else Some (new_node h (NCon CArrow l))
        end
    | NVar, _ => Some (p', h ++ t)
    | _, NVar => Some (q', h ++ t)
    | _, _ => Some (new_node (h ++ t) NVar)
    end).
  { intros f n A B C. cbn [common]. rewrite (get_real_mono f1 f _ _ _ A Ep), (get_real_mono f2 f _ _ _ B Eq).
    rewrite (type_eq_mono f3 f _ _ _ _ _ C ET), N1', N2. destruct b; [reflexivity|].
    destruct n1 as [|a|[] k1], n2 as [|a'|[] k2]; reflexivity. }
  destruct b.
  { exists (Datatypes.S (f1 + f2 + f3)), (p', h ++ t). intros f [|n] A B; [lia|]. apply Gen; lia. }
  destruct n1 as [|a|c1 k1]; [|now destruct (X1 a)|].
  { exists (Datatypes.S (f1 + f2 + f3)), (p', h ++ t). intros f [|n] A B; [lia|]. apply Gen; lia. }
  destruct n2 as [|a|c2 k2]; [|now destruct (X2 a)|].
  { exists (Datatypes.S (f1 + f2 + f3)), (q', h ++ t). intros f [|n] A B; [lia|]. rewrite Gen by lia. now destruct c1. }
  assert (D : (c1 = CArrow /\ c2 = CArrow) \/ forall X Y : option (nat * heap),
    match c1 with CArrow => match c2 with CArrow => X | _ => Y end | _ => Y end = Y).
  { destruct c1; auto. destruct c2; auto. }
  destruct D as [[-> ->]|D].
  2: { exists (Datatypes.S (f1 + f2 + f3)), (new_node (h ++ t) NVar). intros f [|n] A B; [lia|].
       rewrite Gen by lia. destruct c1; auto. }
  assert (K : exists F x, forall f n, F <= f -> F <= n -> common_list (common f veq n) k1 k2 (h ++ t) = Some x).
  { assert (K1 : forall a, In a k1 -> clos_trans _ (child h) a p).
    { intros a I. eapply child_real; [exact Ep0|]. exists (NCon CArrow k1). auto. }
    assert (K2 : forall a, In a k1 -> a < length h) by (intros; eapply IR; [exact N1|assumption]).
    assert (K3 : forall a, In a k2 -> a < length (h ++ t)) by (intros; eapply IRt; [exact N2|assumption]).
    assert (LE : length k1 = length k2) by (rewrite (ARt _ _ _ N1'), (ARt _ _ _ N2); reflexivity).
    clear - IH K1 K2 K3 G LE. revert k2 K3 LE. induction k1 as [|a k1 IHk]; intros [|b k2] K3 LE; try discriminate.
    { exists 0. eexists. reflexivity. }
    destruct IHk with (k2 := k2) as (F1 & [[l [s1 s2]] h1] & E1).
    { intros; apply K1; now right. }
    { intros; apply K2; now right. }
    { intros; apply K3; now right. }
    { now injection LE. }
    assert (LS : list_spec ar veq S (h ++ t) k1 k2 l s1 s2 h1).
    { eapply (list_ok ar veq (common F1 veq F1)); [apply common_ok|assumption| | |now apply E1].
      - intros x I. rewrite app_length. specialize (K2 x (or_intror I)). lia.
      - intros x I. apply K3. now right. }
    destruct LS as (S1 & G1 & _). pose proof (grown_len _ _ _ _ _ G1) as LL.
    destruct G1 as (G1 & (t1 & ->) & _). rewrite <- app_assoc in *.
    destruct (IH a (K1 a (or_introl eq_refl)) (K2 a (or_introl eq_refl)) (t ++ t1) S1 b G1) as (F2 & [c h2] & E2).
    { specialize (K3 b (or_introl eq_refl)). rewrite !app_length in *. lia. }
    exists (F1 + F2), (c :: l, (s1 && Nat.eqb c a, s2 && Nat.eqb c b), h2).
    intros f n A B. cbn. rewrite E1 by lia. rewrite E2 by lia. reflexivity. }
  destruct K as (F & [[l [s1 s2]] h1] & E). exists (Datatypes.S (F + f1 + f2 + f3)). eexists.
  intros f [|n] A B; [lia|]. rewrite Gen by lia. rewrite E by lia.
  instantiate (1 := if s1 then (p', h1) else if s2 then (q', h1) else new_node h1 (NCon CArrow l)).
  now destruct s1, s2.
Qed.

Lemma summary_total cores : forall p h S, good ar h S -> p < length h -> (forall c, In c cores -> c < length h) ->
  exists F q h', q < length h' /\ (exists S', good ar h' S') /\ forall f, F <= f -> summary f veq p cores h = Some (q, h').
Proof.
  induction cores as [|c cores IH]; intros p h S G Lp Lc.
  - exists 0, p, h. split; [assumption|]. split; [eauto|reflexivity].
  - destruct (common_total h p) with (t := @nil tnode) (S := S) (q := c) as (F & [p1 h1] & E);
      [apply G|apply G|assumption|now rewrite app_nil_r|rewrite app_nil_r; apply Lc; now left|].
    rewrite app_nil_r in E.
    destruct (common_ok ar F veq F p c h S p1 h1 G Lp (Lc c (or_introl eq_refl)) (E F F (le_n _) (le_n _)))
      as (S1 & G1 & L1 & _). pose proof (grown_len _ _ _ _ _ G1) as LL.
    destruct (IH p1 h1 S1) as (F' & q & h' & Lq & G' & E'); [apply G1|assumption| |].
    { intros x I. specialize (Lc x (or_intror I)). lia. }
    exists (F + F'), q, h'. split; [assumption|]. split; [assumption|].
    intros f Lf. cbn. rewrite E by lia. apply E'. lia.
Qed.

Theorem common_type_total dflt cores h S : good ar h S -> (forall c, In c (all dflt cores) -> c < length h) ->
  exists F x, forall f, F <= f -> get_common_type f veq dflt cores h = Some x.
Proof.
  intros G L. destruct cores as [|c0 cores].
  - exists 0. destruct dflt; cbn; eauto.
  - unfold get_common_type.
    destruct (summary_total (c0 :: cores) (match dflt with None => c0 | Some t => t end) h S G)
      as (F & q & h' & Lq & (S' & G') & E).
    { apply L. destruct dflt; now left. }
    { intros x I. apply L. destruct dflt; [now right|assumption]. }
    destruct (copy_total ar h' (proj1 G') q Lq) as (F2 & C).
    destruct (C [] h') as ([[q2 m] h2] & EC).
    exists (F + F2), (q2, h2). intros f Lf. rewrite E by lia. unfold copy_type.
    now rewrite (copy_mono _ F2 f _ _ _ _ ltac:(lia) EC).
Qed.
End Ar.
