(* Find_Overload_Choice. *)
From Coq Require Import String List Bool Arith Lia.
From Verif Require Import TyModel TyThms InfModel InfSpec InfThms InfRun InfTop InfEnd
  OvModel OvSpec OvPath OvStore OvThms OvEnd ComSpec.
Import ListNotations.
Open Scope list_scope.
Open Scope m_scope.

Section Ar.
Variable ar : con -> nat.
Variable fns : list fn.

Lemma unifiable2 h p q : unifiable h [p; q] <-> exists r, reading h r /\ r p = r q.
Proof.
  split.
  - intros (r & R & t & E). exists r. split; [assumption|]. rewrite (E p), (E q); [reflexivity|right; now left|now left].
  - intros (r & R & E). exists r. split; [assumption|]. exists (r p). intros x [<-|[<-|[]]]; auto.
Qed.

Lemma nth_same {A} (l : list A) : forall k, (forall i, nth_error l i = nth_error k i) -> l = k.
Proof.
  induction l as [|a l IH]; intros [|b k] E; [reflexivity|specialize (E 0); discriminate|specialize (E 0); discriminate|].
  pose proof (E 0) as E0. injection E0 as ->. f_equal. apply IH. intros i. apply (E (S i)).
Qed.
Lemma pop_exact s s1 : ext (push_ctx s) s1 -> length (t_heap s1) = length (t_heap s) -> pop s1 = ROk tt s.
Proof.
  intros X L. destruct (pop_back _ _ X) as (s2 & E & C & L2 & H). unfold pop. rewrite E. f_equal.
  destruct s as [h c], s2 as [h2 c2]. cbn in *. f_equal; [|assumption].
  assert (LL : length h2 = length h).
  { unfold pop_ctx in E. destruct (t_ctx s1); [discriminate|]. injection E as <- <-. now rewrite restore_length. }
  apply nth_same. intros p. destruct (Nat.lt_ge_cases p (length h)) as [Lp|Lp]; [auto|].
  rewrite (proj2 (nth_error_None _ _)), (proj2 (nth_error_None _ _)); auto; lia.
Qed.

Definition attempt {A} (fuel p q : nat) (k : bool -> M A) : M A :=
  push ;; b <- quiet_unify fuel p q ;; pop ;; k b.
Lemma attempt_ok {A} fuel p q (k : bool -> M A) s : store ar (t_heap s) -> p < length (t_heap s) -> q < length (t_heap s) ->
  unify fuel (push_ctx s) p q <> UStuck ->
  exists b, attempt fuel p q k s = k b s /\ (b = true <-> unifiable (t_heap s) [p; q]).
Proof.
  intros St Lp Lq N. assert (O : okst ar (push_ctx s)) by now apply store_push.
  pose proof (unify_spec ar fuel (push_ctx s) p q O Lp Lq) as U.
  unfold attempt, bind, push, quiet_unify.
  destruct (unify fuel (push_ctx s) p q) as [s1|s1| |] eqn:E; cbn in U; [| |destruct U|congruence].
  - destruct U as (O1 & L1 & _ & B). exists true. rewrite (pop_exact s s1); [|apply grows_ext; eapply unify_grows; eauto|assumption].
    split; [reflexivity|]. rewrite unifiable2. split; [intros _|auto].
    destruct (expand_reading (t_heap s1)) as (D & R & _); [apply O1|apply O1|].
    exists (expand D (t_heap s1)). now apply B.
  - destruct U as (O1 & L1 & B). exists false. rewrite (pop_exact s s1); [|apply grows_ext; eapply unify_grows; eauto|assumption].
    split; [reflexivity|]. rewrite unifiable2. split; [discriminate|]. intros (r & R & Er). exfalso. eapply B; eauto.
Qed.

Lemma choices_ok fuel type alts : forall found s, store ar (t_heap s) -> type < length (t_heap s) ->
  (forall g, In g alts -> exists G, nth_error fns g = Some G /\ fn_type G < length (t_heap s)) ->
  choices fuel fns type alts found s = RStuck \/
  exists bs, Forall2 (fun b g => b = true <-> forall G, nth_error fns g = Some G -> unifiable (t_heap s) [type; fn_type G]) bs alts
    /\ choices fuel fns type alts found s =
       ROk (rev (map snd (filter fst (combine bs alts))) ++ found) s.
Proof.
  induction alts as [|g alts IH]; intros found s St Lt LA; cbn [choices].
  - right. exists []. split; [constructor|reflexivity].
  - destruct (LA g (or_introl eq_refl)) as (G & EG & LG). rewrite EG.
    fold (attempt fuel type (fn_type G) (fun b => choices fuel fns type alts (if b then g :: found else found))).
    destruct (unify fuel (push_ctx s) type (fn_type G)) as [s1|s1| |] eqn:E.
    4: { left. unfold attempt, bind, push, quiet_unify. now rewrite E. }
    all: destruct (attempt_ok fuel type (fn_type G) (fun b => choices fuel fns type alts (if b then g :: found else found)) s St Lt LG)
        as (b & EA & EB); [congruence|]; rewrite EA;
      (destruct (IH (if b then g :: found else found) s St Lt) as [ES|(bs & F & ES)];
        [intros; apply LA; now right|now left|]);
      right; exists (b :: bs); (split; [constructor; [|exact F]|]).
    all: try (rewrite EB; split; [intros X G' EG'; congruence|intros X; now apply X]).
    all: rewrite ES; cbn; destruct b; cbn; [now rewrite <- app_assoc|reflexivity].
Qed.

Lemma choices_stops type alts : forall s, store ar (t_heap s) -> type < length (t_heap s) ->
  (forall g, In g alts -> exists G, nth_error fns g = Some G /\ fn_type G < length (t_heap s)) ->
  exists F, forall f found, F <= f -> choices f fns type alts found s <> RStuck.
Proof.
  induction alts as [|g alts IH]; intros s St Lt LA; [exists 0; discriminate|].
  destruct (LA g (or_introl eq_refl)) as (G & EG & LG).
  destruct (IH s St Lt) as (F & H); [intros; apply LA; now right|].
  destruct (unify_stops_aux ar (nvars (t_heap (push_ctx s))) (push_ctx s) type (fn_type G) (store_push _ _ St) (le_n _) Lt LG) as [F2 N].
  exists (F + F2). intros f found Lf. cbn [choices]. rewrite EG.
  fold (attempt f type (fn_type G) (fun b => choices f fns type alts (if b then g :: found else found))).
  destruct (attempt_ok f type (fn_type G) (fun b => choices f fns type alts (if b then g :: found else found)) s St Lt LG)
    as (b & EA & EB).
  - rewrite (unify_mono F2 f (push_ctx s) type (fn_type G) (unify F2 (push_ctx s) type (fn_type G))); auto; lia.
  - rewrite EA. apply H. lia.
Qed.

Lemma one_true (P : nat -> Prop) bs alts f : Forall2 (fun b g => b = true <-> P g) bs alts ->
  let l := rev (map snd (filter fst (combine bs alts))) in
  (exists i g, nth_error alts i = Some g /\ P g /\ (forall j g', nth_error alts j = Some g' -> P g' -> j = i)
     /\ match l with [g] => g | _ => f end = g)
  \/ ((forall i g, nth_error alts i = Some g -> P g ->
         exists j g', j <> i /\ nth_error alts j = Some g' /\ P g') /\ match l with [g] => g | _ => f end = f).
Proof.
  intros F. cbn zeta.
  assert (N : forall bs alts, Forall2 (fun b g => b = true <-> P g) bs alts -> filter fst (combine bs alts) = [] ->
    forall i g, nth_error alts i = Some g -> ~ P g).
  { clear. induction 1 as [|b g bs alts B F IH]; intros E i x Ei X; [destruct i; discriminate|].
    cbn in E. destruct b; cbn in E; [discriminate|]. destruct i as [|i]; cbn in Ei; [|eapply IH; eauto].
    injection Ei as <-. apply B in X. discriminate. }
  assert (O : forall bs alts, Forall2 (fun b g => b = true <-> P g) bs alts -> forall x, filter fst (combine bs alts) = [x] ->
    exists i, nth_error alts i = Some (snd x) /\ P (snd x) /\ forall j g', nth_error alts j = Some g' -> P g' -> j = i).
  { clear - N. induction 1 as [|b g bs alts B F IH]; intros x E; [discriminate|]. cbn in E. destruct b; cbn in E.
    - injection E as <- E. exists 0. split; [reflexivity|]. split; [now apply B|].
      intros [|j] g' Ej X; [reflexivity|]. exfalso. eapply N; eauto.
    - destruct (IH x E) as (i & Ei & Px & U). exists (S i). split; [assumption|]. split; [assumption|].
      intros [|j] g' Ej X; [|f_equal; eapply U; eauto]. injection Ej as <-. apply B in X. discriminate. }
  assert (T : forall bs alts, Forall2 (fun b g => b = true <-> P g) bs alts -> forall x y l, filter fst (combine bs alts) = x :: y :: l ->
    exists i j g g', i <> j /\ nth_error alts i = Some g /\ nth_error alts j = Some g' /\ P g /\ P g').
  { clear. induction 1 as [|b g bs alts B F IH]; intros x y l E; [discriminate|]. cbn in E. destruct b; cbn in E.
    - injection E as <- E. assert (I : In y (filter fst (combine bs alts))) by (rewrite E; now left).
      apply filter_In in I as [I Y]. destruct y as [b' g']. cbn in Y. subst b'.
      assert (K : exists j, nth_error alts j = Some g' /\ P g').
      { clear - F I. induction F as [|b h bs alts B F IH]; [destruct I|]. cbn in I.
        destruct I as [[= -> ->]|I]; [exists 0; split; [reflexivity|now apply B]|].
        destruct (IH I) as (j & Ej & Pj). exists (S j). auto. }
      destruct K as (j & Ej & Pj). exists 0, (S j), g, g'. split; [discriminate|]. split; [reflexivity|].
      split; [assumption|]. split; [now apply B|assumption].
    - destruct (IH _ _ _ E) as (i & j & a & b & D & H). exists (S i), (S j), a, b. split; [congruence|exact H]. }
  destruct (filter fst (combine bs alts)) as [|x [|y l]] eqn:E.
  - right. split; [|reflexivity]. intros i g Ei X. exfalso. eapply N; eauto.
  - left. destruct (O _ _ F x E) as (i & Ei & Px & U). exists i, (snd x). cbn. auto.
  - right. destruct (T _ _ F x y l E) as (i & j & a & b & D & Ei & Ej & Pa & Pb). split.
    + intros k g Ek X. destruct (Nat.eq_dec i k) as [->|Dk]; [exists j, b; auto|exists i, a; auto].
    + cbn. destruct (rev (map snd l)) as [|u [|v w]]; reflexivity.
Qed.

Theorem choice_ok fuel f F type s o s' : store ar (t_heap s) -> type < length (t_heap s) ->
  nth_error fns f = Some F -> fn_type F < length (t_heap s) ->
  (forall g, In g (fn_alts F) -> exists G, nth_error fns g = Some G /\ fn_type G < length (t_heap s)) ->
  find_overload_choice fuel fns f (Some type) s = ROk o s' ->
  match o with
  | None => ~ unifiable (t_heap s) [type; fn_type F] /\ s' = s
  | Some g =>
      unifiable (t_heap s) [type; fn_type F]
      /\ t_ctx s' = t_ctx s /\ store ar (t_heap s')
      /\ (forall r, reading (t_heap s') r <-> reading (t_heap s) r /\ r type = r (fn_type F))
      /\ if fn_over F then
           (exists i, nth_error (fn_alts F) i = Some g /\ can fns (t_heap s) type f g
              /\ forall j g', nth_error (fn_alts F) j = Some g' -> can fns (t_heap s) type f g' -> j = i)
           \/ ((forall i g', nth_error (fn_alts F) i = Some g' -> can fns (t_heap s) type f g' ->
                  exists j h, j <> i /\ nth_error (fn_alts F) j = Some h /\ can fns (t_heap s) type f h) /\ g = f)
         else g = f
  end.
Proof.
  intros St Lt EF LF LA E. unfold find_overload_choice in E. rewrite EF in E. unfold bind in E. cbn [push] in E.
  unfold push, quiet_unify in E.
  assert (O : okst ar (push_ctx s)) by now apply store_push.
  pose proof (unify_spec ar fuel (push_ctx s) type (fn_type F) O Lt LF) as U. cbn in U.
  destruct (unify fuel (push_ctx s) type (fn_type F)) as [s1|s1| |] eqn:EU; cbn in U; [| |discriminate|discriminate].
  - destruct U as (O1 & L1 & _ & B). cbn in L1, B.
    assert (X : ext (push_ctx s) s1) by (apply grows_ext; eapply unify_grows; eauto).
    assert (EP : pop_keep s1 = ROk tt (mkT (t_heap s1) (t_ctx s))).
    { unfold pop_keep, pop_ctx. destruct X as [_ X]. cbn in X. destruct (t_ctx s1) as [|d ctx]; [tauto|].
      now destruct X as [-> _]. }
    rewrite EP in E. set (s2 := mkT (t_heap s1) (t_ctx s)) in *.
    assert (S2 : store ar (t_heap s2)) by exact (okst_store ar s1 O1).
    assert (UN : unifiable (t_heap s) [type; fn_type F]).
    { apply unifiable2. destruct (expand_reading (t_heap s1)) as (D & R & _); [apply O1|apply O1|].
      exists (expand D (t_heap s1)). now apply B. }
    assert (RD : forall r, reading (t_heap s2) r <-> reading (t_heap s) r /\ r type = r (fn_type F)) by exact B.
    destruct (fn_over F) eqn:OV.
    + destruct (choices_ok fuel type (fn_alts F) [] s2 S2) as [ES|(bs & FB & ES)].
      { cbn. lia. }
      { intros g I. destruct (LA g I) as (G & EG & LG). exists G. cbn. split; [assumption|lia]. }
      { rewrite ES in E. discriminate. }
      rewrite ES in E. injection E as <- <-. rewrite app_nil_r.
      assert (FB' : Forall2 (fun b g => b = true <-> can fns (t_heap s) type f g) bs (fn_alts F)).
      { clear - FB RD EF LA. induction FB as [|b g bs alts Hb FB IH]; constructor; [|apply IH; intros; apply LA; now right].
        rewrite Hb. destruct (LA g (or_introl eq_refl)) as (G & EG & LG). unfold can. split.
        - intros X F' G' EF' EG'. specialize (X G' EG'). apply unifiable2 in X as (r & R & Er). apply RD in R as [R Et].
          exists r. split; [assumption|]. exists (r type). rewrite EF in EF'. injection EF' as <-.
          intros p [<-|[<-|[<-|[]]]]; auto.
        - intros X G' EG'. destruct (X F G' EF EG') as (r & R & t & Er). apply unifiable2. exists r.
          split; [apply RD; split; [assumption|]|]; (rewrite (Er type); [symmetry; apply Er; cbn; auto|now left]). }
      split; [assumption|]. split; [reflexivity|]. split; [assumption|]. split; [assumption|].
      destruct (one_true _ _ _ f FB') as [(i & g & Ei & Pg & Un & ->)|[NU ->]]; [left|right; auto].
      exists i. auto.
    + injection E as <- <-. split; [assumption|]. split; [reflexivity|]. auto.
  - destruct U as (O1 & L1 & B). rewrite (pop_exact s s1) in E; [|apply grows_ext; eapply unify_grows; eauto|exact L1].
    injection E as <- <-. split; [|reflexivity]. rewrite unifiable2. intros (r & R & Er). eapply B; eauto.
Qed.

Theorem choice_answers f F type s : store ar (t_heap s) -> type < length (t_heap s) ->
  nth_error fns f = Some F -> fn_type F < length (t_heap s) ->
  (forall g, In g (fn_alts F) -> exists G, nth_error fns g = Some G /\ fn_type G < length (t_heap s)) ->
  exists n, forall fuel, n <= fuel -> exists o s', find_overload_choice fuel fns f (Some type) s = ROk o s'.
Proof.
  intros St Lt EF LF LA. assert (O : okst ar (push_ctx s)) by now apply store_push.
  destruct (unify_stops_aux ar (nvars (t_heap (push_ctx s))) (push_ctx s) type (fn_type F) O (le_n _) Lt LF) as [n1 N].
  pose proof (unify_spec ar n1 (push_ctx s) type (fn_type F) O Lt LF) as U. cbn in U.
  assert (MO : forall fuel, n1 <= fuel -> unify fuel (push_ctx s) type (fn_type F) = unify n1 (push_ctx s) type (fn_type F)).
  { intros fuel L. apply (unify_mono n1); auto. }
  destruct (unify n1 (push_ctx s) type (fn_type F)) as [s1|s1| |] eqn:EU; cbn in U; [| |destruct U|congruence].
  - destruct U as (O1 & L1 & _ & B). cbn in L1.
    assert (X : ext (push_ctx s) s1) by (apply grows_ext; eapply unify_grows; eauto).
    assert (EP : pop_keep s1 = ROk tt (mkT (t_heap s1) (t_ctx s))).
    { unfold pop_keep, pop_ctx. destruct X as [_ X]. cbn in X. destruct (t_ctx s1) as [|d ctx]; [tauto|].
      now destruct X as [-> _]. }
    set (s2 := mkT (t_heap s1) (t_ctx s)) in *. assert (S2 : store ar (t_heap s2)) by exact (okst_store ar s1 O1).
    assert (LA2 : forall g, In g (fn_alts F) -> exists G, nth_error fns g = Some G /\ fn_type G < length (t_heap s2)).
    { intros g I. destruct (LA g I) as (G & EG & LG). exists G. cbn. split; [assumption|lia]. }
    assert (Lt2 : type < length (t_heap s2)) by (cbn; lia).
    destruct (choices_stops type (fn_alts F) s2 S2 Lt2 LA2) as (n2 & C). exists (n1 + n2). intros fuel L.
    unfold find_overload_choice. rewrite EF. unfold bind, push, quiet_unify. rewrite MO by lia. rewrite EP.
    destruct (fn_over F); [|unfold ret; eauto].
    destruct (choices_ok fuel type (fn_alts F) [] s2 S2 Lt2 LA2) as [ES|(bs & FB & ES)].
    { exfalso. apply (C fuel [] ltac:(lia)). exact ES. }
    rewrite ES. unfold ret. eauto.
  - destruct U as (O1 & L1 & B). exists n1. intros fuel L.
    unfold find_overload_choice. rewrite EF. unfold bind, push, quiet_unify. rewrite MO by lia.
    rewrite (pop_exact s s1); [|apply grows_ext; eapply unify_grows; eauto|exact L1]. unfold ret. eauto.
Qed.
End Ar.
