(* Proofs on parametric representations. *)
From Coq Require Import List Bool Arith Lia Sorting.Sorted.
From Verif Require Import ParamModel ParamSpec.
Import ListNotations.

Lemma value_ext f e1 e2 : (forall v, on v f -> e1 v = e2 v) -> value f e1 = value f e2.
Proof.
  induction f as [b|v H IH L IL]; intros Q; [reflexivity|]. cbn.
  rewrite (Q v) by constructor. destruct (e2 v).
  - apply IH. intros w W. apply Q. now apply on_high.
  - apply IL. intros w W. apply Q. now apply on_low.
Qed.

Lemma occurs_on v f : occurs v f = true <-> on v f.
Proof.
  induction f as [b|w H IH L IL]; cbn; [split; [discriminate|intros Q; inversion Q]|].
  rewrite !orb_true_iff, IH, IL, Nat.eqb_eq. split.
  - intros [[->|Q]|Q]; now constructor.
  - intros Q. inversion Q; auto.
Qed.

Lemma is_F_spec f : is_F f = true <-> f = Leaf false.
Proof. destruct f as [[]|]; cbn; split; congruence. Qed.

Lemma find_split v l : In v l -> exists un rest,
  l = un ++ v :: rest /\ find_first v l = Some (S (length un)) /\ ~ In v un.
Proof.
  induction l as [|w l IH]; intros I; [destruct I|]. cbn. destruct (Nat.eqb_spec v w) as [<-|N].
  - exists [], l. repeat split. intros [].
  - destruct I as [->|I]; [congruence|]. destruct (IH I) as (un & rest & -> & F & X).
    exists (w :: un), rest. rewrite F. repeat split. intros [->|Y]; [congruence|]. now apply X.
Qed.

Lemma cond_list_spec v : forall l1 l2, length l1 = length l2 ->
  exists l, cond_list v l1 l2 = Some l /\ length l = length l1 /\
    forall e, map (fun g : fn => g e) l = if e v then map (fun g : fn => g e) l1 else map (fun g : fn => g e) l2.
Proof.
  induction l1 as [|f l1 IH]; intros [|g l2] E; try discriminate; cbn.
  - exists []. repeat split. intros e. now destruct (e v).
  - destruct (IH l2) as (l & Q & N & V); [now injection E|]. rewrite Q. cbn.
    eexists. split; [reflexivity|]. split; [cbn; now rewrite N|]. intros e. cbn. rewrite V.
    unfold variable. now destruct (e v).
Qed.

(* substitution by values *)
Fixpoint asg (vs : list nat) (bs : list bool) (e : env) (v : nat) : bool :=
  match vs, bs with
  | w :: vs, b :: bs => if v =? w then b else asg vs bs e v
  | _, _ => e v
  end.
Lemma subst_asg vs : forall l e v, length l = length vs ->
  subst (combine vs l) e v = asg vs (map (fun g : fn => g e) l) e v.
Proof.
  induction vs as [|w vs IH]; intros [|g l] e v E; try discriminate; [reflexivity|].
  cbn. destruct (v =? w); [reflexivity|]. apply IH. now injection E.
Qed.
Lemma asg_id vs : forall e v, asg vs (map e vs) e v = e v.
Proof. induction vs as [|w vs IH]; intros e v; cbn; [reflexivity|]. destruct (Nat.eqb_spec v w) as [->|]; auto. Qed.
Lemma asg_app un : forall bs rest cs e v, length bs = length un -> ~ In v un ->
  asg (un ++ rest) (bs ++ cs) e v = asg rest cs e v.
Proof.
  induction un as [|w un IH]; intros [|b bs] rest cs e v E N; try discriminate; [reflexivity|]. cbn in *.
  destruct (Nat.eqb_spec v w) as [->|_]; [exfalso; apply N; now left|]. apply IH; [now injection E|tauto].
Qed.

Lemma sorted_app (l1 l2 : list nat) : StronglySorted lt (l1 ++ l2) ->
  StronglySorted lt l2 /\ forall x y, In x l1 -> In y l2 -> x < y.
Proof.
  induction l1 as [|a l1 IH]; intros S; [split; [exact S|intros x y []]|].
  inversion S as [|? ? S' F]; subst. destruct (IH S') as [A B]. split; [exact A|].
  intros x y [->|X] Y; [|now apply B]. rewrite Forall_forall in F. apply F. apply in_or_app. now right.
Qed.

Lemma parametric_spec f : forall rem, robdd f -> f <> Leaf false -> StronglySorted lt rem ->
  (forall v, on v f -> In v rem) ->
  exists l, parametric rem f = Some l /\ length l = length rem /\
    (forall e, value f (asg rem (map (fun g : fn => g e) l) e) = true) /\
    (forall e, value f e = true -> map (fun g : fn => g e) l = map e rem).
Proof.
  induction f as [b|v H IH L IL]; intros rem R N S0 I.
  - destruct b; [|congruence]. exists (map variable rem).
    assert (V : forall e, map (fun g : fn => g e) (map variable rem) = map e rem)
      by (intros e; rewrite map_map; reflexivity).
    destruct rem as [|w rem]; (split; [reflexivity|]; split; [now rewrite map_length|]; split; [reflexivity|]; auto).
  - inversion R as [|? ? ? RH RL HL O]; subst.
    destruct (find_split v rem) as (un & rest & E & F & X); [apply I; constructor|].
    assert (D : parametric rem (Node v H L) =
      option_map (app (map variable un))
                (if is_F H then option_map (cons (constant false)) (parametric rest L)
                 else if is_F L then option_map (cons (constant true)) (parametric rest H)
                 else
                   match parametric rest H with
                   | None => None
                   | Some Hres =>
                       match parametric rest L with
                       | None => None
                       | Some Lres => option_map (cons (variable v)) (cond_list v Hres Lres)
                       end
                   end)).
    { assert (A : firstn (S (length un) - 1) rem = un)
        by (rewrite E; cbn [Nat.sub]; rewrite Nat.sub_0_r, firstn_app, Nat.sub_diag, firstn_all; cbn; apply app_nil_r).
      assert (B : skipn (S (length un)) rem = rest).
      { rewrite E. replace (un ++ v :: rest) with ((un ++ [v]) ++ rest) by now rewrite <- app_assoc.
        replace (S (length un)) with (length (un ++ [v])) by (rewrite app_length; cbn; lia).
        now rewrite skipn_app, Nat.sub_diag, skipn_all. }
      destruct rem as [|w rem]; [destruct un; discriminate|]. cbn [parametric]. rewrite F. cbv zeta.
      rewrite A, B. reflexivity. }
    rewrite D. clear D F.
    rewrite E in S0. destruct (sorted_app un (v :: rest) S0) as [S1 S2].
    inversion S1 as [|? ? S3 S4]; subst.
    assert (IR : forall w, on w H \/ on w L -> In w rest).
    { intros w W. assert (Y : In w (un ++ v :: rest)) by (apply I; destruct W; [now apply on_high|now apply on_low]).
      specialize (O w W). apply in_app_or in Y. destruct Y as [Y|[Y|Y]]; [|lia|exact Y].
      specialize (S2 w v Y (or_introl eq_refl)). lia. }
    (* the parts common to the cases *)
    assert (K : forall (g : fn) r, length r = length rest ->
      (forall e, let e' := asg rest (map (fun g : fn => g e) r) e in
         (if g e then value H e' else value L e') = true) ->
      (forall e, value (Node v H L) e = true -> g e = e v /\ map (fun g : fn => g e) r = map e rest) ->
      exists l, Some (map variable un ++ g :: r) = Some l /\ length l = length (un ++ v :: rest) /\
        (forall e, value (Node v H L) (asg (un ++ v :: rest) (map (fun g : fn => g e) l) e) = true) /\
        (forall e, value (Node v H L) e = true -> map (fun g : fn => g e) l = map e (un ++ v :: rest))).
    { intros g r LR P1 P2. eexists. split; [reflexivity|].
      split; [rewrite !app_length, map_length; cbn; now rewrite LR|]. split.
      - intros e. rewrite map_app. cbn [map].
        assert (LU : length (map (fun g : fn => g e) (map variable un)) = length un) by now rewrite !map_length.
        set (e1 := asg _ _ _).
        assert (V1 : e1 v = g e).
        { unfold e1. rewrite asg_app by assumption. cbn. now rewrite Nat.eqb_refl. }
        assert (V2 : forall w, on w H \/ on w L -> e1 w = asg rest (map (fun g : fn => g e) r) e w).
        { intros w W. pose proof (O w W) as Q. unfold e1. rewrite asg_app; [|exact LU|].
          - cbn. destruct (Nat.eqb_spec w v); [lia|reflexivity].
          - intros Y. specialize (S2 w v Y (or_introl eq_refl)). lia. }
        cbn [value]. rewrite V1, <- (P1 e). cbv zeta. destruct (g e); apply value_ext; intros w W; apply V2; auto.
      - intros e V. destruct (P2 e V) as [G M]. rewrite !map_app. cbn [map]. rewrite G, M, map_map. reflexivity. }
    destruct (is_F H) eqn:FH; [|destruct (is_F L) eqn:FL].
    + apply is_F_spec in FH. subst H.
      destruct (IL rest) as (r & Q & LR & P1 & P2); [exact RL|congruence|exact S3|auto|]. rewrite Q.
      apply (K (constant false) r LR); [exact P1|]. intros e. cbn. destruct (e v); [discriminate|]. auto.
    + apply is_F_spec in FL. subst L.
      destruct (IH rest) as (r & Q & LR & P1 & P2); [exact RH|congruence|exact S3|auto|]. rewrite Q.
      apply (K (constant true) r LR); [exact P1|]. intros e. cbn. destruct (e v); [|discriminate]. auto.
    + destruct (IH rest) as (r1 & Q1 & L1 & P1 & P2);
        [exact RH|intros Z; apply is_F_spec in Z; congruence|exact S3|auto|].
      destruct (IL rest) as (r2 & Q2 & L2 & P3 & P4);
        [exact RL|intros Z; apply is_F_spec in Z; congruence|exact S3|auto|].
      rewrite Q1, Q2. destruct (cond_list_spec v r1 r2) as (r & Q & LR & V); [congruence|]. rewrite Q.
      apply (K (variable v) r); [congruence| |].
      * intros e. cbv zeta. rewrite V. unfold variable. destruct (e v); [apply P1|apply P3].
      * intros e T. split; [reflexivity|]. rewrite V. cbn in T. destruct (e v); [now apply P2|now apply P4].
Qed.

Lemma filter_sorted (p : nat -> bool) l : StronglySorted lt l -> StronglySorted lt (filter p l).
Proof.
  induction 1 as [|a l S IH F]; cbn; [constructor|]. destruct (p a); [|exact IH].
  constructor; [exact IH|]. rewrite Forall_forall in *. intros x X. apply F. apply filter_In in X. tauto.
Qed.
Lemma seq_sorted n : forall k, StronglySorted lt (seq k n).
Proof.
  induction n as [|n IH]; intros k; cbn; constructor; [apply IH|].
  rewrite Forall_forall. intros x X. apply in_seq in X. lia.
Qed.

Lemma depends_sorted n f : StronglySorted lt (depends n f).
Proof. apply filter_sorted, seq_sorted. Qed.
Lemma depends_in n f v : below n f -> (In v (depends n f) <-> on v f).
Proof.
  intros B. unfold depends. rewrite filter_In, occurs_on, in_seq. split; [tauto|].
  intros O. specialize (B v O). split; [lia|exact O].
Qed.

Lemma map_fst_combine {A B} (l1 : list A) : forall (l2 : list B), length l2 = length l1 -> map fst (combine l1 l2) = l1.
Proof. induction l1 as [|a l1 IH]; intros [|b l2] E; try discriminate; cbn; [reflexivity|]. rewrite IH; [reflexivity|now injection E]. Qed.

Lemma param_spec n f : robdd f -> below n f -> f <> Leaf false ->
  exists res, param n f = Some res /\
    (StronglySorted lt (map fst res) /\ forall v, In v (map fst res) <-> on v f) /\
    (forall e, value f (subst res e) = true) /\
    (forall e, value f e = true -> forall v, subst res e v = e v).
Proof.
  intros R B N. unfold param. destruct (is_F f) eqn:F; [now apply is_F_spec in F|]. cbv zeta.
  destruct (parametric_spec f (depends n f)) as (l & E & LL & P & Q);
    [exact R|exact N|apply depends_sorted|intros v; now apply depends_in|].
  rewrite E. cbn [option_map]. eexists. split; [reflexivity|]. rewrite map_fst_combine by exact LL. split.
  - split; [apply depends_sorted|]. intros v. now apply depends_in.
  - split.
    + intros e. rewrite <- (P e). apply value_ext. intros v _. now apply subst_asg.
    + intros e V v. rewrite subst_asg by exact LL. rewrite (Q e V). apply asg_id.
Qed.

Lemma param_F n : param n (Leaf false) = None.
Proof. reflexivity. Qed.
