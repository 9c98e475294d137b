(** * Heaps and the trees in them *)

From Coq Require Import String List Bool Arith ZArith Lia.
From Verif Require Import GredModel GredSpec GredConf GredFail.
Import ListNotations.
Open Scope list_scope.
Open Scope nat_scope.

(** ** Reading and writing *)

Lemma upd_length h a f : length (upd h a f) = length h.
Proof. revert a. induction h as [|c h IHh]; intros [|a]; cbn; auto. Qed.

Lemma upd_same h a f : nth_error (upd h a f) a = option_map f (nth_error h a).
Proof. revert a. induction h as [|c h IHh]; intros [|a]; cbn; auto. Qed.

Lemma upd_other h a b f : a <> b -> nth_error (upd h a f) b = nth_error h b.
Proof.
  revert a b. induction h as [|c h IHh]; intros [|a] [|b] N; cbn; auto; try congruence.
Qed.

Lemma get_lt h a n : get h a = Some n -> a < length h.
Proof.
  unfold get. destruct (nth_error h a) eqn:E; [|discriminate].
  intros _. apply nth_error_Some. congruence.
Qed.

Lemma get_set_same h a n m : get h a = Some m -> get (set_nd h a n) a = Some n.
Proof.
  unfold get, set_nd. rewrite upd_same. destruct (nth_error h a); [reflexivity|discriminate].
Qed.

Lemma get_set_other h a b n : a <> b -> get (set_nd h a n) b = get h b.
Proof. intros N. unfold get, set_nd. now rewrite upd_other. Qed.

Lemma forced_set h a b n : is_forced (set_nd h a n) b = is_forced h b.
Proof.
  unfold is_forced, set_nd. destruct (Nat.eq_dec a b) as [->|N].
  - rewrite upd_same. now destruct (nth_error h b).
  - now rewrite upd_other.
Qed.

Lemma set_length h a n : length (set_nd h a n) = length h.
Proof. apply upd_length. Qed.

Lemma get_make h a b : get (make_forced h a) b = get h b.
Proof.
  unfold get, make_forced. destruct (Nat.eq_dec a b) as [->|N].
  - rewrite upd_same. now destruct (nth_error h b).
  - now rewrite upd_other.
Qed.

Lemma forced_make h a b :
  is_forced (make_forced h a) b = true -> is_forced h b = true \/ a = b.
Proof.
  unfold is_forced, make_forced. destruct (Nat.eq_dec a b) as [->|N]; [auto|].
  rewrite upd_other; auto.
Qed.

Lemma get_new h c x : x < length h -> get (h ++ [c]) x = get h x.
Proof. intros L. unfold get. now rewrite nth_error_app1. Qed.

Lemma get_new_last h c : get (h ++ [c]) (length h) = Some (nd c).
Proof. unfold get. rewrite nth_error_app2, Nat.sub_diag by lia. reflexivity. Qed.

Lemma upd_upd h a n m : set_nd (set_nd h a n) a m = set_nd h a m.
Proof.
  revert a. induction h as [|c h IHh]; intros [|a]; cbn; auto. f_equal. apply IHh.
Qed.

Lemma nth_error_ext' {A} (l l' : list A) :
  (forall i, nth_error l i = nth_error l' i) -> l = l'.
Proof.
  revert l'. induction l as [|a l IHl]; intros [|b l'] H.
  - reflexivity.
  - specialize (H 0). discriminate H.
  - specialize (H 0). discriminate H.
  - f_equal; [now injection (H 0)|]. apply IHl. intros i. apply (H (S i)).
Qed.

(** ** Children *)

Definition child (n : node) (y : addr) : Prop :=
  match n with
  | App l r | Cons l r => y = l \/ y = r
  | _ => False
  end.

Definition closed (h : heap) (R : addr -> Prop) : Prop :=
  forall x n y, R x -> get h x = Some n -> child n y -> R y.

Inductive reach (h : heap) (a : addr) : addr -> Prop :=
| reach_self : reach h a a
| reach_child x n y : reach h a x -> get h x = Some n -> child n y -> reach h a y.

Lemma reach_closed h a : closed h (reach h a).
Proof. intros x n y A B C. eapply reach_child; eassumption. Qed.

Lemma reach_least h a (R : addr -> Prop) x :
  closed h R -> R a -> reach h a x -> R x.
Proof. intros C A. induction 1; eauto. Qed.

Lemma reach_first h a n x :
  get h a = Some n -> reach h a x ->
  x = a \/ exists y, child n y /\ reach h y x.
Proof.
  intros G. induction 1 as [|x m y H IH E C]; [now left|]. right.
  destruct IH as [->|(z & D & K)].
  - rewrite G in E. injection E as <-. exists y. split; [exact C|constructor].
  - exists z. split; [exact D|]. eapply reach_child; eassumption.
Qed.

Lemma reach_from h a n y x :
  get h a = Some n -> child n y -> reach h y x -> reach h a x.
Proof.
  intros G C. induction 1.
  - eapply reach_child; [constructor| |]; eassumption.
  - eapply reach_child; eassumption.
Qed.

Section Trees.
Variable s : nat -> bool.

Notation tree := (tree s).

Lemma tree_get h a t : tree h a t -> exists n, get h a = Some n.
Proof. destruct 1; eauto. Qed.

Lemma tree_lt h a t : tree h a t -> a < length h.
Proof. intros H. destruct (tree_get _ _ _ H) as (n & E). eapply get_lt; eassumption. Qed.

Lemma tree_fun h a t : tree h a t -> forall t', tree h a t' -> t = t'.
Proof.
  induction 1; intros t' T; inversion T; subst;
    match goal with
    | H : get h ?a = Some _, H' : get h ?a = Some _ |- _ =>
      rewrite H in H'; inversion H'; subst end; try reflexivity.
  - f_equal; auto.
  - f_equal; auto.
Qed.

(** The tree of the contents of a node. *)
Definition tnode (h : heap) (n : node) (t : tm) : Prop :=
  match n with
  | App l r => exists u v, t = TApp u v /\ tree h l u /\ tree h r v
  | Cons l r => exists u v, t = TCons u v /\ tree h l u /\ tree h r v
  | Nil => t = TNil
  | Int z => t = TInt z
  | Str x => t = TStr x
  | Bool f => t = TBool (sem s f)
  | Prm p => t = TPrm p
  | Fail x => t = TFail x
  end.

Lemma tree_node h a n t : get h a = Some n -> tree h a t <-> tnode h n t.
Proof.
  intros G. split.
  - intros T. destruct T; match goal with H : get h _ = Some _ |- _ =>
      rewrite H in G; inversion G; subst; cbn end; eauto 6.
  - destruct n; cbn; intros T.
    + destruct T as (u & v & -> & A & B). eapply tree_app; eassumption.
    + destruct T as (u & v & -> & A & B). eapply tree_cons; eassumption.
    + subst. now apply tree_nil.
    + subst. now apply tree_int.
    + subst. now apply tree_str.
    + subst. now apply tree_bool.
    + subst. now apply tree_prm.
    + subst. now apply tree_fail.
Qed.

Fixpoint tsize (t : tm) : nat :=
  match t with
  | TApp t u | TCons t u => S (tsize t + tsize u)
  | _ => 1
  end.

Lemma tree_child h a n t y :
  tree h a t -> get h a = Some n -> child n y ->
  exists u, tree h y u /\ tsize u < tsize t.
Proof.
  intros T G C. apply (tree_node _ _ _ _ G) in T.
  destruct n; cbn in C; try contradiction;
    destruct T as (u & v & -> & A & B); destruct C as [->| ->]; cbn;
    [exists u|exists v|exists u|exists v]; split; auto; lia.
Qed.

Lemma tree_reach h a x : reach h a x -> forall t, tree h a t ->
  exists u, tree h x u /\ tsize u <= tsize t.
Proof.
  induction 1; intros t T; [eauto|].
  destruct (IHreach _ T) as (u & A & B).
  destruct (tree_child _ _ _ _ _ A H0 H1) as (v & C & D).
  exists v. split; [exact C|lia].
Qed.

(** No cycles below a node that has a tree. *)
Lemma acyclic h a n t y :
  tree h a t -> get h a = Some n -> child n y -> ~ reach h y a.
Proof.
  intros T G C K. destruct (tree_child _ _ _ _ _ T G C) as (u & A & B).
  destruct (tree_reach _ _ _ K _ A) as (v & D & E).
  rewrite (tree_fun _ _ _ T _ D) in B. lia.
Qed.

Lemma reach_dec h a t x : tree h a t -> reach h a x \/ ~ reach h a x.
Proof.
  intros T. revert x. induction T; intros q;
    (destruct (Nat.eq_dec q a) as [->|N]; [left; constructor|]).
  1-2: destruct (IHT1 q) as [Y1|N1];
      [left; eapply reach_from; [eassumption|now left|assumption]|];
      destruct (IHT2 q) as [Y2|N2];
      [left; eapply reach_from; [eassumption|now right|assumption]|];
      right; intros K; destruct (reach_first _ _ _ _ H K) as [E|(y & C & L)];
      [congruence|destruct C as [->| ->]; contradiction].
  all: right; intros K; destruct (reach_first _ _ _ _ H K) as [E|(y & C & L)];
    [congruence|contradiction].
Qed.

(** Two heaps that agree on a closed set have the same trees there. *)
Lemma tree_agree h h' (R : addr -> Prop) q t :
  closed h R -> (forall y, R y -> get h' y = get h y) -> R q ->
  tree h q t -> tree h' q t.
Proof.
  intros C A X T. revert X. induction T; intros X;
    (assert (G : get h' a = get h a) by auto; rewrite H in G).
  - eapply tree_app; [exact G|apply IHT1|apply IHT2]; eapply C; eauto; cbn; auto.
  - eapply tree_cons; [exact G|apply IHT1|apply IHT2]; eapply C; eauto; cbn; auto.
  - now apply tree_nil.
  - now apply tree_int.
  - now apply tree_str.
  - now apply tree_bool.
  - now apply tree_prm.
  - now apply tree_fail.
Qed.

(** ** What a stretch of evaluation may do *)

Definition good (h : heap) (R : addr -> Prop) : Prop :=
  closed h R /\
  forall x, R x -> exists t, tree h x t /\ plain t = true /\
                             (is_forced h x = true -> wh t = true).

Definition dec (R : addr -> Prop) : Prop := forall x, R x \/ ~ R x.

(** The nodes of [R] and those made since. *)
Definition ext (R : addr -> Prop) (h h' : heap) : addr -> Prop :=
  fun x => R x \/ (length h <= x /\ x < length h').

Record run (R : addr -> Prop) (h h' : heap) : Prop := mk_run {
  run_len : length h <= length h';
  run_out : forall x, x < length h -> ~ R x -> nth_error h' x = nth_error h x;
  run_good : good h' (ext R h h');
  run_red : forall x t, R x -> tree h x t ->
              exists t', tree h' x t' /\ wsteps t t';
  run_papp : forall x t, R x -> tree h x t -> partial t = true ->
              get h' x = get h x
}.

Lemma ext_dec R h h' : dec R -> dec (ext R h h').
Proof.
  intros D x. unfold ext. destruct (D x); [tauto|].
  destruct (le_dec (length h) x); destruct (lt_dec x (length h')); tauto.
Qed.

Lemma good_tree h R x : good h R -> R x -> exists t, tree h x t.
Proof. intros [_ G] X. destruct (G _ X) as (t & T & _). eauto. Qed.

Lemma good_lt h R x : good h R -> R x -> x < length h.
Proof. intros G X. destruct (good_tree _ _ _ G X). eapply tree_lt; eassumption. Qed.

Lemma good_weaken h (R R' : addr -> Prop) :
  good h R -> closed h R' -> (forall x, R' x -> R x) -> good h R'.
Proof. intros [C G] C' L. split; [exact C'|]. intros x X. apply G, L, X. Qed.

Lemma good_ext_iff h (R R' : addr -> Prop) :
  (forall x, R x <-> R' x) -> good h R -> good h R'.
Proof.
  intros E [C G]. split.
  - intros x n y X A B. apply E. eapply C; [apply E; exact X| |]; eassumption.
  - intros x X. apply G, E, X.
Qed.

Lemma run_refl R h : good h R -> run R h h.
Proof.
  intros G. split.
  - lia.
  - auto.
  - eapply good_ext_iff; [|exact G]. intros x. unfold ext. split; [auto|].
    intros [X|[A B]]; [exact X|lia].
  - intros x t X T. exists t. split; [exact T|constructor].
  - auto.
Qed.

Lemma run_weaken R R' h h' :
  run R h h' -> dec R -> good h R' -> (forall x, R x -> R' x) -> run R' h h'.
Proof.
  intros U D [C G] L.
  assert (W : forall x t, tree h x t -> R' x -> exists t', tree h' x t' /\ wsteps t t').
  { induction 1; intros X;
      match goal with H : get h ?a = Some _ |- _ =>
        destruct (D a) as [Y|N]; [eapply (run_red _ _ _ U); [exact Y|]; now econstructor; eauto|];
        assert (E : get h' a = get h a) by
          (unfold get; rewrite (run_out _ _ _ U); [reflexivity|eapply get_lt; eassumption|exact N]);
        rewrite H in E
      end.
    - destruct IHtree1 as (t1 & T1 & S1); [eapply C; eauto; cbn; auto|].
      destruct IHtree2 as (t2 & T2 & S2); [eapply C; eauto; cbn; auto|].
      exists (TApp t1 t2). split; [eapply tree_app; eauto|now apply wsteps_app].
    - destruct IHtree1 as (t1 & T1 & S1); [eapply C; eauto; cbn; auto|].
      destruct IHtree2 as (t2 & T2 & S2); [eapply C; eauto; cbn; auto|].
      exists (TCons t1 t2). split; [eapply tree_cons; eauto|now apply wsteps_cons].
    - exists TNil. split; [now apply tree_nil|constructor].
    - exists (TInt z). split; [now apply tree_int|constructor].
    - exists (TStr x). split; [now apply tree_str|constructor].
    - exists (TBool (sem s f)). split; [now apply tree_bool|constructor].
    - exists (TPrm p). split; [now apply tree_prm|constructor].
    - exists (TFail x). split; [now apply tree_fail|constructor]. }
  split.
  - exact (run_len _ _ _ U).
  - intros x A N. apply (run_out _ _ _ U); auto.
  - destruct (run_good _ _ _ U) as [C' G']. split.
    + intros x n y X A B. unfold ext in X |- *.
      destruct X as [X|X].
      * destruct (D x) as [Y|N].
        -- destruct (C' x n y) as [Z|Z]; try assumption; [now left|left; auto|now right].
        -- left. eapply C; [exact X| |exact B].
           destruct (G _ X) as (t & T & _).
           unfold get. rewrite <- (run_out _ _ _ U); [exact A| |exact N].
           eapply tree_lt; eassumption.
      * destruct (C' x n y) as [Z|Z]; try assumption; [now right|left; auto|now right].
    + intros x [X|X].
      * destruct (D x) as [Y|N]; [apply G'; now left|].
        destruct (G _ X) as (t & T & P & F).
        destruct (W _ _ T X) as (t' & T' & S').
        exists t'. split; [exact T'|]. split; [eapply plain_wsteps; eassumption|].
        unfold is_forced. rewrite (run_out _ _ _ U); [|eapply tree_lt; eassumption|exact N].
        intros K. eapply wh_wsteps; [exact S'|]. apply F. exact K.
      * apply G'. now right.
  - intros x t X T. apply W; assumption.
  - intros x t X T P. destruct (D x) as [Y|N].
    + eapply (run_papp _ _ _ U); eassumption.
    + unfold get. rewrite (run_out _ _ _ U); [reflexivity|eapply tree_lt; eassumption|exact N].
Qed.

Lemma run_trans R h h1 h2 :
  run R h h1 -> run (ext R h h1) h1 h2 -> run R h h2.
Proof.
  intros U V. pose proof (run_len _ _ _ U) as L1. pose proof (run_len _ _ _ V) as L2.
  split.
  - lia.
  - intros x A N. rewrite (run_out _ _ _ V); [apply (run_out _ _ _ U); assumption|lia|].
    unfold ext. intros [K|K]; [auto|lia].
  - eapply good_ext_iff; [|exact (run_good _ _ _ V)].
    intros x. unfold ext. split; [intros [[K|K]|K]|intros [K|K]]; auto; try (right; lia).
    destruct (lt_dec x (length h1)); [left; right; lia|right; lia].
  - intros x t X T. destruct (run_red _ _ _ U _ _ X T) as (t1 & T1 & S1).
    destruct (run_red _ _ _ V x t1) as (t2 & T2 & S2); [now left|exact T1|].
    exists t2. split; [exact T2|eapply wsteps_trans; eassumption].
  - intros x t X T P. destruct (run_red _ _ _ U _ _ X T) as (t1 & T1 & S1).
    rewrite <- (run_papp _ _ _ U _ _ X T P).
    apply (run_papp _ _ _ V x t1); [now left|exact T1|eapply partial_wsteps; eassumption].
Qed.

(** The form in which stretches are put together. *)
Lemma run_seq R R1 h h1 h2 :
  run R h h1 -> run R1 h1 h2 -> dec R1 -> (forall x, R1 x -> ext R h h1 x) ->
  run R h h2.
Proof.
  intros U V D L. eapply run_trans; [exact U|].
  eapply run_weaken; [exact V|exact D|exact (run_good _ _ _ U)|exact L].
Qed.

Lemma good_reach h R a : good h R -> R a -> good h (reach h a) /\ dec (reach h a).
Proof.
  intros G A. split.
  - eapply good_weaken; [exact G|apply reach_closed|].
    intros x X. eapply reach_least; [apply G|exact A|exact X].
  - intros x. destruct (good_tree _ _ _ G A) as (t & T). eapply reach_dec; exact T.
Qed.

(** ** Writing a node

    Nodes below [R1] are evaluated, and then a node [a], from which they may be
    reached but not conversely, is overwritten. *)

Lemma run_eval_set R R1 h h2 a n t0 tn :
  good h R -> R a -> tree h a t0 -> can_fail t0 = true ->
  run R1 h h2 -> dec R1 -> (forall x, R1 x -> R x) -> ~ R1 a ->
  tnode h2 n tn -> wsteps t0 tn -> (forall y, child n y -> ext R1 h h2 y) ->
  run R h (set_nd h2 a n).
Proof.
  intros GR A T0 P0 U D1 L1 N1 TN W K.
  pose proof GR as [C G].
  assert (LA : a < length h) by (eapply tree_lt; exact T0).
  pose proof (run_len _ _ _ U) as LE.
  destruct (run_good _ _ _ U) as [C2 G2].
  assert (NX : ~ ext R1 h h2 a) by (unfold ext; intros [Q|Q]; [contradiction|lia]).
  destruct (tree_get _ _ _ T0) as (m & GA).
  assert (GA2 : get h2 a = Some m).
  { unfold get in *. now rewrite (run_out _ _ _ U). }
  set (h3 := set_nd h2 a n).
  assert (L3 : length h3 = length h2) by apply set_length.
  assert (AG : forall y u, ext R1 h h2 y -> tree h2 y u -> tree h3 y u).
  { intros y u Y T. eapply tree_agree with (R := ext R1 h h2); eauto.
    intros z Z. apply get_set_other. intros ->. contradiction. }
  assert (TA : tree h3 a tn).
  { apply (tree_node _ _ n); [eapply get_set_same; exact GA2|].
    destruct n; cbn in TN |- *; auto.
    - destruct TN as (u & v & -> & U1 & V). exists u, v. split; [reflexivity|].
      split; apply AG; auto; apply K; cbn; auto.
    - destruct TN as (u & v & -> & U1 & V). exists u, v. split; [reflexivity|].
      split; apply AG; auto; apply K; cbn; auto. }
  assert (OUT : forall x, x < length h -> ~ R1 x -> x <> a -> nth_error h3 x = nth_error h x).
  { intros x X N E. unfold h3, set_nd. rewrite upd_other by congruence.
    apply (run_out _ _ _ U); assumption. }
  assert (RED : forall x t, tree h x t -> R x -> exists t', tree h3 x t' /\ wsteps t t').
  { induction 1; intros X;
      match goal with H : get h ?x = Some _ |- _ =>
        destruct (Nat.eq_dec x a) as [->|NE];
        [exists tn; split; [exact TA|];
         match goal with |- wsteps ?t tn =>
           assert (TX : tree h a t) by (econstructor; eauto);
           rewrite <- (tree_fun _ _ _ T0 _ TX); exact W end|];
        destruct (D1 x) as [Y|N];
        [match goal with |- exists t', _ /\ wsteps ?t t' =>
           assert (TX : tree h x t) by (econstructor; eauto);
           destruct (run_red _ _ _ U _ _ Y TX) as (t1' & T1' & S1');
           exists t1'; split; [apply AG; [now left|exact T1']|exact S1'] end|];
        assert (E : get h3 x = get h x) by
          (unfold get; rewrite OUT; [reflexivity|eapply get_lt; eassumption|exact N|exact NE]);
        rewrite H in E
      end.
    - destruct IHtree1 as (t1 & T1 & S1); [eapply C; eauto; cbn; auto|].
      destruct IHtree2 as (t2 & T2 & S2); [eapply C; eauto; cbn; auto|].
      exists (TApp t1 t2). split; [eapply tree_app; eauto|now apply wsteps_app].
    - destruct IHtree1 as (t1 & T1 & S1); [eapply C; eauto; cbn; auto|].
      destruct IHtree2 as (t2 & T2 & S2); [eapply C; eauto; cbn; auto|].
      exists (TCons t1 t2). split; [eapply tree_cons; eauto|now apply wsteps_cons].
    - exists TNil. split; [now apply tree_nil|constructor].
    - exists (TInt z). split; [now apply tree_int|constructor].
    - exists (TStr x). split; [now apply tree_str|constructor].
    - exists (TBool (sem s f)). split; [now apply tree_bool|constructor].
    - exists (TPrm p). split; [now apply tree_prm|constructor].
    - exists (TFail x). split; [now apply tree_fail|constructor]. }
  split.
  - lia.
  - intros x X N. apply OUT; [exact X|intros Y; apply N, L1, Y|intros ->; contradiction].
  - split.
    + intros x k y X E Q. unfold ext. rewrite L3.
      destruct (Nat.eq_dec x a) as [->|NE].
      * unfold h3 in E. rewrite (get_set_same _ _ n _ GA2) in E. injection E as <-.
        destruct (K _ Q) as [Z|Z]; [left; auto|now right].
      * unfold h3 in E. rewrite get_set_other in E by congruence.
        unfold ext in X. rewrite L3 in X. destruct X as [X|X].
        -- destruct (D1 x) as [Y|N].
           ++ destruct (C2 x k y) as [Z|Z]; try assumption; [now left|left; auto|now right].
           ++ left. eapply C; [exact X| |exact Q].
              unfold get. rewrite <- (run_out _ _ _ U); [exact E| |exact N].
              eapply good_lt; eassumption.
        -- destruct (C2 x k y) as [Z|Z]; try assumption; [now right|left; auto|now right].
    + intros x X. unfold ext in X. rewrite L3 in X. destruct X as [X|X].
      * destruct (D1 x) as [Y|N].
        -- destruct (G2 x) as (t & T & P & F); [now left|].
           exists t. split; [apply AG; [now left|exact T]|]. split; [exact P|].
           unfold h3. rewrite forced_set. exact F.
        -- destruct (G _ X) as (t & T & P & F).
           destruct (RED _ _ T X) as (t' & T' & S'). exists t'. split; [exact T'|].
           split; [eapply plain_wsteps; eassumption|].
           unfold h3. rewrite forced_set. unfold is_forced.
           rewrite (run_out _ _ _ U); [|eapply tree_lt; exact T|exact N].
           intros Q. eapply wh_wsteps; [exact S'|]. apply F. exact Q.
      * destruct (G2 x) as (t & T & P & F); [now right|].
        exists t. split; [apply AG; [now right|exact T]|]. split; [exact P|].
        unfold h3. rewrite forced_set. exact F.
  - intros x t X T. apply RED; assumption.
  - intros x t X T P. unfold h3. rewrite get_set_other.
    + destruct (D1 x) as [Y|N]; [eapply (run_papp _ _ _ U); eassumption|].
      unfold get. rewrite (run_out _ _ _ U); [reflexivity|eapply tree_lt; exact T|exact N].
    + intros ->. rewrite (tree_fun _ _ _ T0 _ T) in P0. destruct t; cbn in P0; try discriminate P0; try discriminate P.
      rewrite P in P0. discriminate P0.
Qed.

(** Making a node. *)
Lemma run_alloc R h n tn :
  good h R -> tnode h n tn -> plain tn = true -> (forall y, child n y -> R y) ->
  run R h (h ++ [mk_cell false n]) /\
  ext R h (h ++ [mk_cell false n]) (length h) /\
  tree (h ++ [mk_cell false n]) (length h) tn /\
  (forall x t, tree h x t -> tree (h ++ [mk_cell false n]) x t).
Proof.
  intros [C G] TN P K. set (h' := h ++ [mk_cell false n]).
  assert (LEN : length h' = S (length h)) by (unfold h'; rewrite app_length; cbn; lia).
  assert (AG : forall x t, tree h x t -> tree h' x t).
  { intros x t T. eapply tree_agree with (R := fun y => y < length h /\ exists u, tree h y u).
    - intros y k z [Y (u & U)] E Q. destruct (tree_child _ _ _ _ _ U E Q) as (v & V & _).
      split; [eapply tree_lt; exact V|eauto].
    - intros y [Y _]. apply get_new. exact Y.
    - split; [eapply tree_lt; exact T|eauto].
    - exact T. }
  assert (TL : tree h' (length h) tn).
  { apply (tree_node _ _ n); [apply get_new_last|].
    destruct n; cbn in TN |- *; auto.
    - destruct TN as (u & v & -> & U & V). exists u, v. auto.
    - destruct TN as (u & v & -> & U & V). exists u, v. auto. }
  split; [|split; [|split]]; auto.
  - split.
    + lia.
    + intros x X N. unfold h'. now rewrite nth_error_app1.
    + split.
      * intros x k y X E Q. unfold ext in *. destruct X as [X|X].
        -- left. destruct (G _ X) as (t & T & _).
           unfold h' in E. rewrite get_new in E by (eapply tree_lt; exact T).
           eapply C; eassumption.
        -- assert (x = length h) by lia. subst x.
           unfold h' in E. rewrite get_new_last in E. injection E as <-. left. apply K. exact Q.
      * intros x X. unfold ext in X. destruct X as [X|X].
        -- destruct (G _ X) as (t & T & Q & F). exists t. split; [auto|]. split; [exact Q|].
           unfold is_forced, h'. rewrite nth_error_app1 by (eapply tree_lt; exact T). exact F.
        -- assert (x = length h) by lia. subst x. exists tn. split; [exact TL|].
           split; [exact P|]. unfold is_forced, h'.
           rewrite nth_error_app2, Nat.sub_diag by lia. discriminate.
    + intros x t X T. exists t. split; [auto|constructor].
    + intros x t X T Q. unfold h'. apply get_new. eapply tree_lt; exact T.
  - unfold ext. right. lia.
Qed.

(** Marking a node as forced. *)
Lemma run_make R h a t :
  good h R -> R a -> tree h a t -> wh t = true -> run R h (make_forced h a).
Proof.
  intros [C G] A T W.
  assert (AG : forall x u, tree h x u -> tree (make_forced h a) x u).
  { intros x u U. eapply tree_agree with (R := fun _ => True); try exact U; auto.
    - intros ? ? ? ? ? ?. exact Logic.I.
    - intros y _. apply get_make. }
  split.
  - unfold make_forced. rewrite upd_length. lia.
  - intros x X N. unfold make_forced. apply upd_other. intros ->. contradiction.
  - apply (good_ext_iff _ R).
    + intros x. unfold ext, make_forced. rewrite upd_length. split; [auto|].
      intros [X|X]; [exact X|lia].
    + split.
      * intros x k y X E Q. rewrite get_make in E. eapply C; eassumption.
      * intros x X. destruct (G _ X) as (u & U & P & F). exists u. split; [auto|].
        split; [exact P|]. intros Q. destruct (forced_make _ _ _ Q) as [Q'| ->]; [auto|].
        now rewrite <- (tree_fun _ _ _ T _ U).
  - intros x u X U. exists u. split; [auto|constructor].
  - intros x u X U P. apply get_make.
Qed.

(** While a branch is evaluated the conditional itself is in disorder; as it
    cannot be reached from the branch, putting it back in order afterwards is
    as good as never having touched it. *)
Lemma run_frame R h a old bad h2 :
  good h R -> ~ R a -> get h a = Some old ->
  run R (set_nd h a bad) h2 -> run R h (set_nd h2 a old).
Proof.
  intros [C G] N E U.
  set (h1 := set_nd h a bad) in *.
  assert (L1 : length h1 = length h) by apply set_length.
  assert (NL : a < length h) by (eapply get_lt; exact E).
  assert (CA : nth_error h2 a = nth_error h1 a) by (apply (run_out _ _ _ U); [lia|exact N]).
  pose proof (run_len _ _ _ U) as LE.
  assert (AG : forall x t, R x -> tree h x t -> tree h1 x t).
  { intros x t X T. eapply tree_agree with (R := R); eauto.
    intros y Y. apply get_set_other. intros ->. contradiction. }
  assert (NE : ~ ext R h1 h2 a) by (unfold ext; intros [K|K]; [contradiction|lia]).
  destruct (run_good _ _ _ U) as [C2 G2].
  assert (AG2 : forall x t, ext R h1 h2 x -> tree h2 x t -> tree (set_nd h2 a old) x t).
  { intros x t X T. eapply tree_agree with (R := ext R h1 h2); eauto.
    intros y Y. apply get_set_other. intros ->. contradiction. }
  assert (EX : forall x, ext R h1 h2 x <-> ext R h (set_nd h2 a old) x).
  { intros x. unfold ext. rewrite set_length, L1. tauto. }
  split.
  - rewrite set_length. lia.
  - intros x X NX. destruct (Nat.eq_dec x a) as [->|D].
    + unfold set_nd at 1. rewrite upd_same, CA. unfold h1, set_nd. rewrite upd_same.
      unfold get in E. destruct (nth_error h a) as [c|]; [|discriminate].
      injection E as <-. cbn. now destruct c.
    + unfold set_nd at 1. rewrite upd_other by congruence.
      rewrite (run_out _ _ _ U); [|lia|exact NX]. unfold h1, set_nd. apply upd_other. congruence.
  - apply (good_ext_iff _ _ _ EX). split.
    + intros x n y X Q K. assert (x <> a) by (intros ->; contradiction).
      rewrite get_set_other in Q by congruence. eapply C2; eassumption.
    + intros x X. destruct (G2 _ X) as (t & T & P & F). exists t.
      split; [auto|]. split; [exact P|]. rewrite forced_set. exact F.
  - intros x t X T. destruct (run_red _ _ _ U x t X (AG _ _ X T)) as (t' & T' & S').
    exists t'. split; [|exact S']. apply AG2; [now left|exact T'].
  - intros x t X T P. rewrite get_set_other by (intros ->; contradiction).
    rewrite (run_papp _ _ _ U x t X (AG _ _ X T) P).
    apply get_set_other. intros ->. contradiction.
Qed.

Lemma good_frame R h a bad : good h R -> ~ R a -> good (set_nd h a bad) R.
Proof.
  intros [C G] N. split.
  - intros x n y X E K. rewrite get_set_other in E by (intros ->; contradiction).
    eapply C; eassumption.
  - intros x X. destruct (G _ X) as (t & T & P & F). exists t. split.
    + eapply tree_agree with (R := R); eauto.
      intros y Y. apply get_set_other. intros ->. contradiction.
    + split; [exact P|]. rewrite forced_set. exact F.
Qed.

End Trees.
