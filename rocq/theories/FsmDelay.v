(* The inertial delay operator, and the lifting of the operators from rails 0/1
   to rails that are Boolean functions. *)
From Coq Require Import List Arith NArith ZArith Bool Lia.
From Verif Require Import FsmOps FsmRel FsmBool FsmWord.
Import ListNotations.

Lemma fold_andb {A} (f : A -> bool) l : forall x, fold_left (fun x k => x && f k) l x = x && forallb f l.
Proof.
  induction l as [|a l IH]; intros x; cbn; [now rewrite andb_true_r|]. rewrite IH. now rewrite andb_assoc.
Qed.
Lemma fold_orb {A} (f : A -> bool) l : forall x, fold_left (fun x k => x || f k) l x = x || existsb f l.
Proof.
  induction l as [|a l IH]; intros x; cbn; [now rewrite orb_false_r|]. rewrite IH. now rewrite orb_assoc.
Qed.

(* cur is the present output, [h k] the input k steps ago *)
Definition can_be (v : bool) (fast slow : nat) (cur : bool) (h : nat -> bool) : Prop :=
  (forall k, k < fast -> h k = v) \/ (cur = v /\ exists k, k < slow /\ h k = v).

Lemma op_idelay_enc mr Mr mf Mf n l i : length l = n * (1 + Nat.max (Nat.max mr Mr) (Nat.max mf Mf)) -> i < n ->
  let h k := nth ((1 + k) * n + i) l false in
  let out := nth i (bop (OIdelay mr Mr mf Mf) n (encv l)) (true, true) in
  (fst out = true <-> can_be true mr Mf (nth i l false) h) /\
  (snd out = true <-> can_be false mf Mr (nth i l false) h).
Proof.
  intros L Li h. unfold bop. cbn [eval_op]. unfold op_IDELAY. rewrite tab_nth by assumption. cbn zeta. cbn [fst snd].
  set (m := Nat.max (Nat.max mr Mr) (Nat.max mf Mf)) in *.
  assert (B : forall k, k < m -> (1 + k) * n + i < length l).
  { intros k Lk. rewrite L. assert ((1 + k) * n + n <= n * (1 + m)) by nia. lia. }
  assert (E : forall k, k < m -> inp bool true (encv l) ((1 + k) * n + i) = enc (h k)).
  { intros k Lk. apply inp_enc. auto. }
  assert (C : inp bool true (encv l) i = enc (nth i l false)). { apply inp_enc. rewrite L. nia. }
  rewrite C. cbn [enc fst snd]. rewrite !fold_andb, !fold_orb. cbn [andb orb].
  assert (FA : forall (p : bool * bool -> bool) k, k <= m ->
    forallb (fun k => p (inp bool true (encv l) ((1 + k) * n + i))) (seq 0 k) = forallb (fun k => p (enc (h k))) (seq 0 k)).
  { intros p k Lk. assert (S : forall j, In j (seq 0 k) -> j < m) by (intros j Hj; apply in_seq in Hj; lia).
    revert S. generalize (seq 0 k). induction l0 as [|j js IH]; intros S; cbn [forallb]; auto.
    rewrite E by (apply S; now left). rewrite IH by (intros; apply S; now right). reflexivity. }
  assert (FE : forall (p : bool * bool -> bool) k, k <= m ->
    existsb (fun k => p (inp bool true (encv l) ((1 + k) * n + i))) (seq 0 k) = existsb (fun k => p (enc (h k))) (seq 0 k)).
  { intros p k Lk. assert (S : forall j, In j (seq 0 k) -> j < m) by (intros j Hj; apply in_seq in Hj; lia).
    revert S. generalize (seq 0 k). induction l0 as [|j js IH]; intros S; cbn [existsb]; auto.
    rewrite E by (apply S; now left). rewrite IH by (intros; apply S; now right). reflexivity. }
  rewrite !(FA fst), !(FE fst), !(FA snd), !(FE snd) by lia. cbn [enc fst snd].
  split; rewrite orb_true_iff, andb_true_iff, forallb_forall, existsb_exists; unfold can_be.
  - split; (intros [F|[Q (k & K & Hk)]]; [left|right; split; auto; exists k]).
    + intros k Lk. apply F. apply in_seq. lia.
    + apply in_seq in K. split; auto; lia.
    + intros k Lk. apply F. apply in_seq in Lk. lia.
    + split; auto. apply in_seq. lia.
  - split; (intros [F|[Q (k & K & Hk)]]; [left|right; split; auto; [|exists k]]).
    + intros k Lk. apply negb_true_iff. apply F. apply in_seq. lia.
    + now apply negb_true_iff.
    + apply in_seq in K. apply negb_true_iff in Hk. split; auto; lia.
    + intros k Lk. apply negb_true_iff. apply F. apply in_seq in Lk. lia.
    + now apply negb_true_iff.
    + apply negb_true_iff in Hk || apply negb_true_iff. split; auto. apply in_seq. lia.
Qed.
Lemma can_be_some mr Mr mf Mf cur h : mr <= Mr -> mf <= Mf ->
  can_be true mr Mf cur h \/ can_be false mf Mr cur h.
Proof.
  intros A B. unfold can_be. destruct cur.
  - destruct (existsb h (seq 0 Mf)) eqn:E.
    + left. right. split; auto. apply existsb_exists in E. destruct E as (k & K & Hk). apply in_seq in K.
      exists k. split; auto. lia.
    + right. left. intros k Lk. destruct (h k) eqn:Hk; auto.
      rewrite <- E. symmetry. apply existsb_exists. exists k. split; auto. apply in_seq. lia.
  - destruct (forallb h (seq 0 Mr)) eqn:E.
    + left. left. intros k Lk. rewrite forallb_forall in E. apply E. apply in_seq. lia.
    + right. right. split; auto.
      assert (X : existsb (fun k => negb (h k)) (seq 0 Mr) = true).
      { clear -E. induction (seq 0 Mr) as [|k l IH]; cbn in *; [discriminate|]. destruct (h k); cbn in *; auto. }
      apply existsb_exists in X. destruct X as (k & K & Hk). apply in_seq in K. exists k. split; [lia|].
      now apply negb_true_iff.
Qed.

(* ---------------------------------------------------------------------- *)
(* Rails of any kind V, denoting truth values under an assignment. *)
Section Lift.
Variable V : Type.
Variables (cand cor : V -> V -> V) (czero cone : V).
Variable den : V -> bool.
Definition den2 (x : V * V) : bool * bool := (den (fst x), den (snd x)).
Lemma eval_den o n l :
  den czero = false -> den cone = true ->
  (forall a b, den (cand a b) = den a && den b) -> (forall a b, den (cor a b) = den a || den b) ->
  map den2 (eval_op V cand cor czero cone o n l) = bop o n (map den2 l).
Proof.
  intros D0 D1 Da Do.
  pose proof (eval_op_rel V bool cand cor czero cone andb orb false true (fun v b => den v = b)
    D0 D1) as K.
  assert (F : Forall2 (RR V bool (fun v b => den v = b)) l (map den2 l)).
  { induction l; cbn; constructor; auto. now split. }
  specialize (K ltac:(cbv beta; intros; subst; apply Da) ltac:(cbv beta; intros; subst; apply Do) o n l _ F).
  unfold bop. revert K. generalize (eval_op bool andb orb false true o n (map den2 l)).
  generalize (eval_op V cand cor czero cone o n l). intros x y Q.
  induction Q as [|[a b] [c d] x y [H1 H2] Q IH]; cbn in *; auto. rewrite IH. unfold den2. cbn. now rewrite H1, H2.
Qed.
End Lift.

(* Less defined: each rail that can have a value still can. *)
Definition less (x y : bool * bool) : Prop :=
  (fst y = true -> fst x = true) /\ (snd y = true -> snd x = true).
Lemma mono_op o n l l' : Forall2 less l l' -> Forall2 less (bop o n l) (bop o n l').
Proof.
  intros F. apply (eval_op_rel bool bool andb orb false true andb orb false true
    (fun x y => y = true -> x = true)); auto.
  - intros a a' b b' A B. rewrite !andb_true_iff. tauto.
  - intros a a' b b' A B. rewrite !orb_true_iff. tauto.
Qed.

(* Operators with other combinators, whose results are implied by the exact ones. *)
Section Weak.
Variables (V A : Type).
Variables (cand cor wand wor : V -> V -> V) (czero cone : V).
Variable den : V -> A -> bool.
Definition implied (x y : V) : Prop := forall a, den x a = true -> den y a = true.
Definition weaker (y x : V * V) : Prop := implied (fst x) (fst y) /\ implied (snd x) (snd y).
Hypothesis Da : forall x y a, den (cand x y) a = den x a && den y a.
Hypothesis Do : forall x y a, den (cor x y) a = den x a || den y a.
Hypothesis Wa : forall x y, implied (cand x y) (wand x y).
Hypothesis Wo : forall x y, implied (cor x y) (wor x y).
Lemma weak_op o n l l' : Forall2 weaker l' l ->
  Forall2 weaker (eval_op V wand wor czero cone o n l') (eval_op V cand cor czero cone o n l).
Proof.
  intros F.
  apply (eval_op_rel V V wand wor czero cone cand cor czero cone (fun y x => implied x y)).
  - intros a Q. exact Q.
  - intros a Q. exact Q.
  - intros y x y' x' H1 H2 a. intros Q. apply Wa. rewrite Da in *.
    apply andb_true_iff in Q. apply andb_true_iff. destruct Q. split; auto.
  - intros y x y' x' H1 H2 a. intros Q. apply Wo. rewrite Do in *.
    apply orb_true_iff in Q. apply orb_true_iff. destruct Q; auto.
  - exact F.
Qed.
End Weak.
