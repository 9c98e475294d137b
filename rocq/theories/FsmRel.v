(* The operators of FsmOps.v preserve every relation between rails that c_AND,
   c_OR, 0 and 1 preserve. *)
From Coq Require Import List Arith NArith ZArith Bool Lia.
From Verif Require Import FsmOps.
Import ListNotations.

Section Rel.
Variables V W : Type.
Variables (va vo : V -> V -> V) (v0 v1 : V).
Variables (wa wo : W -> W -> W) (w0 w1 : W).
Variable R : V -> W -> Prop.
Hypothesis R0 : R v0 w0.
Hypothesis R1 : R v1 w1.
Hypothesis Ra : forall a a' b b', R a a' -> R b b' -> R (va a b) (wa a' b').
Hypothesis Ro : forall a a' b b', R a a' -> R b b' -> R (vo a b) (wo a' b').

Definition RR (x : V * V) (y : W * W) : Prop := R (fst x) (fst y) /\ R (snd x) (snd y).
Definition RP (x : (V * V) * (V * V)) (y : (W * W) * (W * W)) : Prop :=
  RR (fst x) (fst y) /\ RR (snd x) (snd y).
Definition RL := Forall2 RR.

Lemma RX : RR (rX V v1) (rX W w1). Proof. now split. Qed.
Lemma RR1 : RR (r1 V v0 v1) (r1 W w0 w1). Proof. now split. Qed.
Lemma RR0 : RR (r0 V v0 v1) (r0 W w0 w1). Proof. now split. Qed.

Lemma nth_rel {A B} (P : A -> B -> Prop) l l' d d' : Forall2 P l l' -> P d d' ->
  forall i, P (nth i l d) (nth i l' d').
Proof. induction 1; intros D [|i]; cbn; auto. Qed.
Lemma inp_rel l l' i : RL l l' -> RR (inp V v1 l i) (inp W w1 l' i).
Proof. intros F. apply (nth_rel RR); auto using RX. Qed.
Lemma map_rel {A B A' B'} (P : A -> A' -> Prop) (Q : B -> B' -> Prop) f g l l' : Forall2 P l l' ->
  (forall x y, P x y -> Q (f x) (g y)) -> Forall2 Q (map f l) (map g l').
Proof. induction 1; cbn; constructor; auto. Qed.
Lemma map_same {A B B'} (Q : B -> B' -> Prop) f g (l : list A) :
  (forall x, Q (f x) (g x)) -> Forall2 Q (map f l) (map g l).
Proof. induction l; cbn; constructor; auto. Qed.
Lemma tab_rel {B B'} (Q : B -> B' -> Prop) f g n :
  (forall i, Q (f i) (g i)) -> Forall2 Q (tab n f) (tab n g).
Proof. intros. unfold tab. now apply map_same. Qed.
Lemma pairs_rel n l l' : RL l l' -> Forall2 RP (pairs V v1 n l) (pairs W w1 n l').
Proof. intros F. apply tab_rel. intros i. split; cbn; now apply inp_rel. Qed.
Lemma combine_rel l l' m m' : RL l l' -> RL m m' -> Forall2 RP (combine l m) (combine l' m').
Proof.
  intros F. revert m m'. induction F; intros m m' Fm; [constructor|].
  destruct Fm; cbn; constructor; auto. now split.
Qed.
Lemma foldr_rel {A A' B B'} (P : A -> A' -> Prop) (Q : B -> B' -> Prop) f g l l' d d' :
  Forall2 P l l' -> Q d d' -> (forall x y a b, P x y -> Q a b -> Q (f x a) (g y b)) ->
  Q (fold_right f d l) (fold_right g d' l').
Proof. intros F D H. induction F; cbn; auto. Qed.
Lemma foldl_rel {A A' B B'} (P : A -> A' -> Prop) (Q : B -> B' -> Prop) f g l l' d d' :
  Forall2 P l l' -> (forall x y a b, P x y -> Q a b -> Q (f a x) (g b y)) -> Q d d' ->
  Q (fold_left f l d) (fold_left g l' d').
Proof. intros F H. revert d d'. induction F; intros d d' D; cbn; auto. Qed.
Lemma same_list {A} (l : list A) : Forall2 eq l l.
Proof. induction l; constructor; auto. Qed.
Lemma repeat_rel n x y : RR x y -> RL (repeat x n) (repeat y n).
Proof. intros H. induction n; cbn; constructor; auto. Qed.
Lemma app_rel a a' b b' : RL a a' -> RL b b' -> RL (a ++ b) (a' ++ b').
Proof. apply Forall2_app. Qed.
Lemma tl_rel l l' : RL l l' -> RL (tl l) (tl l').
Proof. intros F. destruct F; cbn; auto. constructor. Qed.

Ltac rail := repeat match goal with x : (_ * _)%type |- _ => destruct x end;
  unfold RP, RR in *; cbn [fst snd] in *;
  repeat match goal with H : _ /\ _ |- _ => destruct H end; repeat split; cbn [fst snd]; auto 12.

Lemma swap_rel x y : RR x y -> RR (swap V x) (swap W y). Proof. intros. unfold swap. rail. Qed.
Lemma and1_rel a a' b b' : RR a a' -> RR b b' -> RR (and1 V va vo a b) (and1 W wa wo a' b').
Proof. intros. unfold and1. rail. Qed.
Lemma or1_rel a a' b b' : RR a a' -> RR b b' -> RR (or1 V va vo a b) (or1 W wa wo a' b').
Proof. intros. unfold or1. rail. Qed.
Lemma ite1_rel c c' a a' b b' : RR c c' -> RR a a' -> RR b b' ->
  RR (ite1 V va vo c a b) (ite1 W wa wo c' a' b').
Proof. intros. unfold ite1. rail. Qed.
Lemma ite1p_rel c c' a a' b b' : RR c c' -> RR a a' -> RR b b' ->
  RR (ite1_plain V va vo c a b) (ite1_plain W wa wo c' a' b').
Proof. intros. unfold ite1_plain. rail. Qed.
Lemma ge_rel g g' l l' : RR g g' -> Forall2 RP l l' -> RR (ge_from V va vo g l) (ge_from W wa wo g' l').
Proof.
  intros D F. unfold ge_from. apply (foldr_rel RP RR); auto. intros x y a b P Q. unfold ge_step. rail.
Qed.
Lemma add_rel c c' l l' : RR c c' -> Forall2 RP l l' -> RL (add_from V va vo c l) (add_from W wa wo c' l').
Proof.
  intros D F. unfold add_from.
  assert (X : RR (fst (fold_right (add_step V va vo) (c, []) l)) (fst (fold_right (add_step W wa wo) (c', []) l'))
     /\ RL (snd (fold_right (add_step V va vo) (c, []) l)) (snd (fold_right (add_step W wa wo) (c', []) l'))).
  { apply (foldr_rel RP (fun x y => RR (fst x) (fst y) /\ RL (snd x) (snd y))); auto.
    - cbn. split; [assumption|constructor].
    - intros [[aH aL] [bH bL]] [[aH' aL'] [bH' bL']] [[cH cL] o] [[cH' cL'] o'] [[? ?] [? ?]] [[? ?] Fo].
      cbn in *. split; [split; cbn; auto 10|]. constructor; auto. split; cbn; auto 10. }
  exact (proj2 X).
Qed.
Lemma sub_rel l l' : Forall2 RP l l' -> RL (sub_list V va vo v0 v1 l) (sub_list W wa wo w0 w1 l').
Proof.
  intros F. unfold sub_list. apply add_rel; [apply RR1|]. apply (map_rel RP); auto.
  intros x y [P Q]. split; cbn; auto. now apply swap_rel.
Qed.
Lemma ite_rel c c' a a' b b' : RR c c' -> RL a a' -> RL b b' ->
  RL (ite_list V va vo c a b) (ite_list W wa wo c' a' b').
Proof.
  intros C A B. unfold ite_list. apply (map_rel RP); [now apply combine_rel|].
  intros x y [P Q]. now apply ite1_rel.
Qed.
Lemma shl1_rel v v' x y : RL v v' -> RR x y -> RL (shl1 V v x) (shl1 W v' y).
Proof. intros F H. unfold shl1. apply app_rel; [now apply tl_rel|]. constructor; auto. Qed.
Lemma div_rel n l l' : RL l l' ->
  RL (fst (div_loop V va vo v0 v1 n l)) (fst (div_loop W wa wo w0 w1 n l')) /\
  RL (snd (div_loop V va vo v0 v1 n l)) (snd (div_loop W wa wo w0 w1 n l')).
Proof.
  intros F. unfold div_loop.
  apply (foldl_rel RR (fun x y => RL (fst x) (fst y) /\ RL (snd x) (snd y))).
  - apply tab_rel. intros. now apply inp_rel.
  - intros x y [q r] [q' r'] X [Q P]. cbn [fst snd] in *. unfold div_step. cbn [fst snd].
    assert (B : RL (tab n (fun i => inp V v1 l (i + n))) (tab n (fun i => inp W w1 l' (i + n)))).
    { apply tab_rel. intros. now apply inp_rel. }
    assert (S1 : RL (shl1 V r x) (shl1 W r' y)) by now apply shl1_rel.
    pose proof (combine_rel _ _ _ _ S1 B) as C.
    pose proof (ge_rel _ _ _ _ RR1 C) as K.
    split; [now apply shl1_rel|]. apply ite_rel; auto. now apply sub_rel.
  - cbn. split; apply repeat_rel, RR0.
Qed.
Lemma mul_rel n l l' : RL l l' -> RL (op_MUL V va vo v0 v1 n l) (op_MUL W wa wo w0 w1 n l').
Proof.
  intros F. unfold op_MUL. apply (foldr_rel eq RL); [apply same_list|apply repeat_rel, RR0|].
  intros x y a b <- Q. apply add_rel; [apply RR0|]. apply combine_rel; auto. apply tab_rel. intros j.
  destruct (n - j - 1 <? n - x - 1); [apply RR0|]. apply and1_rel; now apply inp_rel.
Qed.
Lemma shift_rel f g n l l' : (forall v v' c, RL v v' -> RL (f n v c) (g n v' c)) -> RL l l' ->
  RL (op_shift V va vo v1 f n l) (op_shift W wa wo w1 g n l').
Proof.
  intros H F. unfold op_shift.
  assert (X : fst (fold_right (shift_step V va vo n f) (1%Z, tab n (inp V v1 l)) (tab n (fun i => inp V v1 l (i + n))))
       = fst (fold_right (shift_step W wa wo n g) (1%Z, tab n (inp W w1 l')) (tab n (fun i => inp W w1 l' (i + n))))
     /\ RL (snd (fold_right (shift_step V va vo n f) (1%Z, tab n (inp V v1 l)) (tab n (fun i => inp V v1 l (i + n)))))
       (snd (fold_right (shift_step W wa wo n g) (1%Z, tab n (inp W w1 l')) (tab n (fun i => inp W w1 l' (i + n)))))).
  { apply (foldr_rel RR (fun x y => fst x = fst y /\ RL (snd x) (snd y))).
    - apply tab_rel. intros. now apply inp_rel.
    - cbn. split; auto. apply tab_rel. intros. now apply inp_rel.
    - intros x y [s c] [s' c'] X [E Q]. cbn [fst snd] in *. subst s'. unfold shift_step. cbn [fst snd].
      split; auto. apply ite_rel; auto. }
  exact (proj2 X).
Qed.
Lemma upd_rel l l' n il : RL l l' -> forall idx o o', RL o o' ->
  RL (upd_loop V v1 l n il idx o) (upd_loop W w1 l' n il idx o').
Proof.
  intros F. induction il as [|t il IH]; intros idx o o' O; cbn; auto. apply IH.
  assert (X : forall i x y, RR x y -> forall o o', RL o o' -> RL (set_nth o i x) (set_nth o' i y)).
  { intros i x y P. induction i as [|i IHi]; intros p p' Pp; destruct Pp; cbn; constructor; auto.
    apply IHi. assumption. }
  apply X; auto. now apply inp_rel.
Qed.
Lemma sel_rel a a' line : RL a a' -> RR (sel V va vo v0 v1 a line) (sel W wa wo w0 w1 a' line).
Proof.
  intros F. unfold sel.
  assert (X : fst (fold_right (sel_step V va vo) (line, r1 V v0 v1) a)
       = fst (fold_right (sel_step W wa wo) (line, r1 W w0 w1) a') /\
     RR (snd (fold_right (sel_step V va vo) (line, r1 V v0 v1) a))
       (snd (fold_right (sel_step W wa wo) (line, r1 W w0 w1) a'))).
  { apply (foldr_rel RR (fun x y => fst x = fst y /\ RR (snd x) (snd y))); auto.
    - cbn. split; auto. apply RR1.
    - intros [xH xL] [yH yL] [k [sH sL]] [k' [sH' sL']] [? ?] [E [? ?]]. cbn [fst snd] in *. subst k'.
      unfold sel_step. cbn [fst snd]. split; auto. destruct (Nat.odd k); split; cbn; auto. }
  exact (proj2 X).
Qed.
Lemma concat_rel {A} (f : A -> list (V * V)) (g : A -> list (W * W)) l :
  (forall x, RL (f x) (g x)) -> RL (flat_map f l) (flat_map g l).
Proof. intros H. induction l; cbn; [constructor|]. now apply app_rel. Qed.

(* The theorem of this file. *)
Lemma eval_op_rel o n l l' : RL l l' ->
  RL (eval_op V va vo v0 v1 o n l) (eval_op W wa wo w0 w1 o n l').
Proof.
  intros F. destruct o; cbn [eval_op].
  - apply repeat_rel, RX.
  - unfold op_CONST.
    match goal with |- RL (snd (fold_right ?f ?a ?s)) (snd (fold_right ?g ?b ?s)) =>
      assert (X : fst (fold_right f a s) = fst (fold_right g b s) /\
                  RL (snd (fold_right f a s)) (snd (fold_right g b s))) end.
    { apply (foldr_rel eq (fun x y => fst x = fst y /\ RL (snd x) (snd y))); [apply same_list|cbn; split; [auto|constructor]|].
      intros x y [p q] [p' q'] _ [E Q]. cbn [fst snd] in *. subst p'. split; auto. constructor; auto.
      destruct (Z.land v p =? 0)%Z; [apply RR0|apply RR1]. }
    exact (proj2 X).
  - apply tab_rel. intros. now apply inp_rel.
  - apply (map_rel RP); [now apply pairs_rel|]. intros x y [P Q]. now apply and1_rel.
  - apply (map_rel RP); [now apply pairs_rel|]. intros x y [P Q]. now apply or1_rel.
  - apply tab_rel. intros. now apply swap_rel, inp_rel.
  - apply tab_rel. intros. now apply inp_rel.
  - unfold op_IDELAY. apply tab_rel. intros i.
    assert (A : forall m (p : V * V -> V) (q : W * W -> W), (forall x y, RR x y -> R (p x) (q y)) ->
      R (fold_left (fun x k => va x (p (inp V v1 l ((1 + k) * n + i)))) (seq 0 m) v1)
        (fold_left (fun x k => wa x (q (inp W w1 l' ((1 + k) * n + i)))) (seq 0 m) w1)).
    { intros m p q H. apply (foldl_rel eq R); [apply same_list| |assumption].
      intros x y a b <- Q. apply Ra; auto. apply H. now apply inp_rel. }
    assert (B : forall m (p : V * V -> V) (q : W * W -> W), (forall x y, RR x y -> R (p x) (q y)) ->
      R (fold_left (fun x k => vo x (p (inp V v1 l ((1 + k) * n + i)))) (seq 0 m) v0)
        (fold_left (fun x k => wo x (q (inp W w1 l' ((1 + k) * n + i)))) (seq 0 m) w0)).
    { intros m p q H. apply (foldl_rel eq R); [apply same_list| |assumption].
      intros x y a b <- Q. apply Ro; auto. apply H. now apply inp_rel. }
    destruct (inp_rel l l' i F) as [CH CL].
    split; cbn [fst snd]; apply Ro; auto;
      first [apply A; intros x y [P Q]; assumption
            |apply Ra; [assumption|apply B; intros x y [P Q]; assumption]].
  - unfold op_EQ. constructor; [|constructor]. apply (foldl_rel RP RR); [now apply pairs_rel| |apply RR1].
    intros x y a b P Q. unfold eq_step. rail.
  - unfold op_GR. constructor; [|constructor]. apply ge_rel; [apply RR0|now apply pairs_rel].
  - apply add_rel; [apply RR0|now apply pairs_rel].
  - apply sub_rel. now apply pairs_rel.
  - now apply mul_rel.
  - apply tab_rel. intros i. destruct accurate; [apply ite1_rel|apply ite1p_rel]; now apply inp_rel.
  - now apply div_rel.
  - now apply div_rel.
  - apply shift_rel; auto. intros v v' c Q. apply tab_rel. intros i. cbn zeta.
    destruct (outside n _); [apply RR0|now apply inp_rel].
  - apply shift_rel; auto. intros v v' c Q. apply tab_rel. intros i. cbn zeta.
    destruct (outside n _); [apply RR0|now apply inp_rel].
  - apply shift_rel; auto. intros v v' c Q. apply tab_rel. intros i. cbn zeta.
    destruct (outside n _); now apply inp_rel.
  - apply tab_rel. intros i. destruct (n - 1 - i <? isz); now apply inp_rel.
  - apply tab_rel. intros i. destruct (n - 1 - i <? isz); [now apply inp_rel|apply RR0].
  - apply tab_rel. intros i. now apply inp_rel.
  - apply upd_rel; auto. apply tab_rel. intros. now apply inp_rel.
  - unfold op_MEM_READ. apply (foldl_rel eq RL); [apply same_list| |apply repeat_rel, RX].
    intros x y a b <- Q. apply tab_rel. intros i.
    assert (N : RR (nth i a (rX V v1)) (nth i b (rX W w1))) by (apply (nth_rel RR); auto using RX).
    destruct (i <? dsz); auto. apply ite1_rel; auto; [|now apply inp_rel].
    apply sel_rel. apply tab_rel. intros. now apply inp_rel.
  - unfold op_MEM_WRITE. apply concat_rel. intros line. apply tab_rel. intros i.
    apply ite1_rel; [|now apply inp_rel|now apply inp_rel].
    apply sel_rel. apply tab_rel. intros. now apply inp_rel.
Qed.
End Rel.
