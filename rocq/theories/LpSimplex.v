(* The simplex loop: what is kept, and what is known when it ends. *)
From Coq Require Import ZArith QArith Qcanon List Bool Arith Lia.
From Verif Require Import LpModel LpBase LpTab.
Import ListNotations.
Open Scope Qc_scope.

Definition excluded (noeps : bool) (t : tab) (j : nat) : bool := noeps && is_eps t j.

Lemma pick_col_ok noeps t :
  let jj := pick_col noeps t in
  (jj = 0%nat /\ forall j, (1 <= j <= ncol t)%nat -> excluded noeps t j = false -> 0 <= get t 0 j) \/
  ((1 <= jj <= ncol t)%nat /\ excluded noeps t jj = false /\ get t 0 jj < 0).
Proof.
  unfold pick_col. set (f := fun (s : nat * Qc) j => _).
  assert (H : forall k, let s := fold_left f (seq 1 k) (0%nat, q0) in
    (fst s = 0%nat /\ snd s = q0 /\ forall j, (1 <= j <= k)%nat -> excluded noeps t j = false -> 0 <= get t 0 j) \/
    ((1 <= fst s <= k)%nat /\ excluded noeps t (fst s) = false /\ snd s = get t 0 (fst s) /\ get t 0 (fst s) < 0)).
  { induction k as [|k IH]; cbv zeta; [left; repeat split; intros; lia|].
    rewrite seq_S, fold_left_app. cbn [fold_left plus]. set (s := fold_left f (seq 1 k) (0%nat, q0)) in *.
    cbv zeta in IH. unfold f. destruct (noeps && is_eps t (S k)) eqn:X.
    - destruct IH as [(A & B & C)|(A & B & C & D)].
      + left. repeat split; try assumption. intros j J E. destruct (Nat.eq_dec j (S k)) as [->|N]; [unfold excluded in E; congruence|].
        apply C; [lia|exact E].
      + right. repeat split; try assumption; lia.
    - destruct (qlt (get t 0 (S k)) q0 && qlt (get t 0 (S k)) (snd s)) eqn:Y.
      + apply andb_true_iff in Y. destruct Y as (Y & _). apply qlt_iff in Y. right. cbn. repeat split; try lia; [exact X|exact Y].
      + destruct IH as [(A & B & C)|(A & B & C & D)].
        * left. repeat split; try assumption. intros j J E. destruct (Nat.eq_dec j (S k)) as [->|N].
          -- rewrite B in Y. rewrite andb_diag in Y. apply qlt_false in Y. exact Y.
          -- apply C; [lia|exact E].
        * right. repeat split; try assumption; lia. }
  specialize (H (ncol t)). cbv zeta in *. destruct H as [(A & _ & C)|(A & B & _ & D)]; [left|right]; auto.
Qed.

Lemma pick_row_ok t jj :
  let ii := pick_row t jj in
  (ii = 0%nat /\ forall i, (1 <= i <= nrow t)%nat -> get t i jj <= 0) \/
  ((1 <= ii <= nrow t)%nat /\ 0 < get t ii jj /\
   forall i, (1 <= i <= nrow t)%nat -> 0 < get t i jj -> get t ii 0 / get t ii jj <= get t i 0 / get t i jj).
Proof.
  unfold pick_row. set (f := fun (s : nat * Qc) i => _).
  assert (H : forall k, let s := fold_left f (seq 1 k) (0%nat, q0) in
    (fst s = 0%nat /\ forall i, (1 <= i <= k)%nat -> get t i jj <= 0) \/
    ((1 <= fst s <= k)%nat /\ 0 < get t (fst s) jj /\ snd s = get t (fst s) 0 / get t (fst s) jj /\
     forall i, (1 <= i <= k)%nat -> 0 < get t i jj -> snd s <= get t i 0 / get t i jj)).
  { induction k as [|k IH]; cbv zeta; [left; split; [reflexivity|intros; lia]|].
    rewrite seq_S, fold_left_app. cbn [fold_left plus]. set (s := fold_left f (seq 1 k) (0%nat, q0)) in *.
    cbv zeta in IH. unfold f. destruct (qlt q0 (get t (S k) jj)) eqn:X.
    - apply qlt_iff in X. cbv zeta. destruct ((fst s =? 0)%nat || qlt (get t (S k) 0 / get t (S k) jj) (snd s)) eqn:Y.
      + right. cbn [fst snd]. repeat split; try lia; try assumption. intros i Hi P.
        destruct (Nat.eq_dec i (S k)) as [->|N]; [apply Qcle_refl|].
        destruct IH as [(A & B)|(A & B & C & D)].
        * exfalso. specialize (B i ltac:(lia)). qc.
        * apply orb_true_iff in Y. destruct Y as [Y|Y]; [apply Nat.eqb_eq in Y; lia|]. apply qlt_iff in Y.
          specialize (D i ltac:(lia) P). qc.
      + apply orb_false_iff in Y. destruct Y as (Y1 & Y2). apply Nat.eqb_neq in Y1. apply qlt_false in Y2.
        destruct IH as [(A & B)|(A & B & C & D)]; [lia|]. right. repeat split; try assumption; try lia.
        intros i Hi P. destruct (Nat.eq_dec i (S k)) as [->|N]; [exact Y2|]. apply D; [lia|exact P].
    - apply qlt_false in X. destruct IH as [(A & B)|(A & B & C & D)].
      + left. split; [exact A|]. intros i Hi. destruct (Nat.eq_dec i (S k)) as [->|N]; [exact X|]. apply B. lia.
      + right. repeat split; try assumption; try lia. intros i Hi P.
        destruct (Nat.eq_dec i (S k)) as [->|N]; [exfalso; qc|]. apply D; [lia|exact P]. }
  specialize (H (nrow t)). cbv zeta in *. destruct H as [(A & B)|(A & B & C & D)]; [left; auto|right].
  repeat split; try assumption; try lia. intros i Hi P. rewrite <- C. apply D; assumption.
Qed.

(* t' is t after a pivot at row i, column j *)
Definition pivoted (t t' : tab) (i j : nat) : Prop :=
  (1 <= i <= nrow t)%nat /\ (1 <= j <= ncol t)%nat /\ get t i j <> 0 /\ same_shape t t' /\
  forall a b, (a <= nrow t)%nat -> (b <= ncol t)%nat ->
    get t' a b = if (a =? i)%nat then get t i b / get t i j else get t a b - get t a j * (get t i b / get t i j).

Lemma pivot_pivoted t i j : flat t -> (1 <= i <= nrow t)%nat -> (1 <= j <= ncol t)%nat -> get t i j <> 0 ->
  exists t', pivot t i j = Ok t' /\ flat t' /\ pivoted t t' i j.
Proof.
  intros F I J X. destruct (pivot_ok t i j F ltac:(lia) ltac:(lia) X) as (t' & E & F' & S & G).
  exists t'. split; [exact E|]. split; [exact F'|]. split; [exact I|]. split; [exact J|]. split; [exact X|]. split; [exact S|exact G].
Qed.

Lemma Qc_pos_neq a : 0 < a -> a <> 0.
Proof. intros H E. subst. qc. Qed.

Lemma Qcdiv_mul a b : b <> 0 -> a / b * b = a.
Proof. intros H. field. exact H. Qed.

Lemma Qcdiv_nonneg a b : 0 <= a -> 0 < b -> 0 <= a / b.
Proof.
  intros A B. apply Qcnot_lt_le. intros C.
  assert (E := Qcdiv_mul a b (Qc_pos_neq b B)). set (q := a / b) in *.
  assert (0 < (- q) * b). { apply Qcmult_lt_0_compat || idtac. qc. } qc.
Qed.

Lemma pivot_rhs t t' i j : pivoted t t' i j -> rhs_ok t -> 0 < get t i j ->
  (forall a, (1 <= a <= nrow t)%nat -> 0 < get t a j -> get t i 0 / get t i j <= get t a 0 / get t a j) -> rhs_ok t'.
Proof.
  intros (I & J & X & S & G) R P M a A. destruct S as (S1 & _). rewrite S1 in A. rewrite G by lia.
  assert (T : 0 <= get t i 0 / get t i j) by (apply Qcdiv_nonneg; [apply R; exact I|exact P]).
  destruct (Nat.eqb_spec a i) as [->|N]; [exact T|]. set (th := get t i 0 / get t i j) in *.
  destruct (Qclt_le_dec 0 (get t a j)) as [L|L].
  - specialize (M a A L). pose proof (Qcdiv_mul (get t a 0) (get t a j) (Qc_pos_neq _ L)) as E.
    set (q := get t a 0 / get t a j) in *. assert (0 <= (q - th) * get t a j) by (apply Qc_prod_nonneg; qc). qc.
  - specialize (R a A). assert (0 <= (- get t a j) * th) by (apply Qc_prod_nonneg; qc). qc.
Qed.

Section Loop.
Variable noeps : bool.
Variable Inv : tab -> Prop.
Hypothesis Inv_pivot : forall t t' i j, pivoted t t' i j -> Inv t -> Inv t'.

(* what holds at the head of the loop *)
Record loop_ok (t : tab) (beta : nat -> nat) : Prop := {
  k_flat : flat t;
  k_basis : basis_ok t beta;
  k_rhs : rhs_ok t;
  k_eps : noeps = true -> forall i, (1 <= i <= nrow t)%nat -> is_eps t (beta i) = false;
  k_inv : Inv t }.

(* what holds at the end: no profitable column, or an unbounded one *)
Definition ended (t : tab) (ub : bool) : Prop :=
  if ub then exists jj, (1 <= jj <= ncol t)%nat /\ excluded noeps t jj = false /\ get t 0 jj < 0 /\
               forall i, (1 <= i <= nrow t)%nat -> get t i jj <= 0
  else forall j, (1 <= j <= ncol t)%nat -> excluded noeps t j = false -> 0 <= get t 0 j.

Lemma step_ok t beta : loop_ok t beta ->
  (exists ub, simplex_step noeps t = Ok (inr ub) /\ ended t ub) \/
  (exists t' i j, simplex_step noeps t = Ok (inl t') /\ pivoted t t' i j /\ loop_ok t' (set beta i j)).
Proof.
  intros [F B R E K]. unfold simplex_step. cbv zeta.
  pose proof (pick_col_ok noeps t) as PC. cbv zeta in PC. set (jj := pick_col noeps t) in *.
  destruct PC as [(J & PC)|(J & X & L)].
  - rewrite J. cbn. left. exists false. split; [reflexivity|]. exact PC.
  - rewrite (proj2 (Nat.eqb_neq jj 0)) by lia.
    pose proof (pick_row_ok t jj) as PR. cbv zeta in PR. set (ii := pick_row t jj) in *.
    destruct PR as [(I & PR)|(I & P & M)].
    + rewrite I. cbn. left. exists true. split; [reflexivity|]. exists jj. auto.
    + rewrite (proj2 (Nat.eqb_neq ii 0)) by lia.
      destruct (pivot_pivoted t ii jj F I J (Qc_pos_neq _ P)) as (t' & E' & F' & PV).
      right. exists t', ii, jj. rewrite E'. cbn. split; [reflexivity|]. split; [exact PV|].
      pose proof PV as (_ & _ & X' & S & G). constructor.
      * exact F'.
      * apply (pivot_basis t t' ii jj); assumption.
      * apply (pivot_rhs t t' ii jj PV R P M).
      * intros NE i Hi. destruct S as (S1 & S2 & S3 & _). rewrite S1 in Hi. unfold is_eps. rewrite S3. fold (is_eps t (set beta ii jj i)).
        unfold set. destruct (i =? ii)%nat; [|apply E; assumption].
        unfold excluded in X. rewrite NE in X. exact X.
      * apply (Inv_pivot t t' ii jj PV K).
Qed.

Lemma simplex_ok fuel t beta : loop_ok t beta ->
  simplex fuel noeps t = More \/
  exists t' ub beta', simplex fuel noeps t = Ok (t', ub) /\ same_shape t t' /\ loop_ok t' beta' /\ ended t' ub /\
    (forall x, holds t' x <-> holds t x) /\ (forall x, holds t x -> cost t' x = cost t x).
Proof.
  revert t beta. induction fuel as [|k IH]; intros t beta L; [left; reflexivity|]. cbn [simplex].
  destruct (step_ok t beta L) as [(ub & E & D)|(t' & i & j & E & PV & L')]; rewrite E; cbn [bind].
  - right. exists t, ub, beta. split; [reflexivity|]. split; [apply same_shape_refl|].
    split; [exact L|]. split; [exact D|]. split; [intros x; reflexivity|intros x _; reflexivity].
  - destruct (IH t' _ L') as [H|(t2 & ub & beta2 & E2 & S2 & L2 & D2 & H2 & C2)]; [left; exact H|right].
    pose proof PV as (I & J & X & S & G).
    exists t2, ub, beta2. split; [exact E2|]. split; [apply (same_shape_trans t t' t2 S S2)|].
    split; [exact L2|]. split; [exact D2|]. split.
    + intros x. rewrite H2. apply (pivot_holds t t' i j); assumption.
    + intros x H. rewrite C2 by (apply (pivot_holds t t' i j); assumption). apply (pivot_cost t t' i j); assumption.
Qed.
End Loop.

Lemma ended_not_basic noeps t beta jj : basis_ok t beta -> get t 0 jj < 0 -> excluded noeps t jj = false ->
  forall i, (1 <= i <= nrow t)%nat -> beta i <> jj.
Proof.
  intros B L X i I E. destruct (B i I) as (_ & U). specialize (U 0%nat ltac:(lia)). rewrite E in U.
  destruct (Nat.eqb_spec 0 i); [lia|]. rewrite U in L. qc.
Qed.
