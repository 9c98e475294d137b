(* Tableaus: pivots keep the solutions and the cost; the simplex loop. *)
From Coq Require Import ZArith QArith Qcanon List Bool Arith Lia.
From Verif Require Import LpModel LpBase.
Import ListNotations.
Open Scope Qc_scope.

(* Rows are numbered as they lie in memory, and have ncol + 1 entries. *)
Definition flat (t : tab) : Prop :=
  ptr t = seq 0 (S (nrow t)) /\ length (mem t) = S (nrow t) /\
  forall i, (i <= nrow t)%nat -> length (nth i (mem t) []) = S (ncol t).

Definition same_shape (t t' : tab) : Prop :=
  nrow t' = nrow t /\ ncol t' = ncol t /\ eps t' = eps t /\ unres t' = unres t /\ vars t' = vars t.

Lemma same_shape_refl t : same_shape t t.
Proof. repeat split. Qed.
Lemma same_shape_trans a b c : same_shape a b -> same_shape b c -> same_shape a c.
Proof. intros (A & B & C & D & E) (A' & B' & C' & D' & E'). repeat split; congruence. Qed.

Lemma ptr_flat t i : flat t -> (i <= nrow t)%nat -> nth i (ptr t) 0%nat = i.
Proof. intros (P & _) I. rewrite P, seq_nth by lia. reflexivity. Qed.
Lemma row_flat t i : flat t -> (i <= nrow t)%nat -> row t i = nth i (mem t) [].
Proof. intros F I. unfold row. rewrite (ptr_flat t i F I). reflexivity. Qed.

Lemma fold_pivot t i j norm m1 k :
  flat t -> (i <= nrow t)%nat -> (j <= ncol t)%nat -> length m1 = S (nrow t) -> length norm = S (ncol t) ->
  (forall a, (a <= nrow t)%nat -> nth a m1 [] = if (a =? i)%nat then norm else nth a (mem t) []) ->
  (k <= S (nrow t))%nat ->
  let m := fold_left (fun m ii =>
                if (ii =? i)%nat then m
                else
                  let q := nth ii (ptr t) 0%nat in
                  upd q (sub_mul (nth j (nth q m []) q0) (nth q m []) (nth (nth i (ptr t) 0%nat) m [])) m)
              (seq 0 k) m1 in
  length m = S (nrow t) /\
  forall a, (a <= nrow t)%nat ->
    nth a m [] = if (a =? i)%nat then norm
                 else if (a <? k)%nat then sub_mul (nth j (nth a (mem t) []) q0) (nth a (mem t) []) norm
                 else nth a (mem t) [].
Proof.
  intros F I J L LN H. induction k as [|k IH]; intros K; cbv zeta.
  - cbn. split; [exact L|]. intros a A. rewrite (H a A). destruct (a =? i)%nat; reflexivity.
  - specialize (IH ltac:(lia)). cbv zeta in IH. rewrite seq_S, fold_left_app. cbn [fold_left plus].
    set (m := fold_left _ (seq 0 k) m1) in *. destruct IH as (LM & IH).
    destruct (Nat.eqb_spec k i) as [->|N].
    + split; [exact LM|]. intros a A. rewrite (IH a A). destruct (Nat.eqb_spec a i) as [->|NA]; [reflexivity|].
      destruct (Nat.ltb_spec a i), (Nat.ltb_spec a (S i)); try lia; reflexivity.
    + rewrite (ptr_flat t k F ltac:(lia)), (ptr_flat t i F I).
      split; [rewrite upd_length; exact LM|]. intros a A. rewrite nth_upd by lia.
      rewrite (IH a A), (IH k ltac:(lia)), (IH i I), Nat.eqb_refl.
      destruct (Nat.eqb_spec a k) as [->|NA].
      * destruct (Nat.eqb_spec k i) as [E|_]; [lia|]. rewrite Nat.ltb_irrefl.
        destruct (Nat.ltb_spec k (S k)); [|lia]. reflexivity.
      * destruct (Nat.eqb_spec a i); [reflexivity|]. destruct (Nat.ltb_spec a k), (Nat.ltb_spec a (S k)); try lia; reflexivity.
Qed.

Lemma pivot_ok t i j : flat t -> (i <= nrow t)%nat -> (j <= ncol t)%nat -> get t i j <> 0 ->
  exists t', pivot t i j = Ok t' /\ flat t' /\ same_shape t t' /\
    forall a b, (a <= nrow t)%nat -> (b <= ncol t)%nat ->
      get t' a b = if (a =? i)%nat then get t i b / get t i j else get t a b - get t a j * (get t i b / get t i j).
Proof.
  intros F I J N. unfold pivot. rewrite (proj2 (qeq_false (get t i j) q0) N). cbv zeta.
  set (x := get t i j) in *.
  pose proof F as (P & LM & LR).
  set (norm := map (fun v => v / x) (nth i (mem t) [])).
  assert (LN : length norm = S (ncol t)) by (unfold norm; rewrite map_length; apply LR; exact I).
  set (m1 := upd (nth i (ptr t) 0%nat) _ (mem t)).
  assert (H1 : forall a, (a <= nrow t)%nat -> nth a m1 [] = if (a =? i)%nat then norm else nth a (mem t) []).
  { intros a A. unfold m1. rewrite (ptr_flat t i F I), nth_upd by lia. reflexivity. }
  assert (L1 : length m1 = S (nrow t)) by (unfold m1; rewrite upd_length; exact LM).
  pose proof (fold_pivot t i j norm m1 (S (nrow t)) F I J L1 LN H1 (Nat.le_refl _)) as (LF & HF).
  set (m2 := fold_left _ _ m1) in *.
  exists (with_mem t m2). split; [reflexivity|].
  assert (F' : flat (with_mem t m2)).
  { split; [exact P|]. split; [exact LF|]. intros a A. cbn [with_mem nrow] in A. cbn [with_mem mem ncol]. rewrite (HF a A).
    destruct (a =? i)%nat; [exact LN|]. destruct (a <? S (nrow t))%nat; [|apply LR; exact A].
    rewrite sub_mul_length; [apply LR; exact A|]. rewrite LN. apply LR; exact A. }
  split; [exact F'|]. split; [repeat split|].
  intros a b A B. unfold get at 1. rewrite (row_flat _ a F' A). cbn [with_mem mem]. rewrite (HF a A).
  assert (NB : nth b norm q0 = get t i b / x).
  { unfold norm, get. rewrite (row_flat t i F I).
    rewrite (nth_indep _ q0 (q0 / x)) by (rewrite map_length, LR by exact I; lia).
    rewrite (map_nth (fun v => v / x)). reflexivity. }
  destruct (Nat.eqb_spec a i) as [->|NA]; [exact NB|].
  destruct (Nat.ltb_spec a (S (nrow t))); [|lia].
  rewrite nth_sub_mul.
  - rewrite NB. unfold get. rewrite (row_flat t a F A). reflexivity.
  - rewrite LN. apply LR; exact A.
  - rewrite LR by exact A. lia.
Qed.

(* ---------------------------------------------------------------- solutions and cost *)
Definition lhs (t : tab) (i : nat) (x : nat -> Qc) : Qc := sum (fun j => get t i j * x j) (ncol t).
Definition holds (t : tab) (x : nat -> Qc) : Prop := forall i, (1 <= i <= nrow t)%nat -> lhs t i x = get t i 0.
Definition cost (t : tab) (x : nat -> Qc) : Qc := lhs t 0 x - get t 0 0.

Section Pivot.
Variables (t t' : tab) (i j : nat).
Hypothesis I : (1 <= i <= nrow t)%nat.
Hypothesis J : (1 <= j <= ncol t)%nat.
Hypothesis X : get t i j <> 0.
Hypothesis S : same_shape t t'.
Hypothesis G : forall a b, (a <= nrow t)%nat -> (b <= ncol t)%nat ->
  get t' a b = if (a =? i)%nat then get t i b / get t i j else get t a b - get t a j * (get t i b / get t i j).

Lemma lhs_pivot a x : (a <= nrow t)%nat ->
  lhs t' a x = if (a =? i)%nat then lhs t i x / get t i j else lhs t a x - get t a j * (lhs t i x / get t i j).
Proof.
  intros A. unfold lhs. destruct S as (_ & -> & _).
  rewrite (sum_ext _ (fun b => if (a =? i)%nat then (/ get t i j) * (get t i b * x b)
      else get t a b * x b + (- (get t a j / get t i j)) * (get t i b * x b))).
  - destruct (a =? i)%nat.
    + rewrite sum_scale. unfold Qcdiv. ring.
    + rewrite sum_add, sum_scale. field. exact X.
  - intros b B. rewrite G by lia. destruct (a =? i)%nat; field; exact X.
Qed.

Lemma pivot_holds x : holds t' x <-> holds t x.
Proof.
  unfold holds. destruct S as (-> & _). split; intros H a A.
  - assert (Hi : lhs t i x = get t i 0).
    { specialize (H i I). rewrite lhs_pivot, G, Nat.eqb_refl in H by lia.
      transitivity (lhs t i x / get t i j * get t i j); [field; exact X|]. rewrite H. field. exact X. }
    destruct (Nat.eq_dec a i) as [->|N]; [exact Hi|].
    specialize (H a A). rewrite lhs_pivot, G in H by lia. rewrite (proj2 (Nat.eqb_neq a i) N) in H. rewrite Hi in H.
    transitivity (lhs t a x - get t a j * (get t i 0 / get t i j) + get t a j * (get t i 0 / get t i j)); [ring|].
    rewrite H. ring.
  - rewrite lhs_pivot, G by lia. rewrite (H i I), (H a A). reflexivity.
Qed.

Lemma pivot_cost x : holds t x -> cost t' x = cost t x.
Proof.
  intros H. unfold cost. rewrite lhs_pivot, G by lia.
  destruct (Nat.eqb_spec 0 i); [lia|]. rewrite (H i I). ring.
Qed.
End Pivot.

(* ---------------------------------------------------------------- bases *)
Definition unit_col (t : tab) (i j : nat) : Prop :=
  forall a, (a <= nrow t)%nat -> get t a j = if (a =? i)%nat then 1 else 0.
Definition basis_ok (t : tab) (beta : nat -> nat) : Prop :=
  forall i, (1 <= i <= nrow t)%nat -> (1 <= beta i <= ncol t)%nat /\ unit_col t i (beta i).
Definition rhs_ok (t : tab) : Prop := forall i, (1 <= i <= nrow t)%nat -> 0 <= get t i 0.

Definition set (f : nat -> nat) (i v : nat) : nat -> nat := fun k => if (k =? i)%nat then v else f k.

Lemma one_neq_zero : (1 : Qc) <> 0.
Proof. intros E. apply this_eq in E. discriminate. Qed.

Lemma basis_inj t beta i i' : basis_ok t beta -> (1 <= i <= nrow t)%nat -> (1 <= i' <= nrow t)%nat -> beta i = beta i' -> i = i'.
Proof.
  intros B I I' E. destruct (Nat.eq_dec i i') as [|N]; [assumption|]. exfalso.
  destruct (B i I) as (_ & U), (B i' I') as (_ & U'). specialize (U i ltac:(lia)). specialize (U' i ltac:(lia)).
  rewrite E in U. rewrite U in U'. rewrite Nat.eqb_refl in U'. rewrite (proj2 (Nat.eqb_neq i i') N) in U'.
  exact (one_neq_zero U').
Qed.

Lemma pivot_basis t t' i j beta : (1 <= i <= nrow t)%nat -> (1 <= j <= ncol t)%nat -> get t i j <> 0 -> same_shape t t' ->
  (forall a b, (a <= nrow t)%nat -> (b <= ncol t)%nat ->
    get t' a b = if (a =? i)%nat then get t i b / get t i j else get t a b - get t a j * (get t i b / get t i j)) ->
  basis_ok t beta -> basis_ok t' (set beta i j).
Proof.
  intros I J X (S1 & S2 & _) G B k K. rewrite S1 in K. unfold set. destruct (Nat.eqb_spec k i) as [->|N].
  - split; [lia|]. intros a A. rewrite S1 in A. rewrite G by lia. destruct (a =? i)%nat; field; exact X.
  - destruct (B k K) as (Bk & U). split; [lia|]. intros a A. rewrite S1 in A. rewrite G by lia.
    rewrite (U i) by lia. rewrite (U a) by lia. rewrite (proj2 (Nat.eqb_neq i k)) by lia.
    destruct (Nat.eqb_spec a i) as [->|NA].
    + rewrite (proj2 (Nat.eqb_neq i k)) by lia. field. exact X.
    + destruct (a =? k)%nat; field; exact X.
Qed.

(* the basic solution, plus a multiple th of the direction of column jj *)
Definition ray (t : tab) (beta : nat -> nat) (jj : nat) (th : Qc) (c : nat) : Qc :=
  match find (fun i => (beta i =? c)%nat) (seq 1 (nrow t)) with
  | Some i => get t i 0 - th * get t i jj
  | None => if (c =? jj)%nat then th else 0
  end.

Lemma find_beta t beta i : basis_ok t beta -> (1 <= i <= nrow t)%nat ->
  find (fun k => (beta k =? beta i)%nat) (seq 1 (nrow t)) = Some i.
Proof.
  intros B I. destruct (find _ _) as [k|] eqn:E.
  - apply find_some in E. destruct E as (K & E). apply Nat.eqb_eq in E. apply in_seq in K.
    f_equal. apply (basis_inj t beta); [exact B|lia|lia|exact E].
  - exfalso. pose proof (find_none _ _ E i) as Q. cbv beta in Q.
    rewrite Nat.eqb_refl in Q. discriminate Q. apply in_seq. lia.
Qed.

Lemma lhs_ray t beta jj th a : basis_ok t beta -> (forall i, (1 <= i <= nrow t)%nat -> beta i <> jj) ->
  (1 <= jj <= ncol t)%nat -> (a <= nrow t)%nat ->
  lhs t a (ray t beta jj th) = (if (a =? 0)%nat then 0 else get t a 0 - th * get t a jj) + th * get t a jj.
Proof.
  intros B NB JJ A. unfold lhs.
  (* the terms: column jj, and the unit column of row a *)
  rewrite (sum_ext _ (fun c => (if (c =? jj)%nat then th * get t a jj else 0) +
     (if (a =? 0)%nat then 0 else if (c =? beta a)%nat then get t a 0 - th * get t a jj else 0))).
  - rewrite sum_add. rewrite (sum_single _ _ jj JJ); [rewrite Nat.eqb_refl|intros c C N; rewrite (proj2 (Nat.eqb_neq c jj) N); reflexivity].
    destruct (Nat.eqb_spec a 0) as [->|NA].
    + rewrite sum_zero by reflexivity. ring.
    + destruct (B a ltac:(lia)) as (Ba & _). rewrite (sum_single _ _ (beta a) Ba).
      * rewrite Nat.eqb_refl. ring.
      * intros c C N. rewrite (proj2 (Nat.eqb_neq c (beta a)) N). reflexivity.
  - intros c C. unfold ray. destruct (find _ _) as [k|] eqn:E.
    + apply find_some in E. destruct E as (K & E). apply Nat.eqb_eq in E. apply in_seq in K. subst c.
      destruct (B k ltac:(lia)) as (Bk & U). rewrite (U a A).
      rewrite (proj2 (Nat.eqb_neq (beta k) jj)) by (apply NB; lia).
      destruct (Nat.eqb_spec a k) as [->|NK].
      * destruct (Nat.eqb_spec k 0); [lia|]. rewrite Nat.eqb_refl. ring.
      * destruct (Nat.eqb_spec a 0); [ring|].
        destruct (Nat.eqb_spec (beta k) (beta a)) as [E|_]; [|ring].
        exfalso. apply NK. symmetry. apply (basis_inj t beta); [exact B|lia|lia|exact E].
    + pose proof (find_none _ _ E) as Q.
      assert (Z : (if (a =? 0)%nat then 0 else if (c =? beta a)%nat then get t a 0 - th * get t a jj else 0) = 0).
      { destruct (Nat.eqb_spec a 0); [reflexivity|]. destruct (Nat.eqb_spec c (beta a)) as [->|_]; [|reflexivity].
        exfalso. specialize (Q a). rewrite Nat.eqb_refl in Q. discriminate Q. apply in_seq. lia. }
      rewrite Z. destruct (Nat.eqb_spec c jj) as [->|N]; ring.
Qed.

Lemma ray_holds t beta jj th : basis_ok t beta -> (forall i, (1 <= i <= nrow t)%nat -> beta i <> jj) -> (1 <= jj <= ncol t)%nat ->
  holds t (ray t beta jj th).
Proof.
  intros B NB JJ i I. rewrite lhs_ray by (try assumption; lia). destruct (Nat.eqb_spec i 0); [lia|]. ring.
Qed.
Lemma ray_cost t beta jj th : basis_ok t beta -> (forall i, (1 <= i <= nrow t)%nat -> beta i <> jj) -> (1 <= jj <= ncol t)%nat ->
  cost t (ray t beta jj th) = th * get t 0 jj - get t 0 0.
Proof. intros B NB JJ. unfold cost. rewrite lhs_ray by (try assumption; lia). cbn [Nat.eqb]. ring. Qed.
Lemma ray_nonneg t beta jj th : rhs_ok t -> 0 <= th -> (forall i, (1 <= i <= nrow t)%nat -> get t i jj <= 0) ->
  forall c, 0 <= ray t beta jj th c.
Proof.
  intros R T H c. unfold ray. destruct (find _ _) as [k|] eqn:E.
  - apply find_some in E. destruct E as (K & _). apply in_seq in K.
    specialize (R k ltac:(lia)). specialize (H k ltac:(lia)).
    assert (0 <= th * (- get t k jj)) by (apply Qc_prod_nonneg; [exact T|qc]). qc.
  - destruct (c =? jj)%nat; [exact T|apply Qcle_refl].
Qed.

(* the basic solution itself *)
Definition basic (t : tab) (beta : nat -> nat) (c : nat) : Qc :=
  match find (fun i => (beta i =? c)%nat) (seq 1 (nrow t)) with Some i => get t i 0 | None => 0 end.

Lemma lhs_basic t beta a : basis_ok t beta -> (a <= nrow t)%nat ->
  lhs t a (basic t beta) = if (a =? 0)%nat then 0 else get t a 0.
Proof.
  intros B A. unfold lhs.
  rewrite (sum_ext _ (fun c => if (a =? 0)%nat then 0 else if (c =? beta a)%nat then get t a 0 else 0)).
  - destruct (Nat.eqb_spec a 0) as [->|NA].
    + apply sum_zero. reflexivity.
    + destruct (B a ltac:(lia)) as (Ba & _). rewrite (sum_single _ _ (beta a) Ba).
      * rewrite Nat.eqb_refl. ring.
      * intros c C N. rewrite (proj2 (Nat.eqb_neq c (beta a)) N). reflexivity.
  - intros c C. unfold basic. destruct (find _ _) as [k|] eqn:E.
    + apply find_some in E. destruct E as (K & E). apply Nat.eqb_eq in E. apply in_seq in K. subst c.
      destruct (B k ltac:(lia)) as (Bk & U). rewrite (U a A).
      destruct (Nat.eqb_spec a k) as [->|NK].
      * destruct (Nat.eqb_spec k 0); [lia|]. rewrite Nat.eqb_refl. ring.
      * destruct (Nat.eqb_spec a 0); [ring|].
        destruct (Nat.eqb_spec (beta k) (beta a)) as [E|_]; [|ring].
        exfalso. apply NK. symmetry. apply (basis_inj t beta); [exact B|lia|lia|exact E].
    + pose proof (find_none _ _ E) as Q. destruct (Nat.eqb_spec a 0); [ring|].
      destruct (Nat.eqb_spec c (beta a)) as [->|_]; [|ring].
      exfalso. specialize (Q a). rewrite Nat.eqb_refl in Q. discriminate Q. apply in_seq. lia.
Qed.
Lemma basic_holds t beta : basis_ok t beta -> holds t (basic t beta).
Proof. intros B i I. rewrite lhs_basic by (try assumption; lia). destruct (Nat.eqb_spec i 0); [lia|reflexivity]. Qed.
Lemma basic_cost t beta : basis_ok t beta -> cost t (basic t beta) = - get t 0 0.
Proof. intros B. unfold cost. rewrite lhs_basic by (try assumption; lia). cbn [Nat.eqb]. ring. Qed.
Lemma basic_nonneg t beta : rhs_ok t -> forall c, 0 <= basic t beta c.
Proof.
  intros R c. unfold basic. destruct (find _ _) as [k|] eqn:E; [|apply Qcle_refl].
  apply find_some in E. destruct E as (K & _). apply in_seq in K. apply R. lia.
Qed.
Lemma basic_at t beta i : basis_ok t beta -> (1 <= i <= nrow t)%nat -> basic t beta (beta i) = get t i 0.
Proof. intros B I. unfold basic. rewrite (find_beta t beta i B I). reflexivity. Qed.
Lemma basic_other t beta c : (forall i, (1 <= i <= nrow t)%nat -> beta i <> c) -> basic t beta c = 0.
Proof.
  intros H. unfold basic. destruct (find _ _) as [k|] eqn:E; [|reflexivity].
  apply find_some in E. destruct E as (K & E). apply Nat.eqb_eq in E. apply in_seq in K. exfalso. apply (H k); [lia|exact E].
Qed.
Lemma ray_other t beta jj th c : (forall i, (1 <= i <= nrow t)%nat -> beta i <> c) -> c <> jj -> ray t beta jj th c = 0.
Proof.
  intros H N. unfold ray. destruct (find _ _) as [k|] eqn:E; [|rewrite (proj2 (Nat.eqb_neq c jj) N); reflexivity].
  apply find_some in E. destruct E as (K & E). apply Nat.eqb_eq in E. apply in_seq in K. exfalso. apply (H k); [lia|exact E].
Qed.
