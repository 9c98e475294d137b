(* FindBfs: whether there is a basic feasible solution. *)
From Coq Require Import ZArith QArith Qcanon List Bool Arith Lia.
From Verif Require Import LpModel LpBase LpTab LpSimplex LpPhase.
Import ListNotations.
Open Scope Qc_scope.

Section Phase.
Variable s : std.
Let m := length (s_rows s).
Let n := s_ncol s.
(* entry b of row k, 1 <= k <= m *)
Definition A (k b : nat) : Qc := nth b (nth (k - 1) (s_rows s) []) q0.

Hypothesis rows_len : forall r, In r (s_rows s) -> length r = S n.
Hypothesis rhs_pos : forall k, (1 <= k <= m)%nat -> 0 <= A k 0.
Hypothesis eps_in : forall e, s_eps s = Some e -> (1 <= e <= n)%nat.

Definition sol (y : nat -> Qc) : Prop := forall k, (1 <= k <= m)%nat -> sum (fun j => A k j * y j) n = A k 0.

Lemma sub_row_length r1 r2 : length r1 = length r2 -> length (sub_row r1 r2) = length r1.
Proof. intros E. unfold sub_row. rewrite map_length, combine_length. lia. Qed.
Lemma nth_sub_row r1 r2 b : length r1 = length r2 -> (b < length r1)%nat -> nth b (sub_row r1 r2) q0 = nth b r1 q0 - nth b r2 q0.
Proof.
  intros E B. unfold sub_row. rewrite (nth_indep _ q0 ((fun p => fst p - snd p) (q0, q0))).
  - rewrite (map_nth (fun p => fst p - snd p)), combine_nth by exact E. reflexivity.
  - rewrite map_length, combine_length. lia.
Qed.

Lemma fold_sub_row rs : forall c, length c = S n -> (forall r, In r rs -> length r = S n) ->
  length (fold_left sub_row rs c) = S n /\
  forall b, (b <= n)%nat -> nth b (fold_left sub_row rs c) q0 = nth b c q0 - sum (fun k => nth b (nth (k - 1) rs []) q0) (length rs).
Proof.
  induction rs as [|r rs IH] using rev_ind; intros c L H; cbn [fold_left length sum].
  - split; [exact L|]. intros. ring.
  - rewrite fold_left_app. cbn [fold_left].
    destruct (IH c L) as (L' & V); [intros; apply H; apply in_or_app; left; assumption|].
    assert (LR : length r = S n) by (apply H; apply in_or_app; right; left; reflexivity).
    split; [rewrite sub_row_length; lia|]. intros b B. rewrite nth_sub_row by lia. rewrite V by exact B.
    rewrite app_length. cbn [length]. rewrite Nat.add_1_r. cbn [sum].
    rewrite (sum_ext (fun k => nth b (nth (k - 1) (rs ++ [r]) []) q0) (fun k => nth b (nth (k - 1) rs []) q0)).
    + rewrite app_nth2 by lia. replace (S (length rs) - 1 - length rs)%nat with 0%nat by lia. cbn [nth]. ring.
    + intros k K. rewrite app_nth1 by lia. reflexivity.
Qed.

Let t0 := artificial s.

Lemma t0_row i : (1 <= i <= m)%nat -> nth i (mem t0) [] = nth (i - 1) (s_rows s) [] ++ map (fun k => if (k =? i - 1)%nat then q1 else q0) (seq 0 m).
Proof.
  intros Hi. unfold t0, artificial. cbn [mem]. destruct i as [|i]; [lia|]. cbn [nth].
  fold m. replace (S i - 1)%nat with i by lia.
  set (g := fun p : nat * list Qc => _).
  rewrite (nth_indep _ [] (g (0%nat, []))) by (rewrite map_length, combine_length, seq_length; fold m; lia).
  rewrite (map_nth g). rewrite combine_nth by (rewrite seq_length; reflexivity). unfold g. cbn [fst snd].
  rewrite seq_nth by lia. reflexivity.
Qed.

Lemma row_len k : (1 <= k <= m)%nat -> length (nth (k - 1) (s_rows s) []) = S n.
Proof. intros K. apply rows_len, nth_In. fold m. lia. Qed.

Lemma t0_flat : flat t0.
Proof.
  split; [reflexivity|]. cbn [t0 artificial nrow ncol]. fold m n. split.
  - unfold t0, artificial. cbn [mem length]. rewrite map_length, combine_length, seq_length. fold m. lia.
  - intros i Hi. change (nrow t0) with m in Hi. destruct i as [|i].
    + unfold t0, artificial. cbn [mem nth]. rewrite app_length, repeat_length. fold m n.
      destruct (fold_sub_row (s_rows s) (repeat q0 (S n)) (repeat_length _ _) rows_len) as (L & _). rewrite L. lia.
    + rewrite t0_row by lia. rewrite app_length, map_length, seq_length, row_len by lia. lia.
Qed.

Lemma t0_get i b : (1 <= i <= m)%nat -> (b <= n)%nat -> get t0 i b = A i b.
Proof.
  intros Hi B. unfold get. rewrite (row_flat t0 i t0_flat) by (change (nrow t0) with m; lia). rewrite t0_row by exact Hi.
  rewrite app_nth1; [reflexivity|]. rewrite row_len by exact Hi. lia.
Qed.
Lemma t0_art i k : (1 <= i <= m)%nat -> (1 <= k <= m)%nat -> get t0 i (n + k) = if (k =? i)%nat then 1 else 0.
Proof.
  intros Hi K. unfold get. rewrite (row_flat t0 i t0_flat) by (change (nrow t0) with m; lia). rewrite t0_row by exact Hi.
  rewrite app_nth2 by (rewrite row_len by exact Hi; lia). rewrite row_len by exact Hi.
  set (g := fun a : nat => _). rewrite (nth_indep _ q0 (g 0%nat)) by (rewrite map_length, seq_length; lia).
  rewrite (map_nth g), seq_nth by lia. unfold g. cbn [plus].
  destruct (Nat.eqb_spec (n + k - S n) (i - 1)), (Nat.eqb_spec k i); try lia; reflexivity.
Qed.
Lemma t0_cost b : (b <= n)%nat -> get t0 0 b = - sum (fun k => A k b) m.
Proof.
  intros B. unfold get. rewrite (row_flat t0 0 t0_flat) by (change (nrow t0) with m; lia).
  unfold t0, artificial. cbn [mem nth].
  destruct (fold_sub_row (s_rows s) (repeat q0 (S n)) (repeat_length _ _) rows_len) as (L & V).
  rewrite app_nth1 by (unfold n in *; lia). unfold n in *. rewrite V by exact B.
  rewrite nth_repeat. unfold A. fold m. change q0 with 0. ring.
Qed.
Lemma t0_cost_art k : (1 <= k <= m)%nat -> get t0 0 (n + k) = 0.
Proof.
  intros K. unfold get. rewrite (row_flat t0 0 t0_flat) by (change (nrow t0) with m; lia).
  unfold t0, artificial. cbn [mem nth].
  destruct (fold_sub_row (s_rows s) (repeat q0 (S n)) (repeat_length _ _) rows_len) as (L & _).
  rewrite app_nth2 by (unfold n in *; lia). rewrite nth_repeat. reflexivity.
Qed.

Lemma t0_lhs i x : (1 <= i <= m)%nat -> lhs t0 i x = sum (fun j => A i j * x j) n + x (n + i)%nat.
Proof.
  intros Hi. unfold lhs. change (ncol t0) with (n + m)%nat. rewrite sum_split. f_equal.
  - apply sum_ext. intros j J. rewrite t0_get by lia. reflexivity.
  - rewrite (sum_single _ _ i Hi).
    + rewrite t0_art, Nat.eqb_refl by lia. ring.
    + intros k K N. rewrite t0_art, (proj2 (Nat.eqb_neq k i) N) by lia. ring.
Qed.
Lemma t0_holds x : holds t0 x <-> forall k, (1 <= k <= m)%nat -> sum (fun j => A k j * x j) n + x (n + k)%nat = A k 0.
Proof.
  unfold holds. change (nrow t0) with m. split; intros H k K; specialize (H k K).
  - rewrite t0_lhs, t0_get in H by lia. exact H.
  - rewrite t0_lhs, t0_get by lia. exact H.
Qed.
Lemma t0_cost_val x : holds t0 x -> cost t0 x = sum (fun k => x (n + k)%nat) m.
Proof.
  intros H. unfold cost. rewrite (t0_cost 0) by lia. unfold lhs. change (ncol t0) with (n + m)%nat. rewrite sum_split.
  rewrite (sum_zero (fun j => get t0 0 (n + j) * x (n + j)%nat)) by (intros k K; rewrite t0_cost_art by lia; ring).
  rewrite (sum_ext (fun j => get t0 0 j * x j) (fun j => sum (fun k => (-(1)) * (A k j * x j)) m)).
  - rewrite <- sum_swap. rewrite (sum_ext (fun k => x (n + k)%nat) (fun k => A k 0 + (-(1)) * sum (fun j => A k j * x j) n)).
    + rewrite sum_add. rewrite (sum_ext (fun i => sum (fun j => - (1) * (A i j * x j)) n) (fun k => - (1) * sum (fun j => A k j * x j) n)).
      * ring.
      * intros k K. apply sum_scale.
    + intros k K. rewrite <- (proj1 (t0_holds x) H k K). ring.
  - intros j J. rewrite t0_cost by lia. rewrite sum_scale, sum_scale_r. ring.
Qed.

(* every row is the combination of the given rows whose coefficients stand in the artificial columns *)
Definition comb (t : tab) : Prop :=
  nrow t = m -> ncol t = (n + m)%nat ->
  forall i b, (1 <= i <= m)%nat -> (b <= n)%nat -> get t i b = sum (fun k => get t i (n + k) * A k b) m.

Lemma comb_pivot t t' i j : pivoted t t' i j -> comb t -> comb t'.
Proof.
  intros (I & J & X & (S1 & S2 & _) & G) C N1 N2. rewrite S1 in N1. rewrite S2 in N2. specialize (C N1 N2).
  intros a b Ha Hb. rewrite G by lia.
  rewrite (sum_ext _ (fun k => if (a =? i)%nat then / get t i j * (get t i (n + k) * A k b)
     else get t a (n + k) * A k b + (- (get t a j / get t i j)) * (get t i (n + k) * A k b))).
  - destruct (a =? i)%nat.
    + rewrite sum_scale, <- C by lia. unfold Qcdiv. ring.
    + rewrite sum_add, sum_scale, <- !C by lia. field. exact X.
  - intros k K. rewrite G by lia. destruct (a =? i)%nat; field; exact X.
Qed.

Lemma t0_comb : comb t0.
Proof.
  intros _ _ i b Hi Hb. rewrite t0_get by assumption. rewrite (sum_single _ _ i Hi).
  - rewrite t0_art, Nat.eqb_refl by lia. ring.
  - intros k K N. rewrite t0_art, (proj2 (Nat.eqb_neq k i) N) by lia. ring.
Qed.

Lemma t0_ok : loop_ok true comb t0 (fun i => (n + i)%nat).
Proof.
  constructor.
  - exact t0_flat.
  - intros i Hi. change (nrow t0) with m in Hi. change (ncol t0) with (n + m)%nat. split; [lia|].
    intros a Ha. change (nrow t0) with m in Ha. destruct a as [|a].
    + rewrite t0_cost_art by lia. destruct (Nat.eqb_spec 0 i); [lia|reflexivity].
    + rewrite t0_art by lia. rewrite Nat.eqb_sym. reflexivity.
  - intros i Hi. change (nrow t0) with m in Hi. rewrite t0_get by lia. apply rhs_pos. exact Hi.
  - intros _ i Hi. change (nrow t0) with m in Hi. unfold is_eps. change (eps t0) with (s_eps s).
    destruct (s_eps s) as [e|] eqn:E; [|reflexivity]. pose proof (eps_in e eq_refl). apply Nat.eqb_neq. lia.
  - exact t0_comb.
Qed.

(* from a solution of the given rows to one of the tableau with artificial variables at 0 *)
Definition pad (y : nat -> Qc) (j : nat) : Qc := if (j <=? n)%nat then y j else 0.
Lemma pad_lo y j : (j <= n)%nat -> pad y j = y j.
Proof. intros H. unfold pad. rewrite (proj2 (Nat.leb_le j n) H). reflexivity. Qed.
Lemma pad_hi y j : (n < j)%nat -> pad y j = 0.
Proof. intros H. unfold pad. rewrite (proj2 (Nat.leb_gt j n) H). reflexivity. Qed.
Lemma pad_holds y : holds t0 (pad y) <-> sol y.
Proof.
  rewrite t0_holds. unfold sol.
  assert (E : forall k, (1 <= k <= m)%nat -> sum (fun j => A k j * pad y j) n + pad y (n + k) = sum (fun j => A k j * y j) n).
  { intros k K. rewrite pad_hi by lia. rewrite (sum_ext _ (fun j => A k j * y j)); [ring|].
    intros j J. rewrite pad_lo by lia. reflexivity. }
  split; intros H k K; specialize (H k K); rewrite E in * by exact K; exact H.
Qed.

Definition nonneg (k : nat) (y : nat -> Qc) : Prop := forall j, (1 <= j <= k)%nat -> 0 <= y j.

(* the rows, without the column of epsilon, are linearly independent *)
Hypothesis indep : forall lam : nat -> Qc,
  (forall b, (b <= n)%nat -> s_eps s <> Some b -> sum (fun k => lam k * A k b) m = 0) ->
  forall k, (1 <= k <= m)%nat -> lam k = 0.

Section Drive.
Variable t1 : tab.
Hypothesis shape : same_shape t0 t1.
Let basis := find_basis t1.

(* the state of drive_out when the artificial columns up to n + p have been dealt with *)
Record driving (p : nat) (t : tab) (beta : nat -> nat) : Prop := {
  v_flat : flat t;
  v_shape : same_shape t0 t;
  v_basis : basis_ok t beta;
  v_rhs : rhs_ok t;
  v_comb : comb t;
  v_holds : forall x, holds t x <-> holds t0 x;
  v_cost : forall x, holds t0 x -> cost t x = cost t0 x;
  v_eps : forall i, (1 <= i <= m)%nat -> is_eps t (beta i) = false;
  v_left : forall i, (1 <= i <= m)%nat -> (n < beta i)%nat -> (n + p < beta i)%nat /\ get t i 0 = 0;
  v_todo : forall j, (n + p < j <= n + m)%nat -> (0 < nth j basis 0)%nat -> (nth j basis 0 <= m)%nat /\ beta (nth j basis 0%nat) = j;
  v_back : forall i, (1 <= i <= m)%nat -> (n < beta i)%nat -> nth (beta i) basis 0%nat = i }.

Lemma dims t : same_shape t0 t -> nrow t = m /\ ncol t = (n + m)%nat /\ eps t = s_eps s.
Proof. intros (H1 & H2 & H3 & _). repeat split; assumption. Qed.

Lemma drive_loop q : forall p t beta, (p + q = m)%nat -> driving p t beta ->
  exists t' beta', drive_out_loop basis (seq (n + p + 1) q) t = Ok t' /\ driving m t' beta'.
Proof.
  induction q as [|q IH]; intros p t beta PQ D; cbn [seq drive_out_loop].
  - exists t, beta. split; [reflexivity|]. replace m with p by lia. exact D.
  - pose proof D as [F SH B R C H K E L T BK]. destruct (dims t SH) as (N1 & N2 & N3).
    replace (S (n + p + 1))%nat with (n + S p + 1)%nat by lia.
    destruct (Nat.ltb_spec 0 (nth (n + p + 1) basis 0%nat)) as [P|P].
    + set (ii := nth (n + p + 1) basis 0%nat) in *.
      destruct (T (n + p + 1)%nat ltac:(lia) P) as (Li & Bi). fold ii in Li, Bi.
      destruct (L ii ltac:(lia) ltac:(lia)) as (_ & Z).
      destruct (find_non_zero t ii) as [jj|] eqn:FN; cbn [bind].
      * unfold find_non_zero in FN. apply find_some in FN. destruct FN as (J & FN). apply in_seq in J.
        replace (ncol t - nrow t)%nat with n in J by lia.
        apply andb_true_iff in FN. destruct FN as (FE & FN). apply negb_true_iff in FE, FN. apply qeq_false in FN.
        destruct (pivot_pivoted t ii jj F ltac:(lia) ltac:(lia) FN) as (t' & E' & F' & PV). rewrite E'. cbn [bind].
        pose proof PV as (HI & HJ & X & S' & G).
        assert (Z' : forall a, (1 <= a <= m)%nat -> get t' a 0 = get t a 0).
        { intros a Ha. rewrite G by lia. rewrite Z. destruct (Nat.eqb_spec a ii) as [->|]; [rewrite Z|]; field; exact X. }
        apply (IH (S p) t' (set beta ii jj) ltac:(lia)). constructor.
        -- exact F'.
        -- apply (same_shape_trans t0 t t' SH S').
        -- apply (pivot_basis t t' ii jj); assumption.
        -- intros a Ha. destruct S' as (S1 & _). rewrite S1, N1 in Ha. rewrite Z' by exact Ha. apply R. lia.
        -- apply (comb_pivot t t' ii jj PV C).
        -- intros x. rewrite <- H. apply (pivot_holds t t' ii jj); assumption.
        -- intros x Hx. rewrite <- (K x Hx). apply (pivot_cost t t' ii jj); try assumption. apply H. exact Hx.
        -- intros i Hi. unfold is_eps. destruct S' as (_ & _ & S3 & _). rewrite S3. fold (is_eps t (set beta ii jj i)).
           unfold set. destruct (i =? ii)%nat; [exact FE|apply E; exact Hi].
        -- intros i Hi Hb. unfold set in *. destruct (Nat.eqb_spec i ii) as [->|NI]; [lia|].
           destruct (L i Hi Hb) as (L1 & L2). rewrite Z' by exact Hi. split; [|exact L2].
           assert (beta i <> n + p + 1)%nat; [|lia]. intros Eb. apply NI. rewrite <- (BK i Hi Hb), Eb. reflexivity.
        -- intros j Hj Pj. destruct (T j ltac:(lia) Pj) as (T1 & T2). split; [exact T1|]. unfold set.
           destruct (Nat.eqb_spec (nth j basis 0%nat) ii) as [Ej|_]; [|exact T2]. exfalso. rewrite Ej in T2. lia.
        -- intros i Hi Hb. unfold set in *. destruct (Nat.eqb_spec i ii) as [->|NI]; [lia|]. apply BK; assumption.
      * (* the row would be a combination of the given rows without any coefficient *)
        exfalso. pose proof (find_none _ _ FN) as Q.
        assert (Lam : forall k, (1 <= k <= m)%nat -> get t ii (n + k) = 0).
        { apply (indep (fun k => get t ii (n + k))). intros b Hb NE. rewrite <- (C N1 N2 ii b) by lia.
          destruct b as [|b]; [exact Z|]. specialize (Q (S b)). cbv beta in Q.
          replace (ncol t - nrow t)%nat with n in Q by lia. specialize (Q ltac:(apply in_seq; lia)).
          apply andb_false_iff in Q. destruct Q as [Q|Q]; apply negb_false_iff in Q.
          - unfold is_eps in Q. rewrite N3 in Q. destruct (s_eps s) as [e|]; [|discriminate]. apply Nat.eqb_eq in Q. congruence.
          - apply qeq_iff in Q. exact Q. }
        destruct (B ii ltac:(lia)) as (Bb & U). specialize (U ii ltac:(lia)). rewrite Nat.eqb_refl, Bi in U.
        specialize (Lam (p + 1)%nat ltac:(lia)). rewrite Nat.add_assoc in Lam. rewrite Lam in U. symmetry in U. exact (one_neq_zero U).
    + apply (IH (S p) t beta ltac:(lia)). constructor; try assumption.
      * intros i Hi Hb. destruct (L i Hi Hb) as (L1 & L2). split; [|exact L2].
        assert (beta i <> n + p + 1)%nat; [|lia]. intros Eb. pose proof (BK i Hi Hb) as X. rewrite Eb in X. lia.
      * intros j Hj. apply T. lia.
Qed.
End Drive.

(* what comes out of the first phase *)
Record started (t : tab) (beta : nat -> nat) : Prop := {
  w_flat : flat t;
  w_nrow : nrow t = m;
  w_ncol : ncol t = n;
  w_eps : eps t = s_eps s;
  w_unres : unres t = s_unres s;
  w_vars : vars t = s_vars s;
  w_basis : basis_ok t beta;
  w_rhs : rhs_ok t;
  w_noeps : forall i, (1 <= i <= m)%nat -> is_eps t (beta i) = false;
  w_cost : forall j, (j <= n)%nat -> get t 0 j = 0;
  w_holds : forall y, holds t y <-> sol y }.

Lemma cut_get t i b : flat t -> nrow t = m -> ncol t = (n + m)%nat -> (i <= m)%nat -> (b <= n)%nat ->
  get (cut_artificial m t) i b = get t i b.
Proof.
  intros F N1 N2 Hi Hb. unfold get, row, cut_artificial. cbn [ptr mem]. rewrite N1, N2, Nat.add_sub.
  rewrite seq_nth by lia. cbn [plus].
  set (g := fun a => firstn (S n) _). rewrite (nth_indep _ [] (g 0%nat)) by (rewrite map_length, seq_length; lia).
  rewrite (map_nth g), seq_nth by lia. cbn [plus]. unfold g, row.
  pose proof (row_flat t i F ltac:(lia)) as RF. unfold row in RF.
  rewrite <- (firstn_skipn (S n) (nth (nth i (ptr t) 0%nat) (mem t) [])) at 2.
  rewrite app_nth1; [reflexivity|]. rewrite firstn_length, RF. destruct F as (_ & _ & L). rewrite L by lia. lia.
Qed.

Lemma FindBfs_ok fuel :
  FindBfs fuel s = More \/
  (FindBfs fuel s = Ok None /\ forall y, nonneg n y -> (forall e, s_eps s = Some e -> y e = 0) -> ~ sol y) \/
  exists t beta, FindBfs fuel s = Ok (Some t) /\ started t beta.
Proof.
  unfold FindBfs. fold t0. cbv zeta.
  destruct (simplex_ok true comb comb_pivot fuel t0 _ t0_ok) as [H|(t1 & ub & beta & E1 & S1 & L1 & D1 & H1 & C1)].
  { left. rewrite H. reflexivity. }
  rewrite E1. cbn [bind]. destruct L1 as [F1 B1 R1 NE1 K1]. specialize (NE1 eq_refl).
  destruct (dims t1 S1) as (N1 & N2 & N3).
  assert (CV : forall x, holds t1 x -> cost t1 x = sum (fun k => x (n + k)%nat) m).
  { intros x Hx. rewrite C1 by (apply H1; exact Hx). apply t0_cost_val, H1, Hx. }
  destruct ub.
  - (* unbounded: the sum of the artificial variables would become negative *)
    exfalso. destruct D1 as (jj & J & X & L & U).
    pose proof (ended_not_basic true t1 beta jj B1 L X) as NB.
    set (th := (get t1 0 0 - 1) / get t1 0 jj).
    assert (NZ : get t1 0 jj <> 0) by (intros Z; rewrite Z in L; qc).
    set (th' := if qlt th 0 then 0 else th).
    assert (T0 : 0 <= th').
    { unfold th'. destruct (qlt th 0) eqn:Q; [apply Qcle_refl|]. apply qlt_false in Q. exact Q. }
    assert (T1 : th' * get t1 0 jj - get t1 0 0 <= - (1)).
    { assert (TE : th * get t1 0 jj = get t1 0 0 - 1) by (apply Qcdiv_mul; exact NZ).
      unfold th'. destruct (qlt th 0) eqn:Q.
      - apply qlt_iff in Q. assert (0 <= th * get t1 0 jj) by (assert (0 <= (- th) * (- get t1 0 jj)) by (apply Qc_prod_nonneg; qc); qc). qc.
      - qc. }
    pose proof (CV _ (ray_holds t1 beta jj th' B1 NB J)) as CR. rewrite ray_cost in CR by assumption.
    assert (0 <= sum (fun k => ray t1 beta jj th' (n + k)) m).
    { apply sum_nonneg. intros. apply ray_nonneg; assumption. }
    qc.
  - cbn in D1. destruct (qeq (get t1 0 0) q0) eqn:Q.
    + apply qeq_iff in Q. right. right.
      (* the basis that find_basis sees *)
      pose proof (find_basis_ok t1) as FB. cbv zeta in FB. set (basis := find_basis t1) in *.
      destruct FB as (LB & B0 & FB1 & FB2 & FB3). rewrite N1, N2 in *.
      set (beta1 := fun i => match find (fun j => (nth j basis 0 =? i)%nat) (seq 1 (n + m)) with Some j => j | None => 0%nat end).
      assert (Bt : forall i, (1 <= i <= m)%nat -> (1 <= beta1 i <= n + m)%nat /\ nth (beta1 i) basis 0%nat = i).
      { intros i Hi. unfold beta1. destruct (find _ _) as [j|] eqn:Fj.
        - apply find_some in Fj. destruct Fj as (Hj & Ej). apply in_seq in Hj. apply Nat.eqb_eq in Ej. split; [lia|exact Ej].
        - exfalso. destruct (B1 i ltac:(lia)) as (Hb & U). rewrite N2 in Hb.
          destruct (FB3 i (beta i) Hi Hb U) as (j & Hj & Ej); [apply NE1; lia|].
          pose proof (find_none _ _ Fj j) as X. cbv beta in X. rewrite Ej, Nat.eqb_refl in X. discriminate X. apply in_seq. lia. }
      assert (Bt2 : forall j, (1 <= j <= n + m)%nat -> (0 < nth j basis 0)%nat -> (nth j basis 0 <= m)%nat /\ beta1 (nth j basis 0%nat) = j).
      { intros j Hj Pj. destruct (FB1 j Hj Pj) as (X1 & X2 & X3). split; [exact X1|].
        destruct (Bt (nth j basis 0%nat) ltac:(lia)) as (Y1 & Y2). symmetry. apply FB2; try assumption. symmetry. exact Y2. }
      assert (Bok : basis_ok t1 beta1).
      { intros i Hi. rewrite N1 in Hi. rewrite N2. destruct (Bt i Hi) as (X1 & X2). split; [exact X1|].
        destruct (FB1 (beta1 i) X1) as (_ & U & _); [lia|]. rewrite X2 in U. exact U. }
      assert (Art : forall k, (1 <= k <= m)%nat -> basic t1 beta1 (n + k) = 0).
      { apply sum_nonneg_zero; [intros; apply basic_nonneg; exact R1|].
        rewrite <- CV by (apply basic_holds; exact Bok). rewrite basic_cost by exact Bok. rewrite Q. reflexivity. }
      assert (D : driving t1 0 t1 beta1).
      { constructor.
        - exact F1.
        - exact S1.
        - exact Bok.
        - exact R1.
        - exact K1.
        - exact H1.
        - exact C1.
        - intros i Hi. destruct (Bt i Hi) as (X1 & X2). apply FB1; [exact X1|lia].
        - intros i Hi Hb. split; [lia|]. destruct (Bt i Hi) as (X1 & _).
          rewrite <- (basic_at t1 beta1 i Bok) by lia. replace (beta1 i) with (n + (beta1 i - n))%nat by lia. apply Art. lia.
        - intros j Hj. apply Bt2. lia.
        - intros i Hi _. apply Bt. exact Hi. }
      destruct (drive_loop t1 m 0 t1 beta1 eq_refl D) as (t2 & beta2 & E2 & D2).
      assert (DE : drive_out t1 = Ok t2).
      { unfold drive_out. rewrite N1, N2, Nat.add_sub. fold basis in E2. rewrite Nat.add_0_r in E2. exact E2. }
      rewrite DE. cbn [bind].
      destruct D2 as [F2 S2 B2 R2 K2 H2 C2 NE2 L2 _ _]. destruct (dims t2 S2) as (M1 & M2 & M3).
      assert (Bn : forall i, (1 <= i <= m)%nat -> (1 <= beta2 i <= n)%nat).
      { intros i Hi. destruct (B2 i ltac:(lia)) as (X & _). destruct (Nat.ltb_spec n (beta2 i)) as [G|G]; [|lia].
        destruct (L2 i Hi G). lia. }
      assert (CV2 : forall x, holds t2 x -> (forall k, (1 <= k <= m)%nat -> x (n + k)%nat = 0) -> cost t2 x = 0).
      { intros x Hx Z. rewrite C2 by (apply H2; exact Hx). rewrite t0_cost_val by (apply H2; exact Hx). apply sum_zero. exact Z. }
      assert (Z00 : get t2 0 0 = 0).
      { assert (X : cost t2 (basic t2 beta2) = 0).
        { apply CV2; [apply basic_holds; exact B2|]. intros k Hk. apply basic_other. intros i Hi. rewrite M1 in Hi. pose proof (Bn i Hi). lia. }
        rewrite basic_cost in X by exact B2. qc. }
      assert (Z0 : forall j, (j <= n)%nat -> get t2 0 j = 0).
      { intros [|j] Hj; [exact Z00|].
        destruct (find (fun i => (beta2 i =? S j)%nat) (seq 1 m)) as [i|] eqn:Fi.
        - apply find_some in Fi. destruct Fi as (Hi & Ei). apply in_seq in Hi. apply Nat.eqb_eq in Ei.
          destruct (B2 i ltac:(lia)) as (_ & U). rewrite <- Ei. rewrite (U 0%nat) by lia. destruct (Nat.eqb_spec 0 i); [lia|reflexivity].
        - assert (NB : forall i, (1 <= i <= nrow t2)%nat -> beta2 i <> S j).
          { intros i Hi Ei. pose proof (find_none _ _ Fi i) as X. cbv beta in X. rewrite Ei, Nat.eqb_refl in X. discriminate X. apply in_seq. lia. }
          assert (X : cost t2 (ray t2 beta2 (S j) 1) = 0).
          { apply CV2; [apply ray_holds; try assumption; lia|]. intros k Hk. apply ray_other; [|lia].
            intros i Hi. rewrite M1 in Hi. pose proof (Bn i Hi). lia. }
          rewrite ray_cost in X by (try assumption; lia). rewrite Z00 in X. qc. }
      set (t3 := cut_artificial m t2).
      assert (G3 : forall i b, (i <= m)%nat -> (b <= n)%nat -> get t3 i b = get t2 i b) by (intros; apply cut_get; assumption).
      assert (N3' : ncol t3 = n) by (unfold t3, cut_artificial; cbn [ncol]; lia).
      assert (M3' : nrow t3 = m) by (unfold t3, cut_artificial; cbn [nrow]; lia).
      exists t3, beta2. split; [reflexivity|]. constructor.
      * unfold t3, cut_artificial. split; [reflexivity|]. cbn [mem nrow ncol]. rewrite map_length, seq_length. split; [reflexivity|].
        intros i Hi. set (g := fun a => firstn _ _). rewrite (nth_indep _ [] (g 0%nat)) by (rewrite map_length, seq_length; lia).
        rewrite (map_nth g), seq_nth by lia. unfold g. cbn [plus]. rewrite firstn_length, (row_flat t2 i F2) by lia.
        destruct F2 as (_ & _ & L). rewrite L by lia. lia.
      * exact M3'.
      * exact N3'.
      * exact M3.
      * apply S2.
      * apply S2.
      * intros i Hi. rewrite M3' in Hi. rewrite N3'. split; [apply Bn; exact Hi|]. intros a Ha. rewrite M3' in Ha.
        rewrite G3 by (try lia; apply Bn; exact Hi). destruct (B2 i ltac:(lia)) as (_ & U). apply U. lia.
      * intros i Hi. rewrite M3' in Hi. rewrite G3 by lia. apply R2. lia.
      * intros i Hi. apply NE2. exact Hi.
      * intros j Hj. rewrite G3 by lia. apply Z0. exact Hj.
      * intros y. rewrite <- pad_holds, <- H2. unfold holds. rewrite M3', M1.
        assert (E : forall i, (1 <= i <= m)%nat -> lhs t2 i (pad y) = lhs t3 i y).
        { intros i Hi. unfold lhs. rewrite M2, N3', sum_split.
          rewrite (sum_zero (fun j => get t2 i (n + j) * pad y (n + j))) by (intros k Hk; rewrite pad_hi by lia; ring).
          rewrite (sum_ext (fun j => get t2 i j * pad y j) (fun j => get t3 i j * y j)); [ring|].
          intros j Hj. rewrite pad_lo, G3 by lia. reflexivity. }
        split; intros H i Hi; specialize (H i Hi); rewrite E, G3 in * by lia; exact H.
    + apply qeq_false in Q. right. left. split; [reflexivity|]. intros y Y YE Sy.
      pose proof (CV (pad y) (proj2 (H1 _) (proj2 (pad_holds y) Sy))) as CP.
      rewrite sum_zero in CP by (intros k Hk; apply pad_hi; lia).
      pose proof (CV _ (basic_holds t1 beta B1)) as CB. rewrite basic_cost in CB by exact B1.
      assert (0 <= sum (fun k => basic t1 beta (n + k)) m) by (apply sum_nonneg; intros; apply basic_nonneg; exact R1).
      assert (0 <= lhs t1 0 (pad y)).
      { apply sum_nonneg. intros j Hj. destruct (excluded true t1 j) eqn:X.
        - unfold excluded, is_eps in X. rewrite N3 in X. cbn in X. destruct (s_eps s) as [e|] eqn:Ee; [|discriminate].
          apply Nat.eqb_eq in X. subst j. pose proof (eps_in e eq_refl). rewrite pad_lo, (YE e eq_refl) by lia. qc.
        - apply Qc_prod_nonneg; [apply D1; assumption|]. unfold pad. destruct (Nat.leb_spec j n); [apply Y; lia|apply Qcle_refl]. }
      unfold cost in CP. apply Q. qc.
Qed.
End Phase.
