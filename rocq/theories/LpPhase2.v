(* What lp_solution does after the standard form: both phases, when there is no row with "<>". *)
From Coq Require Import ZArith QArith Qcanon List Bool Arith Lia.
From Verif Require Import LpModel LpBase LpTab LpSimplex LpPhase LpPhase1.
Import ListNotations.
Open Scope Qc_scope.

(* the part of lp_solution from FindBfs on *)
Definition solve (fuel n : nat) (s : std) : res (option (list Qc)) :=
  do o1 <- FindBfs fuel s ;;
  match o1 with
  | None => Ok None
  | Some t1 =>
      do t2 <- addNE t1 ;;
      do o3 <- (if strict_ineq t2 then solveStrictIneq fuel t2 else Ok (Some t2)) ;;
      match o3 with
      | None => Ok None
      | Some t3 =>
          do o4 <- resolve fuel (length (unres t3)) t3 ;;
          match o4 with None => Ok None | Some t4 => Ok (Some (bfs t4 n)) end
      end
  end.

Lemma set_row0_get t c i b : flat t -> (i <= nrow t)%nat -> get (set_row t 0 c) i b = if (i =? 0)%nat then nth b c q0 else get t i b.
Proof.
  intros F Hi. unfold get, row, set_row, with_mem. cbn [ptr mem]. rewrite !ptr_flat by (try assumption; lia).
  destruct F as (_ & L & _). rewrite nth_upd by lia. destruct (i =? 0)%nat; reflexivity.
Qed.

(* the solution read off from find_basis *)
Lemma fb_basis t beta : basis_ok t beta -> exists beta1, basis_ok t beta1 /\
  forall j, (1 <= j <= ncol t)%nat -> is_eps t j = false ->
    basic t beta1 j = let i := nth j (find_basis t) 0%nat in if (0 <? i)%nat then get t i 0 else 0.
Proof.
  intros B. pose proof (find_basis_ok t) as FB. cbv zeta in FB. set (basis := find_basis t) in *.
  destruct FB as (LB & B0 & FB1 & FB2 & FB3).
  set (beta1 := fun i => match find (fun j => (nth j basis 0 =? i)%nat) (seq 1 (ncol t)) with Some j => j | None => beta i end).
  assert (Bt : forall i, (1 <= i <= nrow t)%nat ->
    ((1 <= beta1 i <= ncol t)%nat /\ nth (beta1 i) basis 0%nat = i) \/ (beta1 i = beta i /\ is_eps t (beta i) = true)).
  { intros i Hi. unfold beta1. destruct (find _ _) as [j|] eqn:Fj.
    - left. apply find_some in Fj. destruct Fj as (Hj & Ej). apply in_seq in Hj. apply Nat.eqb_eq in Ej. split; [lia|exact Ej].
    - right. split; [reflexivity|]. destruct (is_eps t (beta i)) eqn:E; [reflexivity|]. exfalso.
      destruct (B i Hi) as (Hb & U). destruct (FB3 i (beta i) Hi Hb U E) as (j & Hj & Ej).
      pose proof (find_none _ _ Fj j) as X. cbv beta in X. rewrite Ej, Nat.eqb_refl in X. discriminate X. apply in_seq. lia. }
  assert (Bok : basis_ok t beta1).
  { intros i Hi. destruct (Bt i Hi) as [(X1 & X2)|(X1 & X2)].
    - split; [exact X1|]. destruct (FB1 (beta1 i) X1) as (_ & U & _); [lia|]. rewrite X2 in U. exact U.
    - rewrite X1. apply B. exact Hi. }
  exists beta1. split; [exact Bok|]. intros j Hj Ej. cbv zeta. destruct (Nat.ltb_spec 0 (nth j basis 0%nat)) as [P|P].
  - destruct (FB1 j Hj P) as (L & U & _). set (i := nth j basis 0%nat) in *.
    assert (Eb : beta1 i = j).
    { destruct (Bt i ltac:(lia)) as [(X1 & X2)|(X1 & X2)].
      - apply FB2; try lia.
      - exfalso. pose proof (FB3 i j ltac:(lia) Hj U Ej) as (j' & Hj' & Ej').
        unfold beta1 in X1. destruct (find _ _) as [j2|] eqn:Fj.
        + apply find_some in Fj. destruct Fj as (Hj2 & Ej2). apply in_seq in Hj2. apply Nat.eqb_eq in Ej2.
          assert (j2 = j) by (apply FB2; [lia|lia|rewrite Ej2; lia|rewrite Ej2; reflexivity]). rewrite <- X1 in X2. congruence.
        + pose proof (find_none _ _ Fj j') as X. cbv beta in X. rewrite Ej', Nat.eqb_refl in X. discriminate X. apply in_seq. lia. }
    rewrite <- Eb. apply basic_at; [exact Bok|lia].
  - apply basic_other. intros i Hi E. destruct (Bt i Hi) as [(X1 & X2)|(X1 & X2)]; [rewrite E in X2; lia|].
    rewrite X1 in E. rewrite E in X2. congruence.
Qed.

(* bfs, if the first n columns belong to the n variables and the others to none *)
Lemma bfs_ok t beta n : basis_ok t beta -> (n <= ncol t)%nat ->
  (forall j, (1 <= j <= n)%nat -> nth j (vars t) 0%Z = Z.of_nat j) -> (forall j, (n < j)%nat -> nth j (vars t) 0%Z = 0%Z) ->
  (forall j, (1 <= j <= n)%nat -> is_eps t j = false) -> rhs_ok t ->
  exists y, holds t y /\ nonneg (ncol t) y /\ length (bfs t n) = n /\ forall k, (k < n)%nat -> nth k (bfs t n) q0 = y (S k).
Proof.
  intros B NC V1 V2 NE R. destruct (fb_basis t beta B) as (beta1 & B1 & Y).
  exists (basic t beta1). split; [apply basic_holds; exact B1|]. split; [intros j _; apply basic_nonneg; exact R|].
  unfold bfs. set (f := fun s j => _).
  assert (H : forall k, (k <= ncol t)%nat -> let l := fold_left f (seq 1 k) (repeat q0 n) in
    length l = n /\ forall a, (a < n)%nat -> nth a l q0 = if (a <? k)%nat then basic t beta1 (S a) else 0).
  { induction k as [|k IH]; intros K; cbv zeta.
    - cbn [seq fold_left]. split; [apply repeat_length|]. intros a Ha. rewrite nth_repeat. reflexivity.
    - rewrite seq_S, fold_left_app. cbn [fold_left plus]. specialize (IH ltac:(lia)). cbv zeta in IH.
      set (l := fold_left f (seq 1 k) (repeat q0 n)) in *. destruct IH as (L & IH).
      destruct (Nat.leb_spec (S k) n) as [Kn|Kn].
      + pose proof (Y (S k) ltac:(lia) (NE (S k) ltac:(lia))) as YV. cbv zeta in YV. unfold f. rewrite V1 by lia.
        destruct (Z.eqb_spec (Z.of_nat (S k)) 0); [lia|]. cbn [negb andb].
        replace (Z.to_nat (Z.abs (Z.of_nat (S k)) - 1)) with k by lia.
        destruct (0 <? nth (S k) (find_basis t) 0)%nat.
        * split; [rewrite upd_length; exact L|]. intros a Ha. rewrite nth_upd by lia.
          destruct (Nat.eqb_spec a k) as [->|N].
          -- rewrite IH by lia. rewrite Nat.ltb_irrefl. rewrite (proj2 (Nat.ltb_lt k (S k))) by lia. rewrite YV. ring.
          -- rewrite IH by lia. destruct (Nat.ltb_spec a k), (Nat.ltb_spec a (S k)); try lia; reflexivity.
        * split; [exact L|]. intros a Ha. rewrite IH by lia. destruct (Nat.ltb_spec a k), (Nat.ltb_spec a (S k)); try lia; try reflexivity.
          replace a with k by lia. rewrite YV. reflexivity.
      + unfold f. rewrite V2 by lia. cbn [Z.eqb negb andb]. split; [exact L|]. intros a Ha. rewrite IH by lia.
        destruct (Nat.ltb_spec a k), (Nat.ltb_spec a (S k)); try lia; reflexivity. }
  destruct (H (ncol t) ltac:(lia)) as (L & G). split; [exact L|]. intros k K. rewrite G by exact K.
  rewrite (proj2 (Nat.ltb_lt k (ncol t))) by lia. reflexivity.
Qed.

Section Solve.
Variable s : std.
Let m := length (s_rows s).
Let n := s_ncol s.
Hypothesis rows_len : forall r, In r (s_rows s) -> length r = S n.
Hypothesis rhs_pos : forall k, (1 <= k <= m)%nat -> 0 <= A s k 0.
Hypothesis eps_in : forall e, s_eps s = Some e -> (1 <= e <= n)%nat.
Hypothesis indep : forall lam : nat -> Qc,
  (forall b, (b <= n)%nat -> s_eps s <> Some b -> sum (fun k => lam k * A s k b) m = 0) ->
  forall k, (1 <= k <= m)%nat -> lam k = 0.
Hypothesis no_ne : s_unres s = [].

(* the variables of the problem are the first n0 columns *)
Definition plain (n0 : nat) : Prop :=
  (n0 <= n)%nat /\ (forall j, (1 <= j <= n0)%nat -> nth j (s_vars s) 0%Z = Z.of_nat j) /\ (forall j, (n0 < j)%nat -> nth j (s_vars s) 0%Z = 0%Z) /\
  (forall e, s_eps s = Some e -> (n0 < e)%nat).

Definition read_off (n0 : nat) (l : list Qc) : Prop :=
  plain n0 -> exists y, sol s y /\ nonneg n y /\ length l = n0 /\ forall k, (k < n0)%nat -> nth k l q0 = y (S k).

Lemma solve_ok fuel n0 :
  solve fuel n0 s = More \/
  (solve fuel n0 s = Ok None /\
     ((forall y, nonneg n y -> (forall e, s_eps s = Some e -> y e = 0) -> ~ sol s y) \/
      (exists e, s_eps s = Some e /\ forall y, nonneg n y -> sol s y -> y e <= 0))) \/
  (exists l, solve fuel n0 s = Ok (Some l) /\
     (exists y, nonneg n y /\ sol s y /\ forall e, s_eps s = Some e -> 0 < y e) /\ read_off n0 l).
Proof.
  unfold solve.
  destruct (FindBfs_ok s rows_len rhs_pos eps_in indep fuel) as [E|[(E & H)|(t & beta & E & W)]]; rewrite E; cbn [bind].
  { left. reflexivity. }
  { right. left. split; [reflexivity|left; exact H]. }
  destruct W as [F N1 N2 N3 N4 N5 B R NE C H].
  change (nrow t = m) in N1. change (ncol t = n) in N2. change (forall i, (1 <= i <= m)%nat -> is_eps t (beta i) = false) in NE.
  change (forall j, (j <= n)%nat -> get t 0 j = 0) in C.
  assert (E2 : addNE t = Ok t) by (unfold addNE; rewrite N4, no_ne; reflexivity).
  rewrite E2. cbn [bind].
  assert (RO : forall t' beta', same_shape t t' -> basis_ok t' beta' -> rhs_ok t' -> (forall x, holds t' x <-> holds t x) -> read_off n0 (bfs t' n0)).
  { intros t' beta' (S1 & S2 & S3 & S4 & S5) B' R' H' (P1 & P2 & P3 & P4).
    destruct (bfs_ok t' beta' n0 B') as (y & Y1 & Y2 & Y3 & Y4).
    - lia.
    - intros j Hj. rewrite S5, N5. apply P2. exact Hj.
    - intros j Hj. rewrite S5, N5. apply P3. exact Hj.
    - intros j Hj. unfold is_eps. rewrite S3, N3. destruct (s_eps s) as [e|]; [|reflexivity]. pose proof (P4 e eq_refl). apply Nat.eqb_neq. lia.
    - exact R'.
    - exists y. split; [apply H, H', Y1|]. split; [rewrite S2, N2 in Y2; exact Y2|]. split; [exact Y3|exact Y4]. }
  unfold strict_ineq. rewrite N3. destruct (s_eps s) as [e|] eqn:Ee.
  - pose proof (eps_in e eq_refl) as He.
    destruct (existsb _ _) eqn:X.
    + (* maximise epsilon *)
      unfold solveStrictIneq. set (t2 := cost_eps t).
      assert (EC : eps_col t = e) by (unfold eps_col; rewrite N3; reflexivity).
      assert (G : forall i b, (i <= m)%nat -> (b <= n)%nat -> get t2 i b = if (i =? 0)%nat then if (b =? e)%nat then - (1) else 0 else get t i b).
      { intros i b Hi Hb. unfold t2, cost_eps. rewrite EC, set_row0_get by (try assumption; lia).
        destruct (i =? 0)%nat; [|reflexivity]. rewrite nth_upd.
        - destruct (b =? e)%nat; [apply Qc_is_canon; reflexivity|]. change (get t 0 b = 0). apply C. exact Hb.
        - rewrite row_flat by (try assumption; lia). destruct F as (_ & _ & L). rewrite L by lia. lia. }
      assert (F2 : flat t2).
      { unfold t2, cost_eps, set_row. rewrite ptr_flat by (try assumption; lia).
        split; [apply F|]. cbn [with_mem mem nrow ncol]. split; [rewrite upd_length; apply F|].
        intros i Hi. rewrite nth_upd by (destruct F as (_ & L & _); lia). destruct (Nat.eqb_spec i 0).
        - rewrite upd_length, row_flat by (try assumption; lia). apply F. lia.
        - apply F. exact Hi. }
      assert (S2 : same_shape t t2) by (repeat split).
      assert (H2 : forall x, holds t2 x <-> holds t x).
      { intros x. unfold holds. change (nrow t2) with (nrow t). rewrite N1.
        assert (EQ : forall i, (1 <= i <= m)%nat -> lhs t2 i x = lhs t i x).
        { intros i Hi. unfold lhs. change (ncol t2) with (ncol t). rewrite N2. apply sum_ext. intros j Hj.
          rewrite G by lia. destruct (Nat.eqb_spec i 0); [lia|reflexivity]. }
        split; intros Q i Hi; specialize (Q i Hi); rewrite EQ in * by exact Hi; rewrite G in * by lia;
          destruct (Nat.eqb_spec i 0); try lia; exact Q. }
      assert (C2 : forall x, cost t2 x = - x e).
      { intros x. unfold cost, lhs. change (ncol t2) with (ncol t). rewrite N2. rewrite (sum_single _ _ e He).
        - rewrite !G by lia. rewrite !Nat.eqb_refl. rewrite (proj2 (Nat.eqb_neq 0 e)) by lia. ring.
        - intros j Hj N. rewrite G by lia. rewrite Nat.eqb_refl, (proj2 (Nat.eqb_neq j e) N). ring. }
      assert (L2 : loop_ok false (fun _ => True) t2 beta).
      { constructor; [exact F2| | |discriminate|exact Logic.I].
        - intros i Hi. change (nrow t2) with (nrow t) in *. change (ncol t2) with (ncol t). destruct (B i Hi) as (Hb & U).
          split; [exact Hb|]. intros a Ha. change (nrow t2) with (nrow t) in Ha. rewrite G by lia. destruct (Nat.eqb_spec a 0) as [->|N].
          + pose proof (NE i ltac:(lia)) as X'. unfold is_eps in X'. rewrite N3 in X'. rewrite X'.
            destruct (Nat.eqb_spec 0 i); [lia|reflexivity].
          + apply U. exact Ha.
        - intros i Hi. change (nrow t2) with (nrow t) in Hi. rewrite G by lia. destruct (Nat.eqb_spec i 0); [lia|]. apply R. lia. }
      destruct (simplex_ok false (fun _ => True) (fun _ _ _ _ _ _ => Logic.I) fuel t2 beta L2)
        as [E3|(t3 & ub & beta3 & E3 & S3 & [F3 B3 R3 _ _] & D3 & H3 & C3)]; rewrite E3; cbn [bind]; [left; reflexivity|].
      pose proof (same_shape_trans t t2 t3 S2 S3) as S23. pose proof S23 as (M1 & M2 & M3 & M4 & M5). rewrite N1 in M1. rewrite N2 in M2.
      assert (CV : forall x, holds t3 x -> cost t3 x = - x e).
      { intros x Hx. rewrite C3 by (apply H3; exact Hx). apply C2. }
      assert (SOL : forall x, holds t3 x <-> sol s x) by (intros x; rewrite H3, H2; apply H).
      assert (G0 : basic t3 beta3 e = get t3 0 0).
      { pose proof (CV _ (basic_holds t3 beta3 B3)) as Q. rewrite basic_cost in Q by exact B3. qc. }
      assert (G0' : 0 <= get t3 0 0) by (rewrite <- G0; apply basic_nonneg; exact R3).
      assert (YES : (0 < get t3 0 0 \/ ub = true) -> exists y, nonneg n y /\ sol s y /\ forall e0, Some e = Some e0 -> 0 < y e0).
      { intros [P| ->].
        - exists (basic t3 beta3). split; [intros j _; apply basic_nonneg; exact R3|]. split; [apply SOL, basic_holds, B3|].
          intros e0 [= <-]. rewrite G0. exact P.
        - destruct D3 as (jj & J & XX & L & U). pose proof (ended_not_basic false t3 beta3 jj B3 L XX) as NB.
          exists (ray t3 beta3 jj 1).
          assert (HR : holds t3 (ray t3 beta3 jj 1)) by (apply ray_holds; assumption).
          split; [intros j _; apply ray_nonneg; try assumption; qc|]. split; [apply SOL; exact HR|].
          intros e0 [= <-]. pose proof (CV _ HR) as Q. rewrite ray_cost in Q by assumption. qc. }
      destruct (is_feasible t3 ub) eqn:IF; cbn [bind].
      * right. right. rewrite M4, N4, no_ne. cbn [length resolve bind]. eexists. split; [reflexivity|]. split.
        -- apply YES. unfold is_feasible in IF. destruct (qlt q0 (get t3 0 0)) eqn:Q1; [left; apply qlt_iff; exact Q1|]. destruct ub; [right; reflexivity|].
           exfalso. apply qlt_false in Q1. cbn [orb negb] in IF. rewrite andb_true_r in IF.
           destruct (qeq (get t3 0 0) q0) eqn:Q2; [discriminate|]. apply qeq_false in Q2. apply Q2. qc.
        -- apply (RO t3 beta3); try assumption. intros x. rewrite H3. apply H2.
      * right. left. split; [reflexivity|]. right. exists e. split; [reflexivity|]. intros y Yn Sy.
        unfold is_feasible in IF. destruct (qlt q0 (get t3 0 0)) eqn:Q1; [discriminate|]. apply qlt_false in Q1. destruct ub; [discriminate|].
        cbn in D3. pose proof (CV y (proj2 (SOL y) Sy)) as Q. unfold cost in Q.
        assert (0 <= lhs t3 0 y). { apply sum_nonneg. intros j Hj. rewrite M2 in Hj. apply Qc_prod_nonneg; [apply D3; [rewrite M2; exact Hj|reflexivity]|apply Yn; exact Hj]. }
        qc.
    + (* epsilon is free *)
      cbn [bind]. rewrite N4, no_ne. cbn [length resolve bind]. right. right. eexists. split; [reflexivity|]. split.
      * exists (fun j => if (j =? e)%nat then 1 else basic t beta j). split; [|split].
        -- intros j _. destruct (j =? e)%nat; [qc|apply basic_nonneg; exact R].
        -- apply H. intros i Hi. rewrite <- (basic_holds t beta B i Hi). unfold lhs. apply sum_ext. intros j Hj.
           destruct (Nat.eqb_spec j e) as [->|]; [|reflexivity].
           assert (Z : get t i e = 0).
           { destruct (qeq (get t i e) q0) eqn:Q; [apply qeq_iff; exact Q|]. exfalso.
             assert (Y : existsb (fun i => negb (qeq (get t i e) q0)) (seq 1 (nrow t)) = true); [|congruence].
             apply existsb_exists. exists i. split; [apply in_seq; lia|rewrite Q; reflexivity]. }
           rewrite Z. ring.
        -- intros e0 [= <-]. rewrite Nat.eqb_refl. qc.
      * apply (RO t beta); try assumption; [repeat split|intros x; reflexivity].
  - cbn [bind]. rewrite N4, no_ne. cbn [length resolve bind]. right. right. eexists. split; [reflexivity|]. split.
    + exists (basic t beta). split; [intros j _; apply basic_nonneg; exact R|]. split; [apply H, basic_holds, B|]. discriminate.
    + apply (RO t beta); try assumption; [repeat split|intros x; reflexivity].
Qed.
End Solve.
