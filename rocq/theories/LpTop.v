(* lp_solution, LP and LPsol for constraints without "<>" and with independent equations. *)
From Coq Require Import ZArith QArith Qcanon List Bool Arith Lia String.
From Verif Require Import LpModel LpBase LpSpec LpTab LpPhase1 LpPhase2 LpStd.
Import ListNotations.
Open Scope Qc_scope.
Open Scope list_scope.
Local Notation length := List.length.

(* ---------------------------------------------------------------- rows of zeros *)
Definition nonzero (r : lrow) : bool := negb (forallb (qeq q0) (l_cols r)).

Lemma zero_row_sat x r : forallb (qeq q0) (l_cols r) = true -> lhs_of x r = 0 /\ rhs_of r = 0.
Proof.
  intros Z. unfold lhs_of, rhs_of. destruct (l_cols r) as [|b c]; [split; reflexivity|]. cbn in *.
  apply andb_true_iff in Z. destruct Z as (Z1 & Z2). apply qeq_iff in Z1. split; [apply dot_zero; exact Z2|symmetry; exact Z1].
Qed.

Lemma eliminate_zeros_ok n rows : Forall (good n) rows ->
  match eliminate_zeros rows with
  | None => forall x, ~ Forall (sat x) rows
  | Some l => l = filter nonzero rows /\
              (forall x, Forall (sat x) rows <-> Forall (sat x) l) /\ (forall x, Forall (wsat x) rows <-> Forall (wsat x) l)
  end.
Proof.
  induction rows as [|r rows IH]; intros G; cbn [eliminate_zeros].
  - split; [reflexivity|]. split; intros x; reflexivity.
  - inversion G as [|r0 l0 G1 G2]; subst. specialize (IH G2). cbn [filter]. unfold nonzero at 1.
    destruct (forallb (qeq q0) (l_cols r)) eqn:Z; cbn [negb].
    + destruct G1 as (_ & N1 & N2).
      assert (ZS := fun x => zero_row_sat x r Z).
      destruct (rel_has_eq (l_rel r)) eqn:Q.
      * assert (S1 : forall x, sat x r /\ wsat x r).
        { intros x. destruct (ZS x) as (E1 & E2). unfold sat, wsat. rewrite E1, E2.
          destruct (l_rel r); try discriminate; cbn; split; try reflexivity; apply Qcle_refl. }
        destruct (eliminate_zeros rows) as [l|].
        -- destruct IH as (-> & I1 & I2). split; [reflexivity|]. split; intros x; rewrite Forall_cons_iff; [rewrite I1|rewrite I2];
             destruct (S1 x); tauto.
        -- intros x F. inversion F. apply (IH x). assumption.
      * intros x F. inversion F as [|? ? F1 F2]; subst. destruct (ZS x) as (E1 & E2). unfold sat in F1. rewrite E1, E2 in F1.
        destruct (l_rel r); try discriminate; try congruence; cbn in F1; qc.
    + destruct (eliminate_zeros rows) as [l|].
      * destruct IH as (-> & I1 & I2). split; [reflexivity|]. split; intros x; rewrite !Forall_cons_iff; [rewrite I1|rewrite I2]; reflexivity.
      * intros x F. inversion F. apply (IH x). assumption.
Qed.

(* ---------------------------------------------------------------- right hand sides at least 0 *)
Definition s1 (r : lrow) : lrow := match standard1_row r with Ok r' => r' | _ => r end.

Record s1_facts (n : nat) (r : lrow) : Prop := {
  a_run : standard1_row r = Ok (s1 r);
  a_good : good n (s1 r);
  a_rhs : 0 <= rhs_of (s1 r);
  a_sat : forall x, sat x (s1 r) <-> sat x r;
  a_wsat : forall x, wsat x (s1 r) <-> wsat x r;
  a_drop : dropped n (s1 r) = dropped n r;
  a_eq : is_eq (s1 r) = is_eq r;
  a_strict : strict_rel (l_rel (s1 r)) = strict_rel (l_rel r);
  a_cols : l_cols (s1 r) = l_cols r \/ l_cols (s1 r) = negate_row (l_cols r) }.

Lemma negate_lhs x r rel' : lhs_of x (LRow rel' (negate_row (l_cols r))) = - lhs_of x r.
Proof. unfold lhs_of. cbn [l_cols]. unfold negate_row. destruct (l_cols r) as [|b c]; cbn [map tl]; [destruct x; cbn; ring|]. apply dot_opp. Qed.
Lemma negate_rhs r rel' : rhs_of (LRow rel' (negate_row (l_cols r))) = - rhs_of r.
Proof. unfold rhs_of, negate_row. cbn [l_cols]. destruct (l_cols r) as [|b c]; cbn; [|reflexivity]. change q0 with 0. ring. Qed.

Lemma s1_ok n r : good n r -> s1_facts n r.
Proof.
  intros (G & N1 & N2). destruct (qlt (nth 0 (l_cols r) q0) q0) eqn:Q.
  - assert (NZ : qeq (rhs_of r) q0 = false) by (apply qeq_false; intros E; apply qlt_iff in Q; unfold rhs_of in E; rewrite E in Q; qc).
    apply qlt_iff in Q. change (rhs_of r < 0) in Q.
    assert (HS : s1 r = LRow (match l_rel r with GT => LT | LT => GT | GE => LE | LE => GE | a => a end) (negate_row (l_cols r)) /\
                 standard1_row r = Ok (s1 r)).
    { unfold s1, standard1_row. change (nth 0 (l_cols r) q0) with (rhs_of r). rewrite (proj2 (qlt_iff (rhs_of r) q0) Q).
      destruct (l_rel r); try congruence; split; reflexivity. }
    destruct HS as (HS & HR). constructor.
    + exact HR.
    + rewrite HS. split; [unfold negate_row; cbn [l_cols]; rewrite map_length; exact G|]. cbn [l_rel]. destruct (l_rel r); split; congruence.
    + rewrite HS, negate_rhs. qc.
    + intros x. rewrite HS. unfold sat. rewrite negate_lhs, negate_rhs. cbn [l_rel].
      destruct (l_rel r); cbn [sem]; try congruence; split; intros H; qc.
    + intros x. rewrite HS. unfold wsat. rewrite negate_lhs, negate_rhs. cbn [l_rel].
      destruct (l_rel r); cbn [sem weak]; try congruence; split; intros H; qc.
    + rewrite HS. unfold dropped. cbn [l_rel l_cols].
      assert (X1 : single_nonneg n (l_cols r) = None) by (unfold single_nonneg; change (nth 0 (l_cols r) q0) with (rhs_of r); rewrite NZ; reflexivity).
      assert (X2 : single_nonneg n (negate_row (l_cols r)) = None).
      { unfold single_nonneg. change (nth 0 (negate_row (l_cols r)) q0) with (rhs_of (LRow EQ (negate_row (l_cols r)))). rewrite negate_rhs.
        rewrite (proj2 (qeq_false _ _)); [reflexivity|]. intros E. apply qeq_false in NZ. apply NZ. qc. }
      destruct (l_rel r); try reflexivity; assumption || (symmetry; assumption).
    + rewrite HS. unfold is_eq. cbn [l_rel]. destruct (l_rel r); reflexivity.
    + rewrite HS. cbn [l_rel]. destruct (l_rel r); reflexivity.
    + right. rewrite HS. reflexivity.
  - assert (HS : s1 r = r /\ standard1_row r = Ok (s1 r)) by (unfold s1, standard1_row; rewrite Q; split; reflexivity).
    destruct HS as (HS & HR). apply qlt_false in Q. constructor; try (rewrite HS; try (intros x); reflexivity).
    + exact HR.
    + rewrite HS. repeat split; assumption.
    + rewrite HS. exact Q.
    + left. rewrite HS. reflexivity.
Qed.

Lemma standard1_ok n rows : Forall (good n) rows -> standard1 rows = Ok (map s1 rows).
Proof.
  induction rows as [|r rows IH]; intros G; [reflexivity|]. inversion G as [|r0 l0 G1 G2]; subst. cbn [standard1 map].
  rewrite (a_run n r (s1_ok n r G1)). cbn [bind]. rewrite (IH G2). reflexivity.
Qed.

(* ---------------------------------------------------------------- rows x[j] >= 0 *)
Lemma single_some n c jj : single_nonneg n c = Some jj ->
  nth 0 c q0 = 0 /\ (1 <= jj <= n)%nat /\ 0 < nth jj c q0 /\ forall j, (1 <= j <= n)%nat -> j <> jj -> nth j c q0 = 0.
Proof.
  unfold single_nonneg. destruct (qeq (nth 0 c q0) q0) eqn:Q; [|discriminate]. apply qeq_iff in Q.
  destruct (filter _ _) as [|j0 [|? ?]] eqn:F; try discriminate. destruct (qlt q0 (nth j0 c q0)) eqn:P; [|discriminate].
  intros [= ->]. apply qlt_iff in P. split; [exact Q|].
  assert (IN : forall j, In j (filter (fun j => negb (qeq (nth j c q0) q0)) (seq 1 n)) <-> j = jj).
  { intros j. rewrite F. cbn. split; [intros [->|[]]; reflexivity|intros ->; left; reflexivity]. }
  split; [|split; [exact P|]].
  - pose proof (proj2 (IN jj) eq_refl) as X. apply filter_In in X. destruct X as (X & _). apply in_seq in X. lia.
  - intros j J N. destruct (qeq (nth j c q0) q0) eqn:E; [apply qeq_iff; exact E|]. exfalso. apply N, IN, filter_In.
    split; [apply in_seq; lia|]. rewrite E. reflexivity.
Qed.
Lemma filter_seq_single (p : nat -> bool) n jj : (1 <= jj <= n)%nat -> (forall j, (1 <= j <= n)%nat -> p j = (j =? jj)%nat) -> filter p (seq 1 n) = [jj].
Proof.
  intros J H. replace n with ((jj - 1) + S (n - jj))%nat at 1 by lia. rewrite seq_app, filter_app.
  assert (E : forall a k, (forall j, (a <= j < a + k)%nat -> p j = false) -> filter p (seq a k) = []).
  { clear. intros a k; revert a. induction k as [|k IH]; intros a H; cbn; [reflexivity|]. rewrite H by lia. apply IH. intros. apply H. lia. }
  rewrite E by (intros j Hj; rewrite H by lia; apply Nat.eqb_neq; lia).
  replace (1 + (jj - 1))%nat with jj by lia. cbn [seq filter]. rewrite H, Nat.eqb_refl by lia.
  rewrite E by (intros j Hj; rewrite H by lia; apply Nat.eqb_neq; lia). reflexivity.
Qed.
Lemma single_intro n c jj : nth 0 c q0 = 0 -> (1 <= jj <= n)%nat -> 0 < nth jj c q0 -> (forall j, (1 <= j <= n)%nat -> j <> jj -> nth j c q0 = 0) ->
  single_nonneg n c = Some jj.
Proof.
  intros Z J P H. unfold single_nonneg. rewrite (proj2 (qeq_iff _ q0) Z).
  rewrite (filter_seq_single _ n jj J).
  - rewrite (proj2 (qlt_iff q0 _) P). reflexivity.
  - intros j Hj. destruct (Nat.eqb_spec j jj) as [->|N].
    + rewrite (proj2 (qeq_false _ _)); [reflexivity|]. intros E. rewrite E in P. change q0 with 0 in P. qc.
    + rewrite (proj2 (qeq_iff _ q0) (H j Hj N)). reflexivity.
Qed.

Lemma dropped_sat n r jj x : good n r -> dropped n r = Some jj -> length x = n ->
  (1 <= jj <= n)%nat /\ l_rel r = GE /\ (sat x r <-> 0 <= nth (jj - 1) x q0).
Proof.
  intros (G & _) D LX. unfold dropped in D. destruct (l_rel r) eqn:RR; try discriminate.
  destruct (single_some _ _ _ D) as (Z & J & P & O). split; [exact J|]. split; [reflexivity|].
  unfold sat. rewrite RR. cbn [sem]. unfold lhs_of, rhs_of. rewrite Z. destruct (l_cols r) as [|b c]; [discriminate|]. cbn [tl length] in *.
  rewrite dot_sum by lia. rewrite (sum_single _ _ jj).
  - destruct jj as [|q]; [lia|]. cbn [nth] in P. replace (S q - 1)%nat with q by lia. split; intros H.
    + apply Qcnot_lt_le. intros N. assert (0 < nth q c q0 * - nth q x q0) by qc. qc.
    + apply Qc_prod_nonneg; [apply Qclt_le_weak; exact P|exact H].
  - lia.
  - intros j Hj N. specialize (O j ltac:(lia) N). destruct j as [|q]; [lia|]. cbn [nth] in O. replace (S q - 1)%nat with q by lia. rewrite O. ring.
Qed.

Definition keepb (n : nat) (r : lrow) : bool := match dropped n r with None => true | Some _ => false end.

(* ---------------------------------------------------------------- standard2 *)
Lemma countf_upd l : forall i, (i < length l)%nat -> countf (upd i true l) = (if nth i l false then countf l else countf l - 1)%nat.
Proof.
  induction l as [|b l IH]; intros i I; [cbn in I; lia|]. destruct i as [|i]; cbn [upd nth].
  - destruct b; cbn [countf]; lia.
  - cbn in I. specialize (IH i ltac:(lia)). destruct b; cbn [countf]; rewrite IH; destruct (nth i l false) eqn:E; try reflexivity.
    assert (0 < countf l)%nat; [|lia]. clear -E I. revert i E I; induction l as [|[] l IH]; intros [|i] E I; cbn in *; try lia; try discriminate.
    apply (IH i E). lia.
Qed.
Lemma countf_repeat k : countf (repeat false k) = k.
Proof. induction k; cbn; congruence. Qed.

Lemma standard2_loop_ok n rs : Forall (good n) rs -> forall d,
  length (d_cv d) = S n -> d_nu d = countf (tl (d_cv d)) ->
  exists d', standard2_loop n d rs = Ok d' /\ length (d_cv d') = S n /\ d_nu d' = countf (tl (d_cv d')) /\
    (forall j, (1 <= j <= n)%nat -> (nth j (d_cv d') false = true <-> nth j (d_cv d) false = true \/ exists r, In r rs /\ dropped n r = Some j)) /\
    d_ns d' = (d_ns d + length (filter uses (filter (keepb n) rs)))%nat /\
    (d_drop d' + length (filter (keepb n) rs) = d_drop d + length rs)%nat /\
    d_strict d' = d_strict d || existsb (fun r => strict_rel (l_rel r)) rs.
Proof.
  induction rs as [|r rs IH]; intros G d L NU; cbn [standard2_loop].
  - exists d. split; [reflexivity|]. split; [exact L|]. split; [exact NU|]. split.
    { intros j _. split; [intros H; left; exact H|intros [H|(r & [] & _)]; exact H]. }
    split; [cbn; lia|]. split; [cbn; lia|]. cbn. rewrite orb_false_r. reflexivity.
  - inversion G as [|r0 l0 G1 G2]; subst. destruct G1 as (GL & N1 & N2).
    cbn [filter existsb].
    assert (KN : dropped n r = None -> keepb n r = true) by (unfold keepb; intros ->; reflexivity).
    assert (NOD : forall d', dropped n r = None -> d_cv d' = d_cv d -> d_nu d' = d_nu d -> d_drop d' = d_drop d ->
      d_ns d' = (d_ns d + if uses r then 1 else 0)%nat -> d_strict d' = d_strict d || strict_rel (l_rel r) ->
      standard2_row n d r = Ok d' ->
      exists d'', (do d1 <- standard2_row n d r ;; standard2_loop n d1 rs) = Ok d'' /\ length (d_cv d'') = S n /\ d_nu d'' = countf (tl (d_cv d'')) /\
       (forall j, (1 <= j <= n)%nat -> (nth j (d_cv d'') false = true <-> nth j (d_cv d) false = true \/ exists r', In r' (r :: rs) /\ dropped n r' = Some j)) /\
       d_ns d'' = (d_ns d + length (filter uses (if keepb n r then r :: filter (keepb n) rs else filter (keepb n) rs)))%nat /\
       (d_drop d'' + length (if keepb n r then r :: filter (keepb n) rs else filter (keepb n) rs) = d_drop d + length (r :: rs))%nat /\
       d_strict d'' = d_strict d || (strict_rel (l_rel r) || existsb (fun r => strict_rel (l_rel r)) rs)).
    { intros d' D E1 E2 E3 E4 E5 E6. rewrite E6. cbn [bind]. rewrite (KN D).
      destruct (IH G2 d') as (d'' & R & A1 & A2 & A3 & A4 & A5 & A6); [rewrite E1; exact L|rewrite E1, E2; exact NU|].
      exists d''. split; [exact R|]. split; [exact A1|]. split; [exact A2|]. split.
      { intros j J. rewrite (A3 j J), E1. split.
        - intros [H|(r' & I & H)]; [left; exact H|right; exists r'; split; [right; exact I|exact H]].
        - intros [H|(r' & [<-|I] & H)]; [left; exact H|congruence|right; exists r'; split; assumption]. }
      split; [rewrite A4, E4; cbn [filter]; destruct (uses r); cbn; lia|].
      split; [rewrite E3 in A5; cbn [length] in *; lia|].
      rewrite A6, E5, orb_assoc. reflexivity. }
    unfold dropped in NOD, KN. unfold standard2_row in *. unfold uses at 1 in NOD.
    destruct (l_rel r) eqn:RR; try congruence.
    + refine (NOD _ _ _ _ _ _ _ eq_refl); cbn [d_cv d_ns d_drop d_nu d_strict uses_slack strict_rel]; try assumption; try reflexivity; try lia; rewrite orb_false_r; reflexivity.
    + refine (NOD _ _ _ _ _ _ _ eq_refl); cbn [d_cv d_ns d_drop d_nu d_strict uses_slack strict_rel]; try assumption; try reflexivity; try lia; rewrite orb_true_r; reflexivity.
    + refine (NOD _ _ _ _ _ _ _ eq_refl); cbn [d_cv d_ns d_drop d_nu d_strict uses_slack strict_rel]; try assumption; try reflexivity; try lia; rewrite orb_true_r; reflexivity.
    + destruct (single_nonneg n (l_cols r)) as [jj|] eqn:SN.
      * clear NOD. cbn [bind]. assert (DR : dropped n r = Some jj) by (unfold dropped; rewrite RR; exact SN).
        assert (KF : keepb n r = false) by (unfold keepb; rewrite DR; reflexivity). rewrite KF.
        destruct (single_some _ _ _ SN) as (_ & J & _).
        set (d' := Dims _ _ _ _ _ _).
        destruct (IH G2 d') as (d'' & R & A1 & A2 & A3 & A4 & A5 & A6).
        { unfold d'. cbn [d_cv]. rewrite upd_length. exact L. }
        { unfold d'. cbn [d_cv d_nu]. destruct (d_cv d) as [|b cv] eqn:CV; [discriminate|]. destruct jj as [|q]; [lia|]. cbn [upd tl nth].
          rewrite countf_upd by (cbn in L; lia). rewrite NU. reflexivity. }
        exists d''. split; [exact R|]. split; [exact A1|]. split; [exact A2|]. split.
        { intros j Hj. rewrite (A3 j Hj). unfold d'. cbn [d_cv]. rewrite nth_upd by lia. destruct (Nat.eqb_spec j jj) as [->|N].
          - split; [intros _; right; exists r; split; [left; reflexivity|exact DR]|intros _; left; reflexivity].
          - split.
            + intros [H|(r' & I & H)]; [left; exact H|right; exists r'; split; [right; exact I|exact H]].
            + intros [H|(r' & [<-|I] & H)]; [left; exact H|congruence|right; exists r'; split; assumption]. }
        split; [exact A4|]. split; [unfold d' in A5; cbn [d_drop length] in *; lia|]. exact A6.
      * refine (NOD _ _ _ _ _ _ _ eq_refl); cbn [d_cv d_ns d_drop d_nu d_strict uses_slack strict_rel]; try assumption; try reflexivity; try lia; rewrite orb_false_r; reflexivity.
    + refine (NOD _ _ _ _ _ _ _ eq_refl); cbn [d_cv d_ns d_drop d_nu d_strict uses_slack strict_rel]; try assumption; try reflexivity; try lia; rewrite orb_false_r; reflexivity.
Qed.

(* ---------------------------------------------------------------- standard4 *)
Lemma fold4 n cv strict ncol rs : length cv = n -> Forall (good n) rs -> forall f,
  fold_left (standard4_step n cv strict ncol) rs f =
  Filled (f_slack f - length (filter uses (filter (keepb n) rs)))
         (match filter (keepb n) rs with [] => f_lastv f | _ => (length cv + countf cv + (if strict then 1 else 0))%nat end)
         (f_rows f ++ rows4 cv strict ncol (f_slack f) (filter (keepb n) rs)) (f_unres f).
Proof.
  intros CV. induction rs as [|r rs IH]; intros G f; cbn [fold_left filter].
  - cbn. rewrite Nat.sub_0_r, app_nil_r. destruct f; reflexivity.
  - inversion G as [|r0 l0 G1 G2]; subst. rewrite (IH G2). clear IH. unfold standard4_step.
    assert (KB : keepb (length cv) r = match dropped (length cv) r with None => true | Some _ => false end) by reflexivity. rewrite KB.
    destruct (dropped (length cv) r) as [jj|]; [reflexivity|]. destruct G1 as (GL & N1 & N2).
    assert (LL : length (split_cols cv (tl (l_cols r))) = (length cv + countf cv)%nat) by (apply split_length; destruct (l_cols r); cbn in *; lia).
    cbn [filter rows4]. unfold uses at 2. unfold standard4_row. rewrite LL. cbn [snd].
    destruct (l_rel r); try congruence; cbn [f_slack f_lastv f_rows f_unres uses_slack]; rewrite <- app_assoc; cbn [app length];
      (f_equal; try lia; destruct (filter (keepb (length cv)) rs); reflexivity).
Qed.

(* ---------------------------------------------------------------- independence *)
Lemma indep_neg f (rows : list lrow) : (forall r, In r rows -> l_cols (f r) = l_cols r \/ l_cols (f r) = negate_row (l_cols r)) ->
  independent (map l_cols rows) -> independent (map l_cols (map f rows)).
Proof.
  intros H IND lam LL Z. rewrite !map_length in LL.
  assert (X : forall rows lam, (forall r, In r rows -> l_cols (f r) = l_cols r \/ l_cols (f r) = negate_row (l_cols r)) -> length lam = length rows ->
    exists lam', length lam' = length rows /\ (forall j, lincomb lam' (map l_cols rows) j = lincomb lam (map l_cols (map f rows)) j) /\
      (Forall (fun v => v = 0) lam' -> Forall (fun v => v = 0) lam)).
  { clear. induction rows as [|r rows IH]; intros [|v lam] H L; cbn in L; try discriminate.
    - exists []. split; [reflexivity|]. split; [reflexivity|]. trivial.
    - destruct (IH lam) as (lam' & A1 & A2 & A3); [intros; apply H; right; assumption|lia|].
      destruct (H r (or_introl eq_refl)) as [E|E].
      + exists (v :: lam'). split; [cbn; lia|]. split.
        * intros j. specialize (A2 j). unfold lincomb in *. cbn [map combine fold_right fst snd]. rewrite A2, E. reflexivity.
        * intros F. apply Forall_cons_iff in F. destruct F as (F1 & F2). constructor; [exact F1|apply A3; exact F2].
      + exists (- v :: lam'). split; [cbn; lia|]. split.
        * intros j. specialize (A2 j). unfold lincomb in *. cbn [map combine fold_right fst snd]. rewrite A2, E.
          assert (N : nth j (negate_row (l_cols r)) 0 = - nth j (l_cols r) 0).
          { unfold negate_row. replace 0 with (- 0) at 1 by ring. apply map_nth. }
          rewrite N. ring.
        * intros F. apply Forall_cons_iff in F. destruct F as (F1 & F2). constructor; [qc|apply A3; exact F2]. }
  destruct (X rows lam H LL) as (lam' & A1 & A2 & A3). apply A3. apply IND; [rewrite map_length; exact A1|]. intros j. rewrite A2. apply Z.
Qed.

(* ---------------------------------------------------------------- lp_solution *)
Lemma small_eps x rs : Forall (sat x) rs -> exists e, 0 < e /\ Forall (fun r => strict_rel (l_rel r) = true -> e <= gap x r) rs.
Proof.
  induction rs as [|r rs IH]; intros F.
  - exists 1. split; [qc|constructor].
  - inversion F as [|? ? F1 F2]; subst. destruct (IH F2) as (e & P & H).
    destruct (strict_rel (l_rel r)) eqn:S1.
    + assert (GP : 0 < gap x r) by (unfold sat, gap in *; destruct (l_rel r); cbn in *; try discriminate; qc).
      exists (if qlt e (gap x r) then e else gap x r). destruct (qlt e (gap x r)) eqn:Q.
      * apply qlt_iff in Q. split; [exact P|]. constructor; [intros _; apply Qclt_le_weak; exact Q|exact H].
      * apply qlt_false in Q. split; [exact GP|]. constructor; [intros _; apply Qcle_refl|].
        apply Forall_forall. intros r' R' S'. pose proof (proj1 (Forall_forall _ _) H r' R' S'). qc.
    + exists e. split; [exact P|]. constructor; [congruence|exact H].
Qed.

Lemma nth_labels cv : forall z j, Forall (fun b => b = true) cv -> nth j (labels z cv) 0%Z = if (j <? length cv)%nat then (z + Z.of_nat j)%Z else 0%Z.
Proof.
  induction cv as [|b cv IH]; intros z j F; cbn [labels length]; [destruct j; reflexivity|].
  inversion F as [|? ? F1 F2]; subst. destruct j as [|j]; cbn [nth]; [rewrite Z.add_0_r; reflexivity|].
  rewrite IH by exact F2. destruct (Nat.ltb_spec j (length cv)), (Nat.ltb_spec (S j) (S (length cv))); try lia.
Qed.
Lemma all_true_facts cv : Forall (fun b => b = true) cv -> countf cv = 0%nat /\ forall y o, merge cv y o = map y (seq o (length cv)).
Proof.
  induction cv as [|b cv IH]; intros F; [split; [reflexivity|intros; reflexivity]|].
  inversion F as [|? ? F1 F2]; subst. destruct (IH F2) as (C & M). split; [exact C|]. intros y o. cbn. rewrite M. reflexivity.
Qed.

Definition kept (n : nat) (rows : list lrow) : list lrow := filter (keepb n) (map s1 (filter nonzero rows)).

Inductive outcome (n : nat) (rows : list lrow) : res (option (list Qc)) -> Prop :=
| o_more : outcome n rows More
| o_die : filter nonzero rows <> [] -> kept n rows = [] -> eliminate_zeros rows <> None -> outcome n rows Die
| o_none : (forall x, length x = n -> ~ Forall (sat x) rows) -> outcome n rows (Ok None)
| o_some l x : length x = n -> Forall (sat x) rows ->
    ((forall j, (1 <= j <= n)%nat -> exists r, In r rows /\ dropped n r = Some j) -> length l = n /\ Forall (wsat l) rows) ->
    (filter nonzero rows = [] \/ kept n rows <> []) ->
    outcome n rows (Ok (Some l)).

Lemma lp_solution_ok fuel n rows : (1 <= n)%nat -> Forall (good n) rows ->
  independent (map l_cols (filter is_eq (filter nonzero rows))) -> outcome n rows (lp_solution fuel n rows).
Proof.
  intros Hn G IND. unfold lp_solution. destruct (Nat.eqb_spec n 0); [lia|].
  unfold lp_StandardTableau. pose proof (eliminate_zeros_ok n rows G) as EZ.
  destruct (eliminate_zeros rows) as [nz|] eqn:EL; [|cbn [bind]; apply o_none; intros x _; apply EZ].
  destruct EZ as (NZ & Z1 & Z2).
  destruct nz as [|r1 nz'] eqn:ENZ.
  { cbn [bind]. apply (o_some n rows (repeat q0 n) (repeat q0 n)).
    - apply repeat_length.
    - apply Z1. constructor.
    - intros _. split; [apply repeat_length|]. apply Z2. constructor.
    - left. symmetry. exact NZ. }
  rewrite <- ENZ in *. assert (NE : nz <> []) by (rewrite ENZ; discriminate). clear ENZ r1 nz'.
  destruct nz as [|r1 nz'] eqn:ENZ; [congruence|]. rewrite <- ENZ in *. clear NE.
  assert (GN : Forall (good n) nz) by (rewrite NZ; apply Forall_forall; intros r R; apply filter_In in R; exact (proj1 (Forall_forall _ _) G r (proj1 R))).
  replace (standard1 (r1 :: nz')) with (standard1 nz) by (rewrite ENZ; reflexivity).
  assert (NE : nz <> []) by (rewrite ENZ; discriminate). clear ENZ r1 nz'.
  rewrite (standard1_ok n nz GN). cbn [bind]. set (rs := map s1 nz).
  assert (GR : Forall (good n) rs).
  { apply Forall_forall. intros r R. apply in_map_iff in R. destruct R as (r0 & <- & R). apply (a_good n r0), s1_ok, (proj1 (Forall_forall _ _) GN r0 R). }
  assert (F1 : forall r0, In r0 nz -> s1_facts n r0) by (intros r0 R; apply s1_ok, (proj1 (Forall_forall _ _) GN r0 R)).
  unfold standard2. destruct (standard2_loop_ok n rs GR (Dims (repeat false (S n)) 0 0 0 n false)) as (d & R & A1 & A2 & A3 & A4 & A5 & A6).
  { cbn [d_cv]. apply repeat_length. }
  { cbn [d_cv d_nu repeat tl]. rewrite countf_repeat. reflexivity. }
  rewrite R. cbn [bind d_cv d_ns d_drop d_strict] in *. set (cv := tl (d_cv d)) in *. set (strict := d_strict d) in *.
  cbn [plus orb] in *.
  assert (CV : length cv = n) by (unfold cv; destruct (d_cv d); cbn in *; lia).
  assert (CVN : forall j, (j < n)%nat -> (nth j cv false = true <-> exists r, In r rs /\ dropped n r = Some (S j))).
  { intros j J. specialize (A3 (S j) ltac:(lia)). unfold cv. destruct (d_cv d) as [|b l]; [discriminate|]. cbn [tl nth] in *. rewrite A3.
    change (false :: repeat false n) with (repeat false (S n)). rewrite nth_repeat. split; [intros [H|H]; [discriminate|exact H]|intros H; right; exact H]. }
  rewrite (fold4 n cv strict _ rs CV GR). cbn [f_slack f_lastv f_rows f_unres app].
  set (kp := filter (keepb n) rs) in *.
  assert (KP : kept n rows = kp) by (unfold kept, kp, rs; rewrite NZ; reflexivity).
  set (ncl := (n + d_nu d + d_ns d + (if strict then 1 else 0))%nat).
  rewrite <- A4. rewrite rows4_length.
  destruct kp as [|k1 kp'] eqn:EK.
  { cbn [length] in *. destruct (Nat.eqb_spec (ncl - d_ns d) 0); [unfold ncl in *; lia|]. cbn [andb bind]. apply o_die; [rewrite <- NZ; exact NE|exact KP|rewrite EL; discriminate]. }
  rewrite <- EK in *. assert (KNE : kp <> []) by (rewrite EK; discriminate).
  assert (C1 : (ncl - d_ns d =? length cv + countf cv + (if strict then 1 else 0))%nat = true) by (apply Nat.eqb_eq; unfold ncl; rewrite A2; lia).
  assert (C2 : (length kp + d_drop d =? length rs)%nat = true) by (apply Nat.eqb_eq; lia).
  match goal with |- context [if (?a =? ?b)%nat && (?c =? ?e)%nat then _ else _] =>
    replace (a =? b)%nat with true by (symmetry; rewrite EK; exact C1); replace (c =? e)%nat with true by (symmetry; exact C2) end.
  cbn [andb bind].
  set (labs := 0%Z :: labels 1 cv).
  assert (SF : Std (rows4 cv strict ncl ncl kp) [] ncl (if strict then Some (ncl - d_ns d)%nat else None) labs = form kp cv strict labs).
  { unfold form. rewrite <- A4. replace ncl with (length cv + countf cv + (if strict then 1 else 0) + d_ns d)%nat by (unfold ncl; rewrite A2; lia).
    rewrite Nat.add_sub. reflexivity. }
  rewrite SF. set (s := form kp cv strict labs). change (outcome n rows (solve fuel n s)).
  assert (GK : Forall (good n) kp) by (apply Forall_forall; intros r Q; apply filter_In in Q; exact (proj1 (Forall_forall _ _) GR r (proj1 Q))).
  assert (RK : Forall (fun r => 0 <= rhs_of r) kp).
  { apply Forall_forall. intros r Q. apply filter_In in Q. destruct Q as (Q & _). apply in_map_iff in Q. destruct Q as (r0 & <- & Q). apply (a_rhs n r0), F1, Q. }
  assert (SK : strict = false -> Forall (fun r => strict_rel (l_rel r) = false) kp).
  { intros E. apply Forall_forall. intros r Q. apply filter_In in Q. destruct Q as (Q & _). destruct (strict_rel (l_rel r)) eqn:S1; [|reflexivity].
    rewrite A6 in E. assert (X : existsb (fun r => strict_rel (l_rel r)) rs = true); [|congruence]. apply existsb_exists. exists r. split; assumption. }
  assert (IK : independent (map l_cols (filter is_eq kp))).
  { assert (E : filter is_eq kp = map s1 (filter is_eq nz)).
    { unfold kp, rs. clear -F1. induction nz as [|r nz IH]; [reflexivity|]. cbn [map filter].
      pose proof (F1 r (or_introl eq_refl)) as FR. specialize (IH (fun r0 R => F1 r0 (or_intror R))).
      pose proof (a_drop n r FR) as E1. pose proof (a_eq n r FR) as E2. unfold keepb at 1. rewrite E1.
      destruct (dropped n r) as [jj|] eqn:D.
      - rewrite IH. unfold dropped in D. unfold is_eq at 2. destruct (l_rel r); try discriminate. reflexivity.
      - cbn [filter]. rewrite E2, IH. destruct (is_eq r); reflexivity. }
    rewrite E. apply indep_neg; [|rewrite NZ; exact IND]. intros r Q. apply filter_In in Q. apply (a_cols n r), F1, Q. }
  (* what the rows say *)
  assert (RS : forall x, Forall (sat x) rows <-> Forall (sat x) rs).
  { intros x. rewrite Z1. unfold rs. rewrite Forall_map. rewrite !Forall_forall. split; intros H r Q; apply (a_sat n r (F1 r Q)), H, Q. }
  assert (RW : forall x, Forall (wsat x) rows <-> Forall (wsat x) rs).
  { intros x. rewrite Z2. unfold rs. rewrite Forall_map. rewrite !Forall_forall. split; intros H r Q; apply (a_wsat n r (F1 r Q)), H, Q. }
  assert (SPLIT : forall x, length x = n -> Forall (sat x) kp -> (forall j, nth j cv false = true -> 0 <= nth j x q0) -> Forall (sat x) rs).
  { intros x LX K C. apply Forall_forall. intros r Q. destruct (dropped n r) as [jj|] eqn:D.
    - destruct (dropped_sat n r jj x (proj1 (Forall_forall _ _) GR r Q) D LX) as (J & _ & E). apply E, C, CVN; [lia|]. exists r. split; [exact Q|].
      rewrite D. f_equal. lia.
    - apply (proj1 (Forall_forall _ _) K). apply filter_In. split; [exact Q|]. unfold keepb. rewrite D. reflexivity. }
  assert (SPLITW : forall x, length x = n -> Forall (wsat x) kp -> (forall j, nth j cv false = true -> 0 <= nth j x q0) -> Forall (wsat x) rs).
  { intros x LX K C. apply Forall_forall. intros r Q. destruct (dropped n r) as [jj|] eqn:D.
    - destruct (dropped_sat n r jj x (proj1 (Forall_forall _ _) GR r Q) D LX) as (J & _ & E). apply sat_wsat, E, C, CVN; [lia|]. exists r. split; [exact Q|].
      rewrite D. f_equal. lia.
    - apply (proj1 (Forall_forall _ _) K). apply filter_In. split; [exact Q|]. unfold keepb. rewrite D. reflexivity. }
  assert (PARTS : forall x, length x = n -> Forall (sat x) rs -> Forall (sat x) kp /\ (forall j, nth j cv false = true -> 0 <= nth j x q0)).
  { intros x LX H. split.
    - apply Forall_forall. intros r Q. apply filter_In in Q. exact (proj1 (Forall_forall _ _) H r (proj1 Q)).
    - intros j Hj. destruct (Nat.ltb_spec j n) as [B|B]; [|rewrite nth_overflow in Hj by lia; discriminate].
      destruct (proj1 (CVN j B) Hj) as (r & Q & D). destruct (dropped_sat n r (S j) x (proj1 (Forall_forall _ _) GR r Q) D LX) as (_ & _ & E).
      replace j with (S j - 1)%nat by lia. apply E. exact (proj1 (Forall_forall _ _) H r Q). }
  assert (WK : forall x, Forall (sat x) kp -> Forall (wsat x) kp) by (intros x H; apply Forall_forall; intros r Q; apply sat_wsat; exact (proj1 (Forall_forall _ _) H r Q)).
  pose proof (form_m kp cv strict labs) as FM. fold s in FM.
  assert (NCOL : s_ncol s = (length cv + countf cv + (if strict then 1 else 0) + length (filter uses kp))%nat) by reflexivity.
  destruct (solve_ok s) with (fuel := fuel) (n0 := n) as [E|[(E & H)|(l & E & (y & Y1 & Y2 & Y3) & RO)]].
  - intros r Q. apply (form_rows_len n kp cv strict labs GK CV SK r Q).
  - intros k K. rewrite FM in K. apply (form_rhs_pos n kp cv strict labs GK RK CV k K).
  - intros e Q. apply (form_eps n kp cv strict labs CV SK e Q).
  - rewrite FM. apply (form_indep n kp cv strict labs GK CV SK IK).
  - reflexivity.
  - rewrite E. apply o_more.
  - rewrite E. apply o_none. intros x LX SX. apply RS in SX. destruct (PARTS x LX SX) as (K & C).
    destruct H as [H|(e & He & H)].
    + destruct (form_complete n kp cv strict labs GK CV SK x 0 LX C (WK x K)) as (y & Y1 & Y2 & Y3).
      * apply Qcle_refl.
      * apply Forall_forall. intros r Q S1. pose proof (proj1 (Forall_forall _ _) K r Q) as SR. unfold sat, gap in *. destruct (l_rel r); try discriminate; cbn in *; qc.
      * apply (H y Y1); [|exact Y2]. intros e Q. destruct (form_eps n kp cv strict labs CV SK e Q) as (St & -> & _). apply Y3, St.
    + destruct (small_eps x kp K) as (e' & P & GP).
      destruct (form_complete n kp cv strict labs GK CV SK x e' LX C (WK x K)) as (y & Y1 & Y2 & Y3).
      * apply Qclt_le_weak, P.
      * exact GP.
      * specialize (H y Y1 Y2). destruct (form_eps n kp cv strict labs CV SK e He) as (St & EE & _). rewrite EE, (Y3 St) in H. qc.
  - rewrite E. apply (o_some n rows l (merge cv y 1)).
    + rewrite merge_length. exact CV.
    + apply RS, SPLIT; [rewrite merge_length; exact CV| |].
      * apply (form_sound n kp cv strict labs GK CV SK y Y1 Y2 Y3).
      * intros j Hj. apply merge_nonneg; [|exact Hj]. intros i Hi. apply Y1. rewrite NCOL. lia.
    + intros ALL. assert (AT : Forall (fun b => b = true) cv).
      { apply Forall_forall. intros b Q. apply (In_nth _ _ false) in Q. destruct Q as (j & J & <-). apply CVN; [lia|].
        destruct (ALL (S j) ltac:(lia)) as (r & Q & D).
        assert (NZR : nonzero r = true).
        { unfold nonzero. destruct (forallb (qeq q0) (l_cols r)) eqn:Z; [|reflexivity]. exfalso.
          unfold dropped in D. destruct (l_rel r); try discriminate. destruct (single_some _ _ _ D) as (_ & JJ & P & _).
          assert (X : nth (S j) (l_cols r) q0 = 0).
          { destruct (Nat.ltb_spec (S j) (length (l_cols r))) as [B|B]; [|apply nth_overflow; exact B].
            rewrite forallb_forall in Z. symmetry. apply qeq_iff. apply Z. apply nth_In. exact B. }
          rewrite X in P. qc. }
        assert (IN : In r nz) by (rewrite NZ; apply filter_In; split; assumption).
        exists (s1 r). split; [apply in_map; exact IN|]. rewrite (a_drop n r (F1 r IN)). exact D. }
      destruct (all_true_facts cv AT) as (CF & MM).
      destruct RO as (y' & V1 & V2 & V3 & V4).
      { split; [|split; [|split]].
        - rewrite NCOL. lia.
        - intros j J. destruct j as [|j]; [lia|]. unfold s, form, labs. cbn [s_vars nth]. rewrite nth_labels by exact AT.
          rewrite (proj2 (Nat.ltb_lt j (length cv))) by lia. lia.
        - intros j J. destruct j as [|j]; [lia|]. unfold s, form, labs. cbn [s_vars nth]. rewrite nth_labels by exact AT.
          rewrite (proj2 (Nat.ltb_ge j (length cv))) by lia. reflexivity.
        - intros e Q. destruct (form_eps n kp cv strict labs CV SK e Q) as (_ & _ & B & _). lia. }
      split; [exact V3|].
      assert (LM : l = merge cv y' 1).
      { rewrite MM. apply (nth_ext _ _ q0 q0); [rewrite map_length, seq_length; lia|]. intros k K. rewrite V3 in K. rewrite V4 by exact K.
        rewrite (nth_indep _ q0 (y' 0%nat)) by (rewrite map_length, seq_length; lia). rewrite map_nth, seq_nth by lia. reflexivity. }
      apply RW, SPLITW; [exact V3| |].
      * rewrite LM. apply (form_wsound n kp cv strict labs GK CV SK y' V2 V1).
      * intros j Hj. rewrite LM. apply merge_nonneg; [|exact Hj]. intros i Hi. apply V2. rewrite NCOL. lia.
    + right. rewrite KP. exact KNE.
Qed.
