(* LP and LPsol against the meaning of the constraints. *)
From Coq Require Import ZArith QArith Qcanon List Bool Arith Lia String Znumtheory.
From Verif Require Import LpModel LpBase LpSpec LpTab LpPhase1 LpPhase2 LpStd LpTop.
Import ListNotations.
Open Scope Qc_scope.
Open Scope list_scope.
Local Notation length := List.length.

Lemma inj_zero z : inj z = 0 <-> z = 0%Z.
Proof. unfold inj. split; [|intros ->; reflexivity]. intros E. apply this_eq in E. cbn [this Q2Qc] in E. rewrite !Qred_correct in E. unfold Qeq, inject_Z in E. cbn in E. lia. Qed.
Lemma inj_pos z : 0 < inj z <-> (0 < z)%Z.
Proof.
  unfold inj, Qclt. cbn [this Q2Qc]. rewrite !Qred_correct. unfold Qlt. cbn. lia.
Qed.

Lemma relation_plain s : plain_rel s ->
  relation_of s <> NE /\ relation_of s <> COST /\ (forall a b, sem (relation_of s) a b <-> holds_rel s a b) /\
  (relation_of s = EQ <-> s = "="%string) /\ (relation_of s = GE <-> s = ">="%string) /\
  (forall a b, sem (weak (relation_of s)) a b <-> holds_rel (rel (relax ([], (s, 0%Z)))) a b) /\
  (rel_has_eq (relation_of s) = true <-> s = "="%string \/ s = "<="%string \/ s = ">="%string).
Proof.
  unfold plain_rel. cbn [In]. intros H. unfold holds_rel.
  repeat (destruct H as [<-|H]); [..|destruct H]; cbn;
    (repeat split; try discriminate; intros; intuition (try discriminate; try assumption; try reflexivity)).
Qed.

Lemma rel_relax r : rel (relax r) = rel (relax ([], (rel r, 0%Z))).
Proof. reflexivity. Qed.

Lemma mk_good n r : length (coeffs r) = n -> plain_rel (rel r) -> good n (mk_lrow r).
Proof.
  intros L P. destruct (relation_plain _ P) as (N1 & N2 & _). split; [|split; [exact N1|exact N2]].
  unfold mk_lrow. cbn [l_cols]. cbn [map length]. rewrite map_length. unfold coeffs in L. lia.
Qed.
Lemma mk_sat x r : plain_rel (rel r) -> (sat x (mk_lrow r) <-> satisfies x r).
Proof. intros P. destruct (relation_plain _ P) as (_ & _ & H & _). apply H. Qed.
Lemma mk_wsat x r : plain_rel (rel r) -> (wsat x (mk_lrow r) <-> satisfies x (relax r)).
Proof. intros P. destruct (relation_plain _ P) as (_ & _ & _ & _ & _ & H & _). apply H. Qed.

Lemma qeq_inj z : qeq q0 (inj z) = Z.eqb 0 z.
Proof.
  destruct (Z.eqb_spec 0 z) as [<-|N]; [reflexivity|]. apply qeq_false. intros E. apply N. symmetry. apply inj_zero. symmetry. exact E.
Qed.
Lemma mk_nonzero r : nonzero (mk_lrow r) = negb (zero_rowb r).
Proof.
  unfold nonzero, zero_rowb, mk_lrow. cbn [l_cols]. f_equal. change (snd (snd r) :: fst r) with (rhs r :: coeffs r).
  generalize (rhs r :: coeffs r). induction l as [|z l IH]; [reflexivity|]. cbn [map forallb]. change (Q2Qc (inject_Z z)) with (inj z). rewrite qeq_inj, IH. reflexivity.
Qed.
Lemma mk_is_eq r : plain_rel (rel r) -> is_eq (mk_lrow r) = String.eqb (rel r) "=".
Proof.
  intros P. destruct (relation_plain _ P) as (_ & _ & _ & H & _). unfold is_eq, mk_lrow. cbn [l_rel].
  change (fst (snd r)) with (rel r). destruct (String.eqb_spec (rel r) "=") as [E|N].
  - rewrite (proj2 H E). reflexivity.
  - destruct (relation_of (rel r)); try reflexivity. exfalso. apply N, H. reflexivity.
Qed.
Lemma zero_rowb_ok r : zero_rowb r = true <-> zero_row r.
Proof.
  unfold zero_rowb, zero_row. cbn [forallb]. rewrite andb_true_iff, Z.eqb_eq, forallb_forall, Forall_forall.
  split; intros (E & H); (split; [symmetry; exact E|]); intros c C; specialize (H c C); [apply Z.eqb_eq in H|apply Z.eqb_eq]; congruence.
Qed.

Lemma equations_ok l : Forall (fun r => plain_rel (rel r)) l ->
  map l_cols (filter is_eq (filter nonzero (map mk_lrow l))) = equations l.
Proof.
  unfold equations. induction l as [|r l IH]; intros P; [reflexivity|]. inversion P as [|? ? P1 P2]; subst. specialize (IH P2).
  cbn [map filter]. rewrite mk_nonzero. destruct (zero_rowb r); cbn [negb].
  - rewrite andb_false_r. exact IH.
  - rewrite andb_true_r. cbn [filter]. rewrite (mk_is_eq r P1). destruct (String.eqb (rel r) "="); cbn [map]; [|exact IH]. rewrite IH. reflexivity.
Qed.

Lemma mk_dropped n r j : length (coeffs r) = n -> plain_rel (rel r) -> (dropped n (mk_lrow r) = Some (S j) <-> nonneg_row j r).
Proof.
  intros L P. destruct (relation_plain _ P) as (_ & _ & _ & _ & HG & _).
  assert (C : forall k, nth (S k) (l_cols (mk_lrow r)) q0 = inj (nth k (coeffs r) 0%Z)).
  { intros k. unfold mk_lrow. cbn [l_cols map nth]. change q0 with (inj 0). apply (map_nth inj). }
  assert (C0 : nth 0 (l_cols (mk_lrow r)) q0 = inj (rhs r)) by reflexivity.
  unfold nonneg_row. split.
  - intros D. unfold dropped in D. change (l_rel (mk_lrow r)) with (relation_of (rel r)) in D.
    destruct (relation_of (rel r)) eqn:RR; try discriminate. destruct (single_some _ _ _ D) as (Z & J & Q & O).
    split; [apply HG; reflexivity|]. split; [apply inj_zero; rewrite <- C0; exact Z|]. split; [lia|].
    intros k. destruct (Nat.eqb_spec k j) as [->|N].
    + rewrite C in Q. apply inj_pos. exact Q.
    + destruct (Nat.ltb_spec k n) as [B|B]; [|apply nth_overflow; lia]. specialize (O (S k) ltac:(lia) ltac:(lia)). rewrite C in O. apply inj_zero. exact O.
  - intros (E1 & E2 & B & H). unfold dropped. change (l_rel (mk_lrow r)) with (relation_of (rel r)). rewrite (proj2 HG E1).
    apply single_intro.
    + rewrite C0. apply inj_zero. exact E2.
    + lia.
    + rewrite C. apply inj_pos. specialize (H j). rewrite Nat.eqb_refl in H. exact H.
    + intros k K N. destruct k as [|k]; [lia|]. rewrite C. apply inj_zero. specialize (H k). destruct (Nat.eqb_spec k j); [lia|exact H].
Qed.

Section Given.
Variables (n : nat) (l : list constraint).
Hypothesis width : of_width n l.
Hypothesis rels : Forall (fun r => plain_rel (rel r)) l.
Let rows := map mk_lrow l.

Lemma g_good : Forall (good n) rows.
Proof.
  apply Forall_forall. intros r R. apply in_map_iff in R. destruct R as (r0 & <- & R).
  apply mk_good; [exact (proj1 (Forall_forall _ _) width r0 R)|exact (proj1 (Forall_forall _ _) rels r0 R)].
Qed.
Lemma g_sat x : Forall (sat x) rows <-> Forall (satisfies x) l.
Proof.
  unfold rows. rewrite Forall_map, !Forall_forall. split; intros H r R; apply mk_sat, H; try exact R; exact (proj1 (Forall_forall _ _) rels r R).
Qed.
Lemma g_wsat x : Forall (wsat x) rows <-> Forall (satisfies x) (map relax l).
Proof.
  unfold rows. rewrite !Forall_map, !Forall_forall. split; intros H r R; apply mk_wsat, H; try exact R; exact (proj1 (Forall_forall _ _) rels r R).
Qed.
Lemma columns_ok : l <> [] -> columns l = Some n.
Proof.
  clear rels rows. intros N. unfold columns. destruct l as [|e r]; [congruence|]. inversion width as [|? ? W1 W2]; subst. fold (coeffs e).
  assert (F : forallb (fun e' => (length (fst e') =? length (coeffs e))%nat) r = true).
  { apply forallb_forall. intros e' E. apply Nat.eqb_eq. exact (proj1 (Forall_forall _ _) W2 e' E). }
  rewrite F. reflexivity.
Qed.

Definition usual : Prop := n = 0%nat \/ Forall zero_row l \/ exists r, In r l /\ ~ zero_row r /\ forall j, ~ nonneg_row j r.

Lemma kept_nonempty : (exists r, In r l /\ ~ zero_row r /\ forall j, ~ nonneg_row j r) -> kept n rows <> [].
Proof.
  intros (r & R & NZ & NN) E.
  assert (IN : In (s1 (mk_lrow r)) (kept n rows)).
  { unfold kept. apply filter_In. split.
    - apply in_map, filter_In. split; [apply in_map; exact R|]. rewrite mk_nonzero. destruct (zero_rowb r) eqn:Z; [apply zero_rowb_ok in Z; contradiction|reflexivity].
    - pose proof (proj1 (Forall_forall _ _) width r R) as W. pose proof (proj1 (Forall_forall _ _) rels r R) as P. cbv beta in W, P.
      unfold keepb. rewrite (a_drop n _ (s1_ok n _ (mk_good n r W P))). destruct (dropped n (mk_lrow r)) as [[|j]|] eqn:D; [|exfalso|reflexivity].
      + exfalso. unfold dropped in D. destruct (l_rel (mk_lrow r)); try discriminate. apply single_some in D. lia.
      + apply (NN j). apply (mk_dropped n r j W P). exact D. }
  rewrite E in IN. exact IN.
Qed.
Lemma nonzero_empty : Forall zero_row l -> filter nonzero rows = [].
Proof.
  intros Z. assert (H : forall r, In r (filter nonzero rows) -> False).
  { intros r R. apply filter_In in R. destruct R as (R & NZ). apply in_map_iff in R. destruct R as (r0 & <- & R). rewrite mk_nonzero in NZ.
    rewrite (proj2 (zero_rowb_ok r0)) in NZ; [discriminate|]. exact (proj1 (Forall_forall _ _) Z r0 R). }
  destruct (filter nonzero rows) as [|r ?]; [reflexivity|]. exfalso. apply (H r). left. reflexivity.
Qed.

Lemma zero_columns : n = 0%nat -> forallb holds_zero rows = true <-> exists x, solution n l x.
Proof.
  intros N. assert (E : forall r, In r rows -> (holds_zero r = true <-> sat [] r)).
  { intros r R. pose proof (proj1 (Forall_forall _ _) g_good r R) as (G & N1 & N2). unfold holds_zero, sat, lhs_of, rhs_of.
    rewrite N in G. destruct (l_cols r) as [|b [|? ?]]; try discriminate. cbn [nth tl dot].
    destruct (l_rel r); try congruence; cbn [sem]; rewrite ?orb_true_iff, ?qlt_iff, ?qeq_iff; change q0 with 0; split; intros H; try exact H; try (symmetry; exact H).
    - destruct H as [H|H]; [apply Qclt_le_weak; exact H|rewrite <- H; apply Qcle_refl].
    - destruct (Qcle_lt_or_eq _ _ H) as [H1|H1]; [left; exact H1|right; symmetry; exact H1].
    - destruct H as [H|H]; [apply Qclt_le_weak; exact H|rewrite <- H; apply Qcle_refl].
    - destruct (Qcle_lt_or_eq _ _ H) as [H1|H1]; [left; exact H1|right; exact H1]. }
  rewrite forallb_forall. split.
  - intros H. exists []. split; [symmetry; exact N|]. apply g_sat, Forall_forall. intros r R. apply E, H; exact R.
  - intros (x & L & S) r R. apply E; [exact R|]. rewrite N in L. destruct x; [|discriminate]. apply g_sat in S. exact (proj1 (Forall_forall _ _) S r R).
Qed.

Hypothesis ind : independent (equations l).

Lemma given_outcome fuel : (1 <= n)%nat -> outcome n rows (lp_solution fuel n rows).
Proof. intros N. apply lp_solution_ok; [exact N|exact g_good|]. unfold rows. rewrite equations_ok by exact rels. exact ind. Qed.

Lemma LP_decides fuel b : LP fuel l = Ok (Some b) -> (b = true <-> exists x, solution n l x).
Proof.
  intros H. unfold LP in H. assert (NE0 : l <> []) by (intros E0; rewrite E0 in H; discriminate).
  rewrite (columns_ok NE0) in H. fold rows in H. unfold lp_feasible in H.
  destruct (Nat.eqb_spec n 0) as [N|N].
  - cbn [bind] in H. injection H as <-. apply zero_columns. exact N.
  - pose proof (given_outcome fuel ltac:(lia)) as O. destruct (lp_solution fuel n rows) as [o| | |]; cbn [bind] in H; try discriminate.
    injection H as <-. destruct o as [sl|]; [inversion O as [| | |sol x LX SX _ _]|inversion O as [| |NO|]].
    2:{ split; [discriminate|]. intros (x & LX & SX). exfalso. apply (NO x LX). apply g_sat. exact SX. }
    split; [intros _|reflexivity]. exists x. split; [exact LX|apply g_sat; exact SX].
Qed.

Lemma LP_total fuel : l <> [] -> usual -> LP fuel l = More \/ exists b, LP fuel l = Ok (Some b).
Proof.
  intros NE U. unfold LP. rewrite (columns_ok NE). fold rows. unfold lp_feasible. destruct (Nat.eqb_spec n 0) as [N|N].
  - right. eexists. reflexivity.
  - pose proof (given_outcome fuel ltac:(lia)) as O. inversion O as [E|Z K _ E|H E|sol x _ _ _ _ E]; cbn [bind].
    + left. reflexivity.
    + exfalso. destruct U as [U|[U|U]]; [contradiction|apply Z, nonzero_empty; exact U|exact (kept_nonempty U K)].
    + right. eexists. reflexivity.
    + right. eexists. reflexivity.
Qed.

(* LPsol *)
Lemma upd_fold_length (f : list Qc -> nat -> list Qc) js : (forall s j, length (f s j) = length s) -> forall s, length (fold_left f js s) = length s.
Proof. intros H. induction js as [|j js IH]; intros s; cbn; [reflexivity|]. rewrite IH. apply H. Qed.
Lemma bfs_length t k : length (bfs t k) = k.
Proof.
  unfold bfs. rewrite upd_fold_length; [apply repeat_length|]. intros s j. cbv zeta. destruct (_ && _); [apply upd_length|reflexivity].
Qed.
Lemma lp_solution_length fuel k rs sl : lp_solution fuel k rs = Ok (Some sl) -> length sl = k.
Proof.
  unfold lp_solution. destruct (k =? 0)%nat; [discriminate|]. destruct (lp_StandardTableau k rs) as [[[s|]|]| | |]; cbn [bind]; try discriminate.
  - destruct (FindBfs fuel s) as [[t1|]| | |]; cbn [bind]; try discriminate. destruct (addNE t1) as [t2| | |]; cbn [bind]; try discriminate.
    destruct (if strict_ineq t2 then _ else _) as [[t3|]| | |]; cbn [bind]; try discriminate.
    destruct (resolve _ _ _) as [[t4|]| | |]; cbn [bind]; try discriminate. intros [= <-]. apply bfs_length.
  - intros [= <-]. apply repeat_length.
Qed.

Lemma ratio_pair q : ratio (Qnum (this q), Zpos (Qden (this q))) = q.
Proof.
  unfold ratio, inj. cbn [fst snd]. apply Qc_is_canon. destruct q as [[a d] C]. cbn [this Qnum Qden].
  unfold Qcdiv. rewrite this_mul. unfold Qcinv. cbn [this Q2Qc]. rewrite !Qred_correct. unfold Qeq, Qmult, Qinv, inject_Z. cbn. lia.
Qed.
Lemma pair_lowest q : (0 < Zpos (Qden (this q)))%Z /\ Z.gcd (Qnum (this q)) (Zpos (Qden (this q))) = 1%Z.
Proof. split; [lia|]. destruct q as [[a d] C]. cbn [this Qnum Qden]. exact (proj1 (Qred_iff (a # d)) C). Qed.

Lemma LPsol_spec fuel ps : (1 <= n)%nat -> LPsol fuel l = Ok (Some ps) ->
  (ps = [] <-> ~ exists x, solution n l x) /\
  (ps <> [] -> length ps = n) /\
  Forall (fun p => 0 < snd p /\ Z.gcd (fst p) (snd p) = 1)%Z ps /\
  (ps <> [] -> (forall j, (j < n)%nat -> exists r, In r l /\ nonneg_row j r) -> solution n (map relax l) (map ratio ps)).
Proof.
  intros N H. unfold LPsol in H. assert (NE0 : l <> []) by (intros E0; rewrite E0 in H; discriminate).
  rewrite (columns_ok NE0) in H. fold rows in H.
  pose proof (given_outcome fuel N) as O. pose proof (lp_solution_length fuel n rows) as LL.
  destruct (lp_solution fuel n rows) as [o| | |]; cbn [bind] in H; try discriminate. injection H as <-.
  destruct o as [sol|]; [inversion O as [| | |sol' x LX SX W _]|inversion O as [| |NO|]].
  2:{ split; [|split; [congruence|split; [constructor|congruence]]]. split; [|reflexivity]. intros _ (x & LX & SX). apply (NO x LX), g_sat, SX. }
  - specialize (LL sol eq_refl). assert (NE : map (fun q : Qc => (Qnum (this q), Zpos (Qden (this q)))) sol <> []) by (destruct sol; [cbn in LL; lia|discriminate]).
    split; [split; [congruence|]|split; [|split]].
    + intros X. exfalso. apply X. exists x. split; [exact LX|apply g_sat; exact SX].
    + intros _. rewrite map_length. exact LL.
    + rewrite Forall_map. apply Forall_forall. intros q _. apply pair_lowest.
    + intros _ ALL. assert (RM : map ratio (map (fun q : Qc => (Qnum (this q), Zpos (Qden (this q)))) sol) = sol).
      { rewrite map_map. rewrite <- (map_id sol) at 2. apply map_ext. intros q. apply ratio_pair. }
      rewrite RM. destruct W as (_ & W).
      { intros j J. destruct j as [|j]; [lia|]. destruct (ALL j ltac:(lia)) as (r & R & NR). exists (mk_lrow r). split; [apply in_map; exact R|].
        apply mk_dropped; [exact (proj1 (Forall_forall _ _) width r R)|exact (proj1 (Forall_forall _ _) rels r R)|exact NR]. }
      split; [exact LL|]. apply g_wsat. exact W.
Qed.
End Given.

(* if every row that is not zero says x[j] >= 0 the program stops *)
Lemma LP_stops n fuel l : (1 <= n)%nat -> of_width n l ->
  Forall (fun r => (exists j, nonneg_row j r) \/ (zero_row r /\ In (rel r) ["="; "<="; ">="]%string)) l ->
  (exists r j, In r l /\ nonneg_row j r) -> LP fuel l = Die.
Proof.
  intros N W H (r1 & j1 & R1 & J1).
  assert (P : Forall (fun r => plain_rel (rel r)) l).
  { apply Forall_forall. intros r R. destruct (proj1 (Forall_forall _ _) H r R) as [(j & E & _)|(_ & I)].
    - rewrite E. cbn. tauto.
    - cbn in *. tauto. }
  assert (NEQ : forall r, In r l -> rel r = "="%string -> zero_row r).
  { intros r R E. destruct (proj1 (Forall_forall _ _) H r R) as [(j & E' & _)|(Z & _)]; [congruence|exact Z]. }
  assert (IND : independent (equations l)).
  { assert (E : equations l = []).
    { unfold equations. assert (X : forall r, In r (filter (fun r => String.eqb (rel r) "=" && negb (zero_rowb r)) l) -> False).
      { intros r R. apply filter_In in R. destruct R as (R & Q). apply andb_true_iff in Q. destruct Q as (Q1 & Q2). apply String.eqb_eq in Q1.
        rewrite (proj2 (zero_rowb_ok r) (NEQ r R Q1)) in Q2. discriminate. }
      destruct (filter _ l) as [|r ?]; [reflexivity|]. exfalso. apply (X r). left. reflexivity. }
    rewrite E. intros [|v lam] L _; [constructor|discriminate]. }
  assert (NEL : l <> []) by (intros ->; destruct R1).
  unfold LP. rewrite (columns_ok n l W NEL). unfold lp_feasible. destruct (Nat.eqb_spec n 0); [lia|].
  set (rows := map mk_lrow l).
  assert (KE : kept n rows = []).
  { assert (X : forall r, In r (kept n rows) -> False).
    { intros r R. unfold kept in R. apply filter_In in R. destruct R as (R & K). apply in_map_iff in R. destruct R as (r0 & <- & R).
      apply filter_In in R. destruct R as (R & Q). apply in_map_iff in R. destruct R as (r & <- & R). rewrite mk_nonzero in Q.
      pose proof (proj1 (Forall_forall _ _) W r R) as Wr. pose proof (proj1 (Forall_forall _ _) P r R) as Pr. cbv beta in Wr, Pr.
      destruct (proj1 (Forall_forall _ _) H r R) as [(j & NR)|(Z & _)].
      - unfold keepb in K. rewrite (a_drop n _ (s1_ok n _ (mk_good n r Wr Pr))) in K.
        rewrite (proj2 (mk_dropped n r j Wr Pr) NR) in K. discriminate.
      - rewrite (proj2 (zero_rowb_ok r) Z) in Q. discriminate. }
    destruct (kept n rows) as [|r ?]; [reflexivity|]. exfalso. apply (X r). left. reflexivity. }
  assert (NZ : In (mk_lrow r1) (filter nonzero rows)).
  { apply filter_In. split; [apply in_map; exact R1|]. rewrite mk_nonzero. destruct (zero_rowb r1) eqn:Z; [|reflexivity]. exfalso.
    apply zero_rowb_ok in Z. destruct Z as (_ & Z). destruct J1 as (_ & _ & B & C). specialize (C j1). rewrite Nat.eqb_refl in C.
    rewrite (proj1 (Forall_forall _ _) Z (nth j1 (coeffs r1) 0%Z) (nth_In _ _ B)) in C. lia. }
  assert (EZ : forall rs, (forall r, In r rs -> nonzero r = true \/ rel_has_eq (l_rel r) = true) -> eliminate_zeros rs = Some (filter nonzero rs)).
  { clear. induction rs as [|r rs IH]; intros H; [reflexivity|]. cbn [eliminate_zeros filter]. specialize (IH (fun r0 R => H r0 (or_intror R))).
    unfold nonzero at 1. specialize (H r (or_introl eq_refl)). unfold nonzero in H. destruct (forallb (qeq q0) (l_cols r)); cbn [negb] in *.
    - destruct H as [H|H]; [discriminate|]. rewrite H. exact IH.
    - rewrite IH. reflexivity. }
  pose proof (given_outcome n l W P IND fuel N) as O. fold rows in O.
  assert (EZR : eliminate_zeros rows = Some (filter nonzero rows)).
  { apply EZ. intros r R. apply in_map_iff in R. destruct R as (r0 & <- & R). destruct (proj1 (Forall_forall _ _) H r0 R) as [(j & NR)|(_ & I)].
    - right. destruct NR as (E & _). unfold mk_lrow. cbn [l_rel]. change (fst (snd r0)) with (rel r0). rewrite E. reflexivity.
    - right. pose proof (proj1 (Forall_forall _ _) P r0 R) as Pr. destruct (relation_plain _ Pr) as (_ & _ & _ & _ & _ & _ & X). apply X. cbn in I. intuition. }
  (* the run: not More, since nothing is pivoted *)
  assert (D : lp_solution fuel n rows = Die).
  { unfold lp_solution. destruct (Nat.eqb_spec n 0); [lia|]. unfold lp_StandardTableau. rewrite EZR.
    pose proof (g_good n l W P) as G. fold rows in G.
    set (nz := filter nonzero rows) in *. destruct nz as [|r2 nz'] eqn:ENZ; [destruct NZ|]. rewrite <- ENZ in *.
    assert (GN : Forall (good n) nz) by (apply Forall_forall; intros r R; apply filter_In in R; exact (proj1 (Forall_forall _ _) G r (proj1 R))).
    replace (standard1 (r2 :: nz')) with (standard1 nz) by (rewrite ENZ; reflexivity).
    rewrite (standard1_ok n nz GN). cbn [bind]. set (rs := map s1 nz).
    assert (GR : Forall (good n) rs).
    { apply Forall_forall. intros r R. apply in_map_iff in R. destruct R as (r0 & <- & R). apply (a_good n r0), s1_ok, (proj1 (Forall_forall _ _) GN r0 R). }
    unfold standard2. destruct (standard2_loop_ok n rs GR (Dims (repeat false (S n)) 0 0 0 n false)) as (d & R & A1 & A2 & A3 & A4 & A5 & A6).
    { cbn [d_cv]. apply repeat_length. }
    { cbn [d_cv d_nu repeat tl]. rewrite countf_repeat. reflexivity. }
    rewrite R. cbn [bind]. rewrite (fold4 n _ _ _ rs) by (try exact GR; destruct (d_cv d); cbn in *; lia).
    change (filter (keepb n) rs) with (kept n rows) in *. rewrite KE in *. cbn [filter length f_slack f_lastv f_rows f_unres rows4 app] in *.
    rewrite A4. cbn [d_ns plus]. destruct (Nat.eqb_spec (n + d_nu d + 0 + (if d_strict d then 1 else 0) - 0) 0); [lia|]. reflexivity. }
  rewrite D. reflexivity.
Qed.
