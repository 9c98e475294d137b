(* The first phase: FindBfs on a problem in standard form. *)
From Coq Require Import ZArith QArith Qcanon List Bool Arith Lia.
From Verif Require Import LpModel LpBase LpTab LpSimplex.
Import ListNotations.
Open Scope Qc_scope.

(* ---------------------------------------------------------------- find_basis *)
Lemma in_basis_loop_some t j : forall is e i, in_basis_loop t j e is = Some i ->
  (match e with None => True | Some k => ~ In k is end) -> NoDup is ->
  (match e with None => In i is /\ get t i j = 1 | Some k => i = k end) /\ forall a, In a is -> a <> i -> get t a j = 0.
Proof.
  induction is as [|a is IH]; intros e i H NE ND; cbn in H.
  - subst e. split; [reflexivity|]. intros a [].
  - inversion ND as [|? ? NA ND']; subst. destruct (qeq (get t a j) q1) eqn:Q1; cbn [andb] in H.
    + apply qeq_iff in Q1. destruct e as [k|].
      * assert (Q0 : qeq (get t a j) q0 = false).
        { apply qeq_false. rewrite Q1. apply one_neq_zero. }
        rewrite Q0 in H. discriminate.
      * destruct (IH (Some a) i H NA ND') as (-> & Z). split; [split; [left; reflexivity|exact Q1]|].
        intros b [<-|B] N; [congruence|]. apply Z; assumption.
    + destruct (qeq (get t a j) q0) eqn:Q0; cbn [negb] in H; [|discriminate]. apply qeq_iff in Q0.
      destruct (IH e i H) as (A & Z); [destruct e; [intros X; apply NE; right; exact X|exact I]|exact ND'|].
      split.
      * destruct e; [exact A|]. destruct A as (A & B). split; [right; exact A|exact B].
      * intros b [<-|B] N; [exact Q0|]. apply Z; assumption.
Qed.

Lemma in_basis_some t j i : in_basis t j = Some i -> (i <= nrow t)%nat /\ unit_col t i j.
Proof.
  intros H. destruct (in_basis_loop_some t j _ _ _ H I (seq_NoDup _ _)) as ((A & B) & Z).
  apply in_seq in A. split; [lia|]. intros a La. destruct (Nat.eqb_spec a i) as [->|N]; [exact B|].
  apply Z; [apply in_seq; lia|exact N].
Qed.

Lemma in_basis_loop_complete t i j : unit_col t i j -> forall is e, NoDup is -> (forall a, In a is -> (a <= nrow t)%nat) ->
  (match e with None => In i is | Some k => k = i /\ ~ In i is end) -> in_basis_loop t j e is = Some i.
Proof.
  intros U. induction is as [|a is IH]; intros e ND B E; cbn.
  - destruct e as [k|]; [destruct E as (-> & _); reflexivity|destruct E].
  - inversion ND as [|? ? NA ND']; subst.
    rewrite (U a (B a (or_introl eq_refl))). destruct (Nat.eqb_spec a i) as [->|N].
    + destruct e as [k|]; [destruct E as (_ & E); exfalso; apply E; left; reflexivity|].
      rewrite (proj2 (qeq_iff 1 q1) eq_refl). cbn [andb].
      apply IH; [exact ND'|intros x X; apply B; right; exact X|split; [reflexivity|exact NA]].
    + rewrite (proj2 (qeq_false 0 q1)) by (intros X; symmetry in X; exact (one_neq_zero X)). cbn [andb].
      rewrite (proj2 (qeq_iff 0 q0) eq_refl). cbn [negb].
      apply IH; [exact ND'|intros x X; apply B; right; exact X|].
      destruct e as [k|]; [destruct E as (-> & E); split; [reflexivity|]; intros X; apply E; right; exact X|].
      destruct E as [->|E]; [congruence|exact E].
Qed.

Lemma in_basis_complete t i j : (i <= nrow t)%nat -> unit_col t i j -> in_basis t j = Some i.
Proof.
  intros Hi U. apply in_basis_loop_complete; [exact U|apply seq_NoDup|intros a A; apply in_seq in A; lia|apply in_seq; lia].
Qed.

Lemma find_basis_ok t :
  let b := find_basis t in
  length b = S (ncol t) /\ nth 0 b 0%nat = 0%nat /\
  (forall j, (1 <= j <= ncol t)%nat -> (0 < nth j b 0)%nat ->
     (nth j b 0 <= nrow t)%nat /\ unit_col t (nth j b 0%nat) j /\ is_eps t j = false) /\
  (forall j j', (1 <= j <= ncol t)%nat -> (1 <= j' <= ncol t)%nat -> (0 < nth j b 0)%nat -> nth j b 0%nat = nth j' b 0%nat -> j = j') /\
  (forall i j, (1 <= i <= nrow t)%nat -> (1 <= j <= ncol t)%nat -> unit_col t i j -> is_eps t j = false ->
     exists j', (1 <= j' <= j)%nat /\ nth j' b 0%nat = i).
Proof.
  unfold find_basis. set (f := fun (s : list nat * list nat) j => _). cbv zeta.
  assert (H : forall k, (k <= ncol t)%nat -> let s := fold_left f (seq 1 k) ([], []) in
    length (fst s) = k /\
    (forall j, (j < k)%nat -> (0 < nth j (fst s) 0)%nat ->
       (nth j (fst s) 0 <= nrow t)%nat /\ unit_col t (nth j (fst s) 0%nat) (S j) /\ is_eps t (S j) = false /\ In (nth j (fst s) 0%nat) (snd s)) /\
    (forall i, In i (snd s) -> (0 < i)%nat /\ exists j, (j < k)%nat /\ nth j (fst s) 0%nat = i) /\
    (forall j j', (j < k)%nat -> (j' < k)%nat -> (0 < nth j (fst s) 0)%nat -> nth j (fst s) 0%nat = nth j' (fst s) 0%nat -> j = j') /\
    (forall i j, (1 <= i <= nrow t)%nat -> (1 <= j <= k)%nat -> unit_col t i j -> is_eps t j = false ->
       exists j', (j' < j)%nat /\ nth j' (fst s) 0%nat = i)).
  { induction k as [|k IH]; intros K; cbv zeta; [cbn; repeat split; intros; try lia; try contradiction|].
    specialize (IH ltac:(lia)). cbv zeta in IH. rewrite seq_S, fold_left_app. cbn [fold_left plus].
    set (s := fold_left f (seq 1 k) ([], [])) in *. destruct s as (basis & marked). cbn [fst snd] in IH.
    destruct IH as (L & A & M & J & C). unfold f.
    assert (N1 : forall v j, (j < k)%nat -> nth j (basis ++ [v]) 0%nat = nth j basis 0%nat) by (intros v j Hj; apply app_nth1; lia).
    assert (N2 : forall v, nth k (basis ++ [v]) 0%nat = v) by (intros v; rewrite app_nth2, L, Nat.sub_diag by lia; reflexivity).
    (* the case of an entry 0 *)
    assert (Zero : (forall i, (1 <= i <= nrow t)%nat -> unit_col t i (S k) -> is_eps t (S k) = false -> In i marked) ->
      let s' := (basis ++ [0%nat], marked) in
      length (fst s') = S k /\
      (forall j, (j < S k)%nat -> (0 < nth j (fst s') 0)%nat ->
         (nth j (fst s') 0 <= nrow t)%nat /\ unit_col t (nth j (fst s') 0%nat) (S j) /\ is_eps t (S j) = false /\ In (nth j (fst s') 0%nat) (snd s')) /\
      (forall i, In i (snd s') -> (0 < i)%nat /\ exists j, (j < S k)%nat /\ nth j (fst s') 0%nat = i) /\
      (forall j j', (j < S k)%nat -> (j' < S k)%nat -> (0 < nth j (fst s') 0)%nat -> nth j (fst s') 0%nat = nth j' (fst s') 0%nat -> j = j') /\
      (forall i j, (1 <= i <= nrow t)%nat -> (1 <= j <= S k)%nat -> unit_col t i j -> is_eps t j = false ->
         exists j', (j' < j)%nat /\ nth j' (fst s') 0%nat = i)).
    { intros NM. cbv zeta. cbn [fst snd]. split; [rewrite app_length; cbn; lia|].
      assert (D : forall j, (j < S k)%nat -> (0 < nth j (basis ++ [0%nat]) 0)%nat -> (j < k)%nat).
      { intros j Hj P. destruct (Nat.eq_dec j k) as [->|]; [rewrite N2 in P; lia|lia]. }
      split; [intros j Hj P; pose proof (D j Hj P); rewrite N1 in * by lia; apply A; assumption|].
      split; [intros i Hi; destruct (M i Hi) as (Pi & j & Hj & E); split; [exact Pi|]; exists j; split; [lia|]; rewrite N1 by lia; exact E|].
      split.
      - intros j j' Hj Hj' P E. pose proof (D j Hj P). assert (P' : (0 < nth j' (basis ++ [0%nat]) 0)%nat) by lia.
        pose proof (D j' Hj' P'). rewrite !N1 in * by lia. apply J; assumption.
      - intros i j Hi Hj U NE. destruct (Nat.eq_dec j (S k)) as [->|NJ].
        + destruct (M i (NM i Hi U NE)) as (_ & j' & Hj' & E). exists j'. split; [lia|]. rewrite N1 by lia. exact E.
        + destruct (C i j Hi ltac:(lia) U NE) as (j' & Hj' & E). exists j'. split; [lia|]. rewrite N1 by lia. exact E. }
    destruct (in_basis t (S k)) as [i0|] eqn:EB.
    - destruct (in_basis_some t (S k) i0 EB) as (L0 & U0).
      destruct ((0 <? i0)%nat && negb (existsb (Nat.eqb i0) marked) && negb (is_eps t (S k))) eqn:G.
      + apply andb_true_iff in G. destruct G as (G & G3). apply andb_true_iff in G. destruct G as (G1 & G2).
        apply Nat.ltb_lt in G1. apply negb_true_iff in G2, G3. cbn [fst snd].
        assert (NM : ~ In i0 marked).
        { intros X. assert (existsb (Nat.eqb i0) marked = true); [|congruence]. apply existsb_exists. exists i0. split; [exact X|apply Nat.eqb_refl]. }
        split; [rewrite app_length; cbn; lia|]. split; [|split; [|split]].
        * intros j Hj P. destruct (Nat.eq_dec j k) as [->|N].
          -- rewrite N2. repeat split; try assumption. left. reflexivity.
          -- rewrite N1 in * by lia. destruct (A j ltac:(lia) P) as (A1 & A2 & A3 & A4). repeat split; try assumption. right. exact A4.
        * intros i [<-|Hi]; [split; [exact G1|]; exists k; split; [lia|apply N2]|].
          destruct (M i Hi) as (Pi & j & Hj & E). split; [exact Pi|]. exists j. split; [lia|]. rewrite N1 by lia. exact E.
        * intros j j' Hj Hj' P E. destruct (Nat.eq_dec j k) as [->|N], (Nat.eq_dec j' k) as [->|N']; [reflexivity| | |].
          -- exfalso. rewrite N2, N1 in E by lia. apply NM. rewrite E. apply A; [lia|]. rewrite <- E. exact G1.
          -- exfalso. rewrite N1, N2 in E by lia. rewrite N1 in P by lia. apply NM. rewrite <- E. apply A; [lia|exact P].
          -- rewrite !N1 in * by lia. apply J; try assumption; lia.
        * intros i j Hi Hj U NE. destruct (Nat.eq_dec j (S k)) as [->|NJ].
          -- rewrite (in_basis_complete t i (S k) ltac:(lia) U) in EB. injection EB as ->. exists k. split; [lia|apply N2].
          -- destruct (C i j Hi ltac:(lia) U NE) as (j' & Hj' & E). exists j'. split; [lia|]. rewrite N1 by lia. exact E.
      + apply Zero. intros i Hi U NE. rewrite (in_basis_complete t i (S k) ltac:(lia) U) in EB. injection EB as ->.
        rewrite NE in G. cbn [negb] in G. rewrite andb_true_r in G. rewrite (proj2 (Nat.ltb_lt 0 i0)) in G by lia. cbn [andb] in G.
        apply negb_false_iff, existsb_exists in G. destruct G as (x & X & E). apply Nat.eqb_eq in E. subst x. exact X.
    - apply Zero. intros i Hi U NE. rewrite (in_basis_complete t i (S k) ltac:(lia) U) in EB. discriminate. }
  specialize (H (ncol t) (Nat.le_refl _)). cbv zeta in H. destruct (fold_left f (seq 1 (ncol t)) ([], [])) as (basis & marked).
  cbn [fst snd] in *. destruct H as (L & A & M & J & C).
  split; [cbn; lia|]. split; [reflexivity|]. split; [|split].
  - intros [|j] Hj P; [lia|]. cbn [nth] in *. destruct (A j ltac:(lia) P) as (A1 & A2 & A3 & _). auto.
  - intros [|j] [|j'] Hj Hj' P E; try lia. cbn [nth] in *. f_equal. apply J; try assumption; lia.
  - intros i j Hi Hj U NE. destruct (C i j Hi Hj U NE) as (j' & Hj' & E). exists (S j'). split; [lia|exact E].
Qed.
