(* The standard form says the same as the rows it is made from. *)
From Coq Require Import ZArith QArith Qcanon List Bool Arith Lia.
From Verif Require Import LpModel LpBase LpSpec LpTab LpPhase1.
Import ListNotations.
Open Scope Qc_scope.

Definition sem (r : relation) (a b : Qc) : Prop :=
  match r with EQ => a = b | LT => a < b | GT => b < a | GE => b <= a | LE => a <= b | NE => a <> b | COST => False end.
Definition weak (r : relation) : relation := match r with LT => LE | GT => GE | _ => r end.
Definition strict_rel (r : relation) : bool := match r with LT | GT => true | _ => false end.
Definition lhs_of (x : list Qc) (r : lrow) : Qc := dot (tl (l_cols r)) x.
Definition rhs_of (r : lrow) : Qc := nth 0 (l_cols r) q0.
Definition sat (x : list Qc) (r : lrow) : Prop := sem (l_rel r) (lhs_of x r) (rhs_of r).
Definition wsat (x : list Qc) (r : lrow) : Prop := sem (weak (l_rel r)) (lhs_of x r) (rhs_of r).
Definition good (n : nat) (r : lrow) : Prop := length (l_cols r) = S n /\ l_rel r <> NE /\ l_rel r <> COST.

Lemma sat_wsat x r : sat x r -> wsat x r.
Proof. unfold sat, wsat. destruct (l_rel r); cbn; intros H; try exact H; apply Qclt_le_weak, H. Qed.

(* ---------------------------------------------------------------- products *)
Lemma dot_zero c x : forallb (qeq q0) c = true -> dot c x = 0.
Proof.
  revert x; induction c as [|a c IH]; intros [|v x] H; cbn in *; try reflexivity.
  apply andb_true_iff in H. destruct H as (E & H). apply qeq_iff in E. rewrite <- E, IH by exact H. change q0 with 0. ring.
Qed.
Lemma dot_opp c x : dot (map Qcopp c) x = - dot c x.
Proof. revert x; induction c as [|a c IH]; intros [|v x]; cbn; try ring. rewrite IH. ring. Qed.
Lemma dot_sum c x : length x = length c -> dot c x = sum (fun j => nth (j - 1) c q0 * nth (j - 1) x q0) (length c).
Proof.
  revert x; induction c as [|a c IH] using rev_ind; intros x L; [reflexivity|].
  destruct (exists_last (l := x)) as (x' & v & ->); [intros ->; rewrite app_length in L; cbn in L; lia|].
  rewrite !app_length in *. cbn [length] in *. assert (L' : length x' = length c) by lia.
  assert (D : forall c x a v, length x = length c -> dot (c ++ [a]) (x ++ [v]) = dot c x + a * v).
  { clear. induction c as [|b c IH]; intros [|w x] a v L; cbn in *; try discriminate; [ring|]. rewrite IH by lia. ring. }
  rewrite D by exact L'. rewrite IH by exact L'. rewrite Nat.add_1_r. cbn [sum]. f_equal.
  - apply sum_ext. intros j J. rewrite !app_nth1 by lia. reflexivity.
  - rewrite !app_nth2 by lia. replace (S (length c) - 1 - length c)%nat with 0%nat by lia.
    replace (S (length c) - 1 - length x')%nat with 0%nat by lia. reflexivity.
Qed.

(* a list of coefficients against y o, y (o + 1), ... *)
Fixpoint dots (l : list Qc) (y : nat -> Qc) (o : nat) : Qc :=
  match l with [] => 0 | a :: r => a * y o + dots r y (S o) end.
Lemma dots_app l1 l2 y o : dots (l1 ++ l2) y o = dots l1 y o + dots l2 y (o + length l1).
Proof.
  revert o; induction l1 as [|a l1 IH]; intros o; cbn [app dots length]; [rewrite Nat.add_0_r; ring|].
  rewrite IH. rewrite Nat.add_succ_r. cbn. ring.
Qed.
Lemma sum_dots b l y : sum (fun j => nth j (b :: l) q0 * y j) (length l) = dots l y 1.
Proof.
  induction l as [|a l IH] using rev_ind; [reflexivity|].
  rewrite dots_app, <- IH, app_length. cbn [length]. rewrite Nat.add_1_r. cbn [sum dots]. f_equal.
  - apply sum_ext. intros j J. destruct j as [|j]; [lia|]. cbn [nth]. rewrite app_nth1 by lia. reflexivity.
  - cbn [nth]. rewrite app_nth2, Nat.sub_diag by lia. cbn. ring.
Qed.
Lemma dots_unit sl co y k : forall a, dots (map (fun jj => if (jj =? sl)%nat then co else q0) (seq a k)) y a =
  if ((a <=? sl) && (sl <? a + k))%nat then co * y sl else 0.
Proof.
  induction k as [|k IH]; intros a; cbn [seq map dots].
  - destruct (Nat.leb_spec a sl), (Nat.ltb_spec sl (a + 0)); cbn; try lia; reflexivity.
  - rewrite IH. destruct (Nat.eqb_spec a sl) as [->|N].
    + rewrite Nat.leb_refl. destruct (Nat.leb_spec (S sl) sl); [lia|]. destruct (Nat.ltb_spec sl (sl + S k)); [|lia]. cbn. ring.
    + destruct (Nat.leb_spec (S a) sl), (Nat.leb_spec a sl), (Nat.ltb_spec sl (S a + k)), (Nat.ltb_spec sl (a + S k));
        try lia; cbn; change q0 with 0; ring.
Qed.

(* ---------------------------------------------------------------- split variables *)
Fixpoint countf (cv : list bool) : nat := match cv with [] => 0 | true :: r => countf r | false :: r => S (countf r) end.
Fixpoint merge (cv : list bool) (y : nat -> Qc) (o : nat) : list Qc :=
  match cv with
  | [] => []
  | true :: r => y o :: merge r y (S o)
  | false :: r => y o - y (S o) :: merge r y (S (S o))
  end.
Definition pos (a : Qc) : Qc := if qlt a q0 then 0 else a.
Fixpoint unmerge (cv : list bool) (x : list Qc) : list Qc :=
  match cv, x with
  | true :: r, a :: x' => a :: unmerge r x'
  | false :: r, a :: x' => pos a :: pos (- a) :: unmerge r x'
  | _, _ => []
  end.
Fixpoint place (cv : list bool) (j : nat) : nat :=
  match cv, j with
  | true :: r, S k => S (place r k)
  | false :: r, S k => S (S (place r k))
  | _, _ => 0
  end.

Lemma split_length cv : forall c, length c = length cv -> length (split_cols cv c) = (length cv + countf cv)%nat.
Proof. induction cv as [|[] cv IH]; intros [|a c] L; cbn in *; try discriminate; try reflexivity; rewrite IH by lia; lia. Qed.
Lemma dots_split cv y : forall c o, length c = length cv -> dots (split_cols cv c) y o = dot c (merge cv y o).
Proof.
  induction cv as [|[] cv IH]; intros [|a c] o L; cbn in *; try discriminate; try reflexivity; rewrite IH by lia; ring.
Qed.
Lemma merge_length cv y : forall o, length (merge cv y o) = length cv.
Proof. induction cv as [|[] cv IH]; intros o; cbn; try reflexivity; rewrite IH; reflexivity. Qed.
Lemma merge_nonneg cv y : forall o j, (forall i, (o <= i < o + length cv + countf cv)%nat -> 0 <= y i) -> nth j cv false = true -> 0 <= nth j (merge cv y o) q0.
Proof.
  induction cv as [|[] cv IH]; intros o [|j] H E; cbn in *; try discriminate.
  - apply H. lia.
  - apply IH; [|exact E]. intros i Hi. apply H. lia.
  - apply IH; [|exact E]. intros i Hi. apply H. lia.
Qed.
Lemma pos_diff a : pos a - pos (- a) = a.
Proof.
  unfold pos. destruct (qlt a q0) eqn:E, (qlt (- a) q0) eqn:E'; try (apply qlt_iff in E); try (apply qlt_iff in E');
    try (apply qlt_false in E); try (apply qlt_false in E'); qc.
Qed.
Lemma pos_nonneg a : 0 <= pos a.
Proof. unfold pos. destruct (qlt a q0) eqn:E; [apply Qcle_refl|apply qlt_false in E; exact E]. Qed.
Lemma unmerge_length cv : forall x, length x = length cv -> length (unmerge cv x) = (length cv + countf cv)%nat.
Proof. induction cv as [|[] cv IH]; intros [|a c] L; cbn in *; try discriminate; try reflexivity; rewrite IH by lia; lia. Qed.
Lemma merge_unmerge cv : forall x y o, length x = length cv ->
  (forall i, (i < length (unmerge cv x))%nat -> y (o + i)%nat = nth i (unmerge cv x) q0) -> merge cv y o = x.
Proof.
  induction cv as [|[] cv IH]; intros [|a x] y o L H; cbn in *; try discriminate; try reflexivity.
  - f_equal.
    + specialize (H 0%nat ltac:(lia)). rewrite Nat.add_0_r in H. exact H.
    + apply IH; [lia|]. intros i Hi. specialize (H (S i) ltac:(lia)). rewrite Nat.add_succ_r in H. exact H.
  - f_equal.
    + pose proof (H 0%nat ltac:(lia)) as H0. rewrite Nat.add_0_r in H0. pose proof (H 1%nat ltac:(lia)) as H1. rewrite Nat.add_1_r in H1.
      rewrite H0, H1. cbn. apply pos_diff.
    + apply IH; [lia|]. intros i Hi. specialize (H (S (S i)) ltac:(lia)). rewrite !Nat.add_succ_r in H. exact H.
Qed.
Lemma unmerge_nonneg cv : forall x, length x = length cv -> (forall j, nth j cv false = true -> 0 <= nth j x q0) ->
  forall i, 0 <= nth i (unmerge cv x) q0.
Proof.
  induction cv as [|[] cv IH]; intros [|a x] L H i; cbn in *; try discriminate; try (destruct i; apply Qcle_refl).
  - destruct i as [|i]; [apply (H 0%nat); reflexivity|]. apply IH; [lia|]. intros j Hj. apply (H (S j) Hj).
  - destruct i as [|[|i]]; try apply pos_nonneg. apply IH; [lia|]. intros j Hj. apply (H (S j) Hj).
Qed.
Lemma place_ok cv : forall j, (j < length cv)%nat -> (place cv j < length cv + countf cv)%nat /\
  forall c, length c = length cv -> nth (place cv j) (split_cols cv c) q0 = nth j c q0.
Proof.
  induction cv as [|[] cv IH]; intros j J; [cbn in J; lia| |]; (destruct j as [|j]; [split; [cbn; lia|intros [|a c] L; [discriminate|reflexivity]]|]).
  - destruct (IH j) as (B & H); [cbn in J; lia|]. split; [cbn; lia|]. intros [|a c] L; [discriminate|]. cbn. apply H. cbn in L. lia.
  - destruct (IH j) as (B & H); [cbn in J; lia|]. split; [cbn; lia|]. intros [|a c] L; [discriminate|]. cbn. apply H. cbn in L. lia.
Qed.

(* ---------------------------------------------------------------- the rows of the standard form *)
Fixpoint rows4 (cv : list bool) (strict : bool) (ncol sl : nat) (rs : list lrow) : list (list Qc) :=
  match rs with
  | [] => []
  | r :: rs' => snd (standard4_row cv strict ncol sl r) :: rows4 cv strict ncol (if uses_slack (l_rel r) then sl - 1 else sl)%nat rs'
  end.
Definition uses (r : lrow) : bool := uses_slack (l_rel r).
Definition dummy : lrow := LRow EQ [].

Lemma rows4_length cv strict ncol rs : forall sl, length (rows4 cv strict ncol sl rs) = length rs.
Proof. induction rs as [|r rs IH]; intros sl; cbn; [reflexivity|]. rewrite IH. reflexivity. Qed.
Lemma rows4_nth cv strict ncol rs : forall sl k, (k < length rs)%nat ->
  nth k (rows4 cv strict ncol sl rs) [] = snd (standard4_row cv strict ncol (sl - length (filter uses (firstn k rs))) (nth k rs dummy)).
Proof.
  induction rs as [|r rs IH]; intros sl k K; [cbn in K; lia|]. destruct k as [|k]; cbn [rows4 nth firstn filter].
  - cbn [length]. rewrite Nat.sub_0_r. reflexivity.
  - rewrite IH by (cbn in K; lia). unfold uses at 2. destruct (uses_slack (l_rel r)); cbn [length]; [|reflexivity].
    do 2 f_equal. lia.
Qed.
Lemma filter_nth {X} (p : X -> bool) d l : forall k, (k < length l)%nat -> p (nth k l d) = true ->
  (length (filter p (firstn k l)) < length (filter p l))%nat /\ nth (length (filter p (firstn k l))) (filter p l) d = nth k l d.
Proof.
  induction l as [|a l IH]; intros k K E; [cbn in K; lia|]. destruct k as [|k]; cbn [nth firstn filter] in *.
  - rewrite E. cbn. split; [lia|reflexivity].
  - destruct (IH k) as (B & N); [cbn in K; lia|exact E|]. destruct (p a); cbn; [split; [lia|exact N]|split; assumption].
Qed.
Lemma filter_firstn_lt {X} (p : X -> bool) d l k k' : (k < k' < length l)%nat -> p (nth k l d) = true ->
  (length (filter p (firstn k l)) < length (filter p (firstn k' l)))%nat.
Proof.
  intros K E. pose proof (filter_nth p d (firstn k' l) k) as H. rewrite firstn_length in H.
  assert (N : nth k (firstn k' l) d = nth k l d).
  { rewrite <- (firstn_skipn k' l) at 2. rewrite app_nth1; [reflexivity|rewrite firstn_length; lia]. }
  rewrite N, firstn_firstn in H. replace (Nat.min k k') with k in H by lia. apply H; [lia|exact E].
Qed.

(* one row with its slack variable v and epsilon e *)
Lemma row_weak (strict : bool) r a b e v : r <> NE -> r <> COST -> (strict = false -> strict_rel r = false) ->
  a + (if strict then eps_coeff r * e else 0) + slack_coeff r * v = b ->
  (uses_slack r = true -> 0 <= v) -> (strict = true -> 0 <= e) -> sem (weak r) a b.
Proof.
  intros N1 N2 ST E US UE. destruct strict, r; cbn [uses_slack slack_coeff eps_coeff weak sem strict_rel] in *; try congruence;
    try discriminate (ST eq_refl); try specialize (US eq_refl); try specialize (UE eq_refl); qc.
Qed.
Lemma row_strict (strict : bool) r a b e v : r <> NE -> r <> COST -> (strict = false -> strict_rel r = false) ->
  a + (if strict then eps_coeff r * e else 0) + slack_coeff r * v = b ->
  (uses_slack r = true -> 0 <= v) -> (strict = true -> 0 < e) -> sem r a b.
Proof.
  intros N1 N2 ST E US UE. destruct strict, r; cbn [uses_slack slack_coeff eps_coeff weak sem strict_rel] in *; try congruence;
    try discriminate (ST eq_refl); try specialize (US eq_refl); try specialize (UE eq_refl); qc.
Qed.
Lemma row_fill (strict : bool) r a b e v e' : r <> NE -> r <> COST -> (strict = false -> strict_rel r = false) ->
  sem (weak r) a b ->
  (uses_slack r = true -> v = match r with LT | LE => b - a | GT | GE => a - b | _ => 0 end - (if strict_rel r then e' else 0)) ->
  (strict = true -> e = e') -> a + (if strict then eps_coeff r * e else 0) + slack_coeff r * v = b.
Proof.
  intros N1 N2 ST E US UE. destruct strict, r; cbn [uses_slack slack_coeff eps_coeff weak sem strict_rel] in *; try congruence;
    try discriminate (ST eq_refl); try specialize (US eq_refl); try specialize (UE eq_refl); qc.
Qed.

Lemma eps_length (strict : bool) (v : Qc) : length (if strict then [v] else []) = if strict then 1%nat else 0%nat.
Proof. destruct strict; reflexivity. Qed.

Section Form.
Variables (n : nat) (kept : list lrow) (cv : list bool) (strict : bool) (labs : list Z).
Hypothesis Hgood : Forall (good n) kept.
Hypothesis Hrhs : Forall (fun r => 0 <= rhs_of r) kept.
Hypothesis Hcv : length cv = n.
Hypothesis Hstrict : strict = false -> Forall (fun r => strict_rel (l_rel r) = false) kept.
Let m := length kept.
Let L := (length cv + countf cv)%nat.
Let lastv := (L + (if strict then 1 else 0))%nat.
Let ns := length (filter uses kept).
Let nc := (lastv + ns)%nat.
Definition form : std := Std (rows4 cv strict nc nc kept) [] nc (if strict then Some lastv else None) labs.

Let slk (k : nat) : nat := (nc - length (filter uses (firstn (k - 1) kept)))%nat.
Let rk (k : nat) : lrow := nth (k - 1) kept dummy.

Lemma rk_in k : (1 <= k <= m)%nat -> In (rk k) kept.
Proof. intros K. apply nth_In. fold m. lia. Qed.
Lemma rk_good k : (1 <= k <= m)%nat -> good n (rk k).
Proof. intros K. exact (proj1 (Forall_forall _ _) Hgood _ (rk_in k K)). Qed.
Lemma tl_len k : (1 <= k <= m)%nat -> length (tl (l_cols (rk k))) = length cv.
Proof. intros K. destruct (rk_good k K) as (E & _). destruct (l_cols (rk k)); cbn in *; lia. Qed.
Lemma slk_uses k : (1 <= k <= m)%nat -> uses (rk k) = true -> (lastv < slk k <= nc)%nat.
Proof.
  intros K U. destruct (filter_nth uses dummy kept (k - 1)) as (B & _); [fold m; lia|exact U|]. unfold slk, nc, ns. lia.
Qed.
Lemma slk_inj k k' : (1 <= k <= m)%nat -> (1 <= k' <= m)%nat -> uses (rk k) = true -> uses (rk k') = true -> slk k = slk k' -> k = k'.
Proof.
  intros K K' U U' E. destruct (filter_nth uses dummy kept (k - 1)) as (B & _); [fold m; lia|exact U|].
  destruct (filter_nth uses dummy kept (k' - 1)) as (B' & _); [fold m; lia|exact U'|].
  destruct (Nat.lt_trichotomy k k') as [H|[H|H]]; [|exact H|]; exfalso.
  - pose proof (filter_firstn_lt uses dummy kept (k - 1) (k' - 1) ltac:(fold m; lia) U). unfold slk, nc, ns in *. lia.
  - pose proof (filter_firstn_lt uses dummy kept (k' - 1) (k - 1) ltac:(fold m; lia) U'). unfold slk, nc, ns in *. lia.
Qed.

Lemma form_m : length (s_rows form) = m.
Proof. apply rows4_length. Qed.

(* the row, taken apart *)
Definition cells (k : nat) : list Qc := split_cols cv (tl (l_cols (rk k))).
Lemma form_nth k : (1 <= k <= m)%nat -> nth (k - 1) (s_rows form) [] =
  rhs_of (rk k) :: cells k ++ (if strict then [eps_coeff (l_rel (rk k))] else []) ++
    map (fun jj => if (jj =? slk k)%nat then slack_coeff (l_rel (rk k)) else q0) (seq (S lastv) ns).
Proof.
  intros K. unfold form. cbn [s_rows]. rewrite rows4_nth by (fold m; lia). unfold standard4_row. cbn [snd].
  fold (rk k). fold (slk k). fold (cells k).
  assert (E : length (cells k) = L) by (unfold cells; rewrite split_length by (apply tl_len; exact K); reflexivity).
  rewrite E. fold lastv. replace (nc - lastv)%nat with ns by (unfold nc; lia). reflexivity.
Qed.
Lemma cells_len k : (1 <= k <= m)%nat -> length (cells k) = L.
Proof. intros K. unfold cells. rewrite split_length by (apply tl_len; exact K). reflexivity. Qed.

Lemma form_rows_len r : In r (s_rows form) -> length r = S nc.
Proof.
  intros H. apply (In_nth _ _ []) in H. destruct H as (k & K & <-). rewrite form_m in K.
  replace k with (S k - 1)%nat by lia. rewrite form_nth by lia. cbn [length]. rewrite !app_length, map_length, seq_length, cells_len by lia.
  unfold nc, lastv. destruct strict; cbn; lia.
Qed.
Lemma form_rhs k : (1 <= k <= m)%nat -> A form k 0 = rhs_of (rk k).
Proof. intros K. unfold A. rewrite form_nth by exact K. reflexivity. Qed.
Lemma form_rhs_pos k : (1 <= k <= m)%nat -> 0 <= A form k 0.
Proof. intros K. rewrite form_rhs by exact K. exact (proj1 (Forall_forall _ _) Hrhs _ (rk_in k K)). Qed.
Lemma form_eps e : s_eps form = Some e -> strict = true /\ e = lastv /\ (L < e)%nat /\ (1 <= e <= nc)%nat.
Proof. unfold form. cbn [s_eps]. unfold nc, lastv. destruct strict; [|discriminate]. intros [= <-]. repeat split; lia. Qed.

Lemma form_sum k y : (1 <= k <= m)%nat -> sum (fun j => A form k j * y j) nc =
  lhs_of (merge cv y 1) (rk k) + (if strict then eps_coeff (l_rel (rk k)) * y lastv else 0) + slack_coeff (l_rel (rk k)) * y (slk k).
Proof.
  intros K. unfold A. rewrite form_nth by exact K.
  match goal with |- sum (fun j => nth j (?b :: ?l) q0 * y j) nc = _ => set (l0 := l); set (b0 := b); assert (E : length l0 = nc) end.
  { unfold l0. rewrite !app_length, map_length, seq_length, cells_len by exact K. unfold nc, lastv. destruct strict; cbn; lia. }
  rewrite <- E at 1. rewrite sum_dots. unfold l0. rewrite !dots_app.
  unfold cells at 1. rewrite dots_split by (apply tl_len; exact K). fold (lhs_of (merge cv y 1) (rk k)).
  rewrite <- Qcplus_assoc. f_equal. rewrite cells_len by exact K.
  assert (E2 : (1 + L + length (if strict then [eps_coeff (l_rel (rk k))] else []) = S lastv)%nat) by (unfold lastv; destruct strict; cbn; lia).
  rewrite E2, dots_unit. f_equal.
  - unfold lastv. destruct strict; [|reflexivity]. cbn [dots]. replace (1 + L)%nat with (L + 1)%nat by lia. ring.
  - destruct (uses (rk k)) eqn:U.
    + pose proof (slk_uses k K U). destruct (Nat.leb_spec (S lastv) (slk k)); [|lia].
      destruct (Nat.ltb_spec (slk k) (S lastv + ns)); [|unfold nc in *; lia]. reflexivity.
    + unfold uses, uses_slack in U. destruct (l_rel (rk k)); try discriminate. cbn [slack_coeff]. change q0 with 0.
      destruct (_ && _); ring.
Qed.

Lemma in_rk r : In r kept -> exists k, (1 <= k <= m)%nat /\ r = rk k.
Proof.
  intros H. apply (In_nth _ _ dummy) in H. destruct H as (k & K & <-). exists (S k). split; [fold m in K; lia|].
  unfold rk. replace (S k - 1)%nat with k by lia. reflexivity.
Qed.

(* from the standard form to the rows *)
Lemma form_wsound y : nonneg nc y -> sol form y -> Forall (wsat (merge cv y 1)) kept.
Proof.
  intros Y S. apply Forall_forall. intros r R. destruct (in_rk r R) as (k & K & ->).
  pose proof (S k ltac:(rewrite form_m; exact K)) as E. change (s_ncol form) with nc in E. rewrite form_sum, form_rhs in E by exact K.
  assert (US : uses (rk k) = true -> 0 <= y (slk k)) by (intros U; apply Y; pose proof (slk_uses k K U); lia).
  assert (UE : strict = true -> 0 <= y lastv) by (intros St; apply Y; unfold nc, lastv; rewrite St; lia).
  pose proof (rk_good k K) as (_ & N1 & N2). apply (row_weak strict _ _ _ (y lastv) (y (slk k)) N1 N2); try assumption.
  intros Q. exact (proj1 (Forall_forall _ _) (Hstrict Q) _ R).
Qed.
Lemma form_sound y : nonneg nc y -> sol form y -> (forall e, s_eps form = Some e -> 0 < y e) -> Forall (sat (merge cv y 1)) kept.
Proof.
  intros Y S P. apply Forall_forall. intros r R. destruct (in_rk r R) as (k & K & ->).
  pose proof (S k ltac:(rewrite form_m; exact K)) as E. change (s_ncol form) with nc in E. rewrite form_sum, form_rhs in E by exact K.
  assert (US : uses (rk k) = true -> 0 <= y (slk k)) by (intros U; apply Y; pose proof (slk_uses k K U); lia).
  assert (UE : strict = true -> 0 < y lastv) by (intros X; apply P; unfold form; cbn [s_eps]; rewrite X; reflexivity).
  pose proof (rk_good k K) as (_ & N1 & N2). apply (row_strict strict _ _ _ (y lastv) (y (slk k)) N1 N2); try assumption.
  intros Q. exact (proj1 (Forall_forall _ _) (Hstrict Q) _ R).
Qed.

(* and back *)
Definition gap (x : list Qc) (r : lrow) : Qc :=
  match l_rel r with LT | LE => rhs_of r - lhs_of x r | GT | GE => lhs_of x r - rhs_of r | _ => 0 end.
Definition slackval (x : list Qc) (e : Qc) (r : lrow) : Qc := gap x r - (if strict_rel (l_rel r) then e else 0).

Lemma form_complete x e : length x = n -> (forall j, nth j cv false = true -> 0 <= nth j x q0) ->
  Forall (wsat x) kept -> 0 <= e -> Forall (fun r => strict_rel (l_rel r) = true -> e <= gap x r) kept ->
  exists y, nonneg nc y /\ sol form y /\ (strict = true -> y lastv = e).
Proof.
  intros LX X W E0 G.
  set (sv := map (slackval x e) (filter uses kept)).
  set (y := fun j => if (j <=? L)%nat then nth (j - 1) (unmerge cv x) q0 else if (j <=? lastv)%nat then e else nth (nc - j) sv q0).
  assert (M : merge cv y 1 = x).
  { apply merge_unmerge; [lia|]. intros i Hi. rewrite unmerge_length in Hi by lia. unfold y.
    destruct (Nat.leb_spec (1 + i) L); [|unfold L in *; lia]. f_equal. lia. }
  assert (SV : forall k, (1 <= k <= m)%nat -> uses (rk k) = true -> y (slk k) = slackval x e (rk k)).
  { intros k K U. pose proof (slk_uses k K U) as B. unfold y. destruct (Nat.leb_spec (slk k) L); [unfold lastv in *; lia|].
    destruct (Nat.leb_spec (slk k) lastv); [lia|].
    destruct (filter_nth uses dummy kept (k - 1)) as (B1 & B2); [fold m; lia|exact U|].
    replace (nc - slk k)%nat with (length (filter uses (firstn (k - 1) kept))) by (unfold slk, nc, ns in *; lia).
    unfold sv. rewrite (nth_indep _ q0 (slackval x e dummy)) by (rewrite map_length; exact B1).
    rewrite (map_nth (slackval x e)), B2. reflexivity. }
  assert (YE : strict = true -> y lastv = e).
  { intros St. unfold y, lastv. rewrite St. destruct (Nat.leb_spec (L + 1) L); [lia|]. rewrite Nat.leb_refl. reflexivity. }
  exists y. split; [|split; [|exact YE]].
  - intros j J. unfold y. destruct (Nat.leb_spec j L); [apply unmerge_nonneg; [lia|exact X]|].
    destruct (Nat.leb_spec j lastv); [exact E0|].
    assert (P : forall v, In v sv -> 0 <= v).
    { intros v V. apply in_map_iff in V. destruct V as (r & <- & R). apply filter_In in R. destruct R as (R & U).
      pose proof (proj1 (Forall_forall _ _) W r R) as W'. pose proof (proj1 (Forall_forall _ _) G r R) as G'. cbv beta in G'.
      pose proof (proj1 (Forall_forall _ _) Hgood r R) as (_ & N1 & N2).
      unfold slackval, wsat, uses, gap in *. destruct (l_rel r); cbn [strict_rel weak sem uses_slack] in *; try congruence; try (specialize (G' eq_refl)); qc. }
    destruct (Nat.ltb_spec (nc - j) (length sv)); [apply P, nth_In; lia|]. rewrite nth_overflow by lia. apply Qcle_refl.
  - intros k K. rewrite form_m in K. change (s_ncol form) with nc. rewrite form_sum, form_rhs, M by exact K.
    pose proof (rk_good k K) as (_ & N1 & N2). apply (row_fill strict _ _ _ _ _ e N1 N2).
    + intros Q. exact (proj1 (Forall_forall _ _) (Hstrict Q) _ (rk_in k K)).
    + exact (proj1 (Forall_forall _ _) W _ (rk_in k K)).
    + exact (SV k K).
    + exact YE.
Qed.

(* ---------------------------------------------------------------- independence *)
Lemma lincomb_nil lam j : lincomb lam [] j = 0.
Proof. unfold lincomb. rewrite combine_nil. reflexivity. Qed.
Definition is_eq (r : lrow) : bool := match l_rel r with EQ => true | _ => false end.

Lemma sum_filter (j : nat) : forall (rs : list lrow) (lam : nat -> Qc),
  (forall k, (1 <= k <= length rs)%nat -> is_eq (nth (k - 1) rs dummy) = false -> lam k = 0) ->
  exists l, length l = length (filter is_eq rs) /\
   (forall b, lincomb l (map l_cols (filter is_eq rs)) b = sum (fun k => lam k * nth b (l_cols (nth (k - 1) rs dummy)) q0) (length rs)) /\
   (Forall (fun v => v = 0) l -> forall k, (1 <= k <= length rs)%nat -> lam k = 0).
Proof.
  induction rs as [|r rs IH] using rev_ind; intros lam H.
  - exists []. split; [reflexivity|]. split; [reflexivity|]. intros _ k K. cbn in K. lia.
  - rewrite app_length in *. cbn [length] in *. rewrite Nat.add_1_r in *.
    destruct (IH lam) as (l & E1 & E2 & E3).
    { intros k K Q. apply H; [lia|]. rewrite app_nth1 by lia. exact Q. }
    assert (SE : forall b, sum (fun k => lam k * nth b (l_cols (nth (k - 1) (rs ++ [r]) dummy)) q0) (length rs) =
                 sum (fun k => lam k * nth b (l_cols (nth (k - 1) rs dummy)) q0) (length rs)).
    { intros b. apply sum_ext. intros k K. rewrite app_nth1 by lia. reflexivity. }
    assert (NR : nth (S (length rs) - 1) (rs ++ [r]) dummy = r).
    { rewrite app_nth2 by lia. replace (S (length rs) - 1 - length rs)%nat with 0%nat by lia. reflexivity. }
    rewrite filter_app. cbn [filter]. destruct (is_eq r) eqn:Q.
    + exists (l ++ [lam (S (length rs))]). rewrite !app_length, E1. split; [reflexivity|]. split.
      * intros b. cbn [sum]. rewrite SE, NR, map_app, <- E2. unfold lincomb.
        assert (CA : forall {X Y} (l1 : list X) (l2 : list Y) a b, length l1 = length l2 -> combine (l1 ++ [a]) (l2 ++ [b]) = combine l1 l2 ++ [(a, b)]).
        { clear. intros X Y. induction l1 as [|x l1 IH]; intros [|z l2] a b L; cbn in *; try discriminate; [reflexivity|]. rewrite IH by lia. reflexivity. }
        cbn [map]. rewrite CA by (rewrite map_length; exact E1). rewrite map_app. cbn [map fst snd].
        assert (FA : forall l v, fold_right Qcplus 0 (l ++ [v]) = fold_right Qcplus 0 l + v).
        { clear. induction l as [|a l IH]; intros v; cbn; [ring|]. rewrite IH. ring. }
        rewrite FA. reflexivity.
      * intros Z k K. apply Forall_app in Z. destruct Z as (Z1 & Z2). destruct (Nat.eq_dec k (S (length rs))) as [->|N].
        -- inversion Z2. assumption.
        -- apply E3; [exact Z1|lia].
    + assert (Z0 : lam (S (length rs)) = 0) by (apply H; [lia|rewrite NR; exact Q]).
      exists l. rewrite app_nil_r. split; [exact E1|]. split.
      * intros b. cbn [sum]. rewrite SE, Z0, <- E2. ring.
      * intros Z k K. destruct (Nat.eq_dec k (S (length rs))) as [->|N]; [exact Z0|]. apply E3; [exact Z|lia].
Qed.

Lemma form_indep : independent (map l_cols (filter is_eq kept)) -> forall lam : nat -> Qc,
  (forall b, (b <= nc)%nat -> s_eps form <> Some b -> sum (fun k => lam k * A form k b) m = 0) ->
  forall k, (1 <= k <= m)%nat -> lam k = 0.
Proof.
  intros IND lam H.
  (* rows with a slack variable *)
  assert (NEQ : forall k, (1 <= k <= m)%nat -> is_eq (nth (k - 1) kept dummy) = false -> lam k = 0).
  { intros k K Q. fold (rk k) in Q. assert (U : uses (rk k) = true) by (unfold uses, uses_slack; unfold is_eq in Q; destruct (l_rel (rk k)); congruence).
    pose proof (slk_uses k K U) as B. specialize (H (slk k) ltac:(lia)).
    assert (SA : forall k', (1 <= k' <= m)%nat -> A form k' (slk k) = if (slk k =? slk k')%nat then slack_coeff (l_rel (rk k')) else q0).
    { intros k' K'. unfold A. rewrite form_nth by exact K'. destruct (slk k) as [|p] eqn:SE; [lia|]. cbn [nth].
      rewrite app_nth2 by (rewrite cells_len by exact K'; unfold lastv in *; lia). rewrite cells_len by exact K'.
      rewrite app_nth2 by (rewrite eps_length; unfold lastv in *; lia).
      set (g := fun jj => if (jj =? slk k')%nat then _ else _).
      assert (PE : (p - L - length (if strict then [eps_coeff (l_rel (rk k'))] else []) = p - lastv)%nat) by (rewrite eps_length; unfold lastv; lia).
      rewrite PE. rewrite (nth_indep _ q0 (g 0%nat)) by (rewrite map_length, seq_length; unfold nc in *; lia).
      rewrite (map_nth g), seq_nth by (unfold nc in *; lia). unfold g. replace (S lastv + (p - lastv))%nat with (S p) by lia. reflexivity. }
    rewrite (sum_single _ _ k K) in H.
    - rewrite SA, Nat.eqb_refl in H by exact K. specialize (H ltac:(intros E; apply form_eps in E; lia)).
      pose proof (rk_good k K) as (_ & N1 & N2). unfold is_eq in Q.
      destruct (l_rel (rk k)); cbn [slack_coeff] in H; try congruence; qc.
    - intros k' K' N. rewrite SA by exact K'. destruct (Nat.eqb_spec (slk k) (slk k')) as [E|E]; [|change q0 with 0; ring].
      destruct (uses (rk k')) eqn:U'; [exfalso; apply N; symmetry; apply slk_inj; assumption|].
      unfold uses, uses_slack in U'. destruct (l_rel (rk k')); try discriminate. cbn [slack_coeff]. change q0 with 0. ring. }
  destruct (sum_filter 0 kept lam NEQ) as (l & E1 & E2 & E3). apply E3. apply IND; [rewrite map_length; exact E1|].
  intros b. rewrite E2. fold m. destruct b as [|b].
  - rewrite <- (H 0%nat ltac:(lia)) by (intros E; apply form_eps in E; lia). apply sum_ext. intros k K. rewrite form_rhs by exact K. reflexivity.
  - destruct (Nat.ltb_spec b (length cv)) as [B|B].
    + destruct (place_ok cv b B) as (P1 & P2). fold L in P1. rewrite <- (H (S (place cv b)) ltac:(unfold nc, lastv; lia)).
      * apply sum_ext. intros k K. unfold A. rewrite form_nth by exact K. cbn [nth]. rewrite app_nth1 by (rewrite cells_len by exact K; exact P1).
        unfold cells. rewrite P2 by (apply tl_len; exact K). fold (rk k). destruct (l_cols (rk k)); [|reflexivity]. destruct b; reflexivity.
      * intros E. apply form_eps in E. lia.
    + apply sum_zero. intros k K. fold (rk k). rewrite nth_overflow; [change q0 with 0; ring|]. destruct (rk_good k K) as (-> & _). lia.
Qed.
End Form.
