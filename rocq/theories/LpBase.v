(* Arithmetic and sums over Qc. *)
From Coq Require Import ZArith QArith Qcanon List Bool Arith Lia Lqa.
From Verif Require Import LpModel.
Import ListNotations.
Open Scope Qc_scope.

Lemma this_add a b : (this (a + b) == this a + this b)%Q.
Proof. apply Qred_correct. Qed.
Lemma this_mul a b : (this (a * b) == this a * this b)%Q.
Proof. apply Qred_correct. Qed.
Lemma this_opp a : (this (- a) == - this a)%Q.
Proof. apply Qred_correct. Qed.
Lemma this_sub a b : (this (a - b) == this a - this b)%Q.
Proof. unfold Qcminus. rewrite this_add, this_opp. reflexivity. Qed.
Lemma this_eq a b : a = b <-> (this a == this b)%Q.
Proof. split; [intros ->; reflexivity|apply Qc_is_canon]. Qed.
Lemma this_q0 : (this q0 == 0)%Q. Proof. reflexivity. Qed.
Lemma this_q1 : (this q1 == 1)%Q. Proof. reflexivity. Qed.
Lemma this_qm1 : (this qm1 == -1)%Q. Proof. reflexivity. Qed.
Lemma this_0 : (this 0%Qc == 0)%Q. Proof. reflexivity. Qed.
Lemma this_1 : (this 1%Qc == 1)%Q. Proof. reflexivity. Qed.

Ltac qcn :=
  repeat match goal with
  | H : @eq Qc _ _ |- _ => apply this_eq in H
  end;
  try match goal with |- @eq Qc _ _ => apply this_eq end;
  unfold Qcle, Qclt, not in *;
  rewrite ?this_add, ?this_sub, ?this_mul, ?this_opp, ?this_q0, ?this_q1, ?this_qm1, ?this_0, ?this_1 in *.
Ltac qc := qcn; try lra; try nra.

Lemma qlt_iff a b : qlt a b = true <-> a < b.
Proof. unfold qlt. split; intros H. - apply Qclt_alt. destruct (a ?= b); congruence. - assert (E : (a ?= b) = Lt) by (apply Qclt_alt; exact H). rewrite E. reflexivity. Qed.
Lemma qlt_false a b : qlt a b = false <-> b <= a.
Proof.
  split; intros H.
  - apply Qcnot_lt_le. intros X. apply qlt_iff in X. congruence.
  - destruct (qlt a b) eqn:E; [|reflexivity]. apply qlt_iff in E. exfalso. qc.
Qed.
Lemma qeq_iff a b : qeq a b = true <-> a = b.
Proof. unfold qeq. split; intros H. - apply Qceq_alt. destruct (a ?= b); congruence. - assert (E : (a ?= b) = Eq) by (apply Qceq_alt; exact H). rewrite E. reflexivity. Qed.
Lemma qeq_false a b : qeq a b = false <-> a <> b.
Proof.
  split; intros H.
  - intros ->. rewrite (proj2 (qeq_iff b b) eq_refl) in H. discriminate.
  - destruct (qeq a b) eqn:E; [|reflexivity]. apply qeq_iff in E. contradiction.
Qed.

Lemma Qc_prod_nonneg a b : 0 <= a -> 0 <= b -> 0 <= a * b.
Proof. intros. qc. Qed.

(* f 1 + ... + f n *)
Fixpoint sum (f : nat -> Qc) (n : nat) : Qc := match n with O => 0 | S k => sum f k + f (S k) end.

Lemma sum_ext f g n : (forall j, (1 <= j <= n)%nat -> f j = g j) -> sum f n = sum g n.
Proof. induction n as [|n IH]; intros H; cbn; [reflexivity|]. rewrite IH, H by (intros; try apply H; lia). reflexivity. Qed.
Lemma sum_add f g n : sum (fun j => f j + g j) n = sum f n + sum g n.
Proof. induction n as [|n IH]; cbn; [ring|]. rewrite IH. ring. Qed.
Lemma sum_scale c f n : sum (fun j => c * f j) n = c * sum f n.
Proof. induction n as [|n IH]; cbn; [ring|]. rewrite IH. ring. Qed.
Lemma sum_zero f n : (forall j, (1 <= j <= n)%nat -> f j = 0) -> sum f n = 0.
Proof. induction n as [|n IH]; intros H; cbn; [reflexivity|]. rewrite IH, H by (intros; try apply H; lia). ring. Qed.
Lemma sum_nonneg f n : (forall j, (1 <= j <= n)%nat -> 0 <= f j) -> 0 <= sum f n.
Proof.
  induction n as [|n IH]; intros H; cbn; [apply Qcle_refl|].
  assert (0 <= sum f n) by (apply IH; intros; apply H; lia). assert (0 <= f (S n)) by (apply H; lia). qc.
Qed.
Lemma sum_single f n k : (1 <= k <= n)%nat -> (forall j, (1 <= j <= n)%nat -> j <> k -> f j = 0) -> sum f n = f k.
Proof.
  induction n as [|n IH]; intros K H; [lia|]. cbn. destruct (Nat.eq_dec k (S n)) as [->|N].
  - rewrite sum_zero by (intros; apply H; lia). ring.
  - rewrite IH by (try lia; intros; apply H; lia). rewrite (H (S n)) by lia. ring.
Qed.
Lemma sum_nonneg_zero f n : (forall j, (1 <= j <= n)%nat -> 0 <= f j) -> sum f n = 0 -> forall j, (1 <= j <= n)%nat -> f j = 0.
Proof.
  induction n as [|n IH]; intros H E j J; [lia|]. cbn in E.
  assert (A : 0 <= sum f n) by (apply sum_nonneg; intros; apply H; lia).
  assert (B : 0 <= f (S n)) by (apply H; lia).
  destruct (Nat.eq_dec j (S n)) as [->|N]; [qc|]. apply IH; [intros; apply H; lia| |lia]. qc.
Qed.
Lemma sum_split f n m : sum f (n + m) = sum f n + sum (fun j => f (n + j)%nat) m.
Proof. induction m as [|m IH]; [rewrite Nat.add_0_r; cbn; ring|]. rewrite Nat.add_succ_r. cbn. rewrite IH, Nat.add_succ_r. ring. Qed.
Lemma sum_swap (f : nat -> nat -> Qc) n m : sum (fun i => sum (f i) m) n = sum (fun j => sum (fun i => f i j) n) m.
Proof.
  induction n as [|n IH]; cbn; [symmetry; apply sum_zero; reflexivity|]. rewrite IH, <- sum_add. reflexivity.
Qed.
Lemma sum_scale_r c f n : sum (fun j => f j * c) n = sum f n * c.
Proof. induction n as [|n IH]; cbn; [ring|]. rewrite IH. ring. Qed.

(* lists *)
Lemma upd_length {A} i (v : A) l : length (upd i v l) = length l.
Proof. revert i; induction l as [|x l IH]; intros [|i]; cbn; congruence. Qed.
Lemma nth_upd {A} i (v : A) l k d : (i < length l)%nat -> nth k (upd i v l) d = if (k =? i)%nat then v else nth k l d.
Proof.
  revert i k; induction l as [|x l IH]; intros i k H; cbn in *; [lia|].
  destruct i as [|i], k as [|k]; cbn; try reflexivity. apply IH. lia.
Qed.
Lemma nth_sub_mul y r s k : length r = length s -> (k < length r)%nat ->
  nth k (sub_mul y r s) q0 = nth k r q0 - y * nth k s q0.
Proof.
  intros E K. unfold sub_mul. rewrite (nth_indep _ q0 ((fun p => fst p - y * snd p) (q0, q0))).
  - rewrite (map_nth (fun p => fst p - y * snd p)), combine_nth by exact E. reflexivity.
  - rewrite map_length, combine_length. lia.
Qed.
Lemma sub_mul_length y r s : length r = length s -> length (sub_mul y r s) = length r.
Proof. intros E. unfold sub_mul. rewrite map_length, combine_length. lia. Qed.
