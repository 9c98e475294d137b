(** Integers written in binary, most significant bit first. *)
From stdpp Require Import list.
From Coq Require Import ZArith Lia.
Open Scope Z_scope.

Definition b2z (b : bool) : Z := if b then 1 else 0.
Definition pow2 (n : nat) : Z := 2 ^ Z.of_nat n.
(** unsigned and two's complement value *)
Fixpoint uv (l : list bool) : Z :=
  match l with [] => 0 | b :: r => b2z b * pow2 (length r) + uv r end.
Definition sv (l : list bool) : Z :=
  match l with [] => 0 | b :: r => uv r - b2z b * pow2 (length r) end.

Lemma pow2_0 : pow2 0 = 1. Proof. reflexivity. Qed.
Lemma pow2_S n : pow2 (S n) = 2 * pow2 n.
Proof. unfold pow2. rewrite Nat2Z.inj_succ, Z.pow_succ_r by lia. reflexivity. Qed.
Lemma pow2_pos n : 0 < pow2 n.
Proof. unfold pow2. apply Z.pow_pos_nonneg; lia. Qed.
Lemma pow2_add n m : pow2 (n + m) = pow2 n * pow2 m.
Proof. unfold pow2. rewrite Nat2Z.inj_add, Z.pow_add_r by lia. reflexivity. Qed.
Lemma pow2_eq n : pow2 n = 2 ^ Z.of_nat n. Proof. reflexivity. Qed.
Global Opaque pow2.

Lemma uv_range l : 0 <= uv l < pow2 (length l).
Proof. induction l as [|b l IH]; cbn [uv length]; [rewrite pow2_0; lia|]. rewrite pow2_S. pose proof (pow2_pos (length l)). destruct b; cbn [b2z]; lia. Qed.
Lemma sv_cons b l : sv (b :: l) = uv l - b2z b * pow2 (length l).
Proof. reflexivity. Qed.
Lemma sv_range b l : - pow2 (length l) <= sv (b :: l) < pow2 (length l).
Proof. rewrite sv_cons. pose proof (uv_range l). destruct b; cbn [b2z]; lia. Qed.
Lemma sv_sign b l : b = (sv (b :: l) <? 0).
Proof. rewrite sv_cons. pose proof (uv_range l). destruct b; cbn [b2z]; symmetry; [apply Z.ltb_lt|apply Z.ltb_ge]; lia. Qed.
Lemma sv_uv b l : sv (b :: l) = uv (b :: l) - 2 * b2z b * pow2 (length l).
Proof. cbn [uv]. rewrite sv_cons. lia. Qed.
Lemma sv_nonneg l : 0 <= sv l -> sv l = uv l.
Proof. destruct l as [|b l]; [reflexivity|]. rewrite sv_uv. intros H. pose proof (sv_range b l). pose proof (uv_range l). rewrite sv_uv in *. cbn [uv] in *. destruct b; cbn [b2z] in *; lia. Qed.
Lemma sv_nonneg_lt b l : 0 <= sv (b :: l) -> b = false.
Proof. intros H. rewrite (sv_sign b l). apply Z.ltb_ge. exact H. Qed.
Lemma sv_dup b l : sv (b :: b :: l) = sv (b :: l).
Proof. rewrite !sv_cons. cbn [uv length]. rewrite pow2_S. lia. Qed.
Lemma sv_rep n b l : sv (repeat b n ++ b :: l) = sv (b :: l).
Proof.
  induction n as [|n IH]; [reflexivity|]. cbn [repeat app]. destruct n as [|n]; [apply sv_dup|].
  cbn [repeat app] in *. rewrite sv_dup. exact IH. Qed.
Lemma uv_app l r : uv (l ++ r) = uv l * pow2 (length r) + uv r.
Proof. induction l as [|b l IH]; cbn [uv app]; [lia|]. rewrite IH, app_length, pow2_add. ring. Qed.
Lemma uv_zeros n : uv (repeat false n) = 0.
Proof. induction n as [|n IH]; cbn [uv repeat b2z]; [reflexivity|]. rewrite IH. ring. Qed.
Lemma uv_zeros_app n l : uv (repeat false n ++ l) = uv l.
Proof. rewrite uv_app, uv_zeros. lia. Qed.
Lemma sv_app b l r : sv (b :: l ++ r) = sv (b :: l) * pow2 (length r) + uv r.
Proof. rewrite !sv_cons, uv_app, app_length, pow2_add. ring. Qed.
Lemma sv_snoc l b : l <> [] -> sv (l ++ [b]) = 2 * sv l + b2z b.
Proof. destruct l as [|a l]; [congruence|]. intros _. cbn [app]. rewrite sv_app. cbn [length uv]. rewrite pow2_S, pow2_0. lia. Qed.
Lemma sv_pad_zero n l : 0 <= sv l -> l <> [] -> sv (repeat false n ++ l) = sv l.
Proof. destruct l as [|b l]; [congruence|]. intros H _. rewrite (sv_nonneg_lt _ _ H). apply sv_rep. Qed.
Lemma uv_inj l : forall l', length l = length l' -> uv l = uv l' -> l = l'.
Proof.
  induction l as [|a l IH]; intros [|b l'] Hl E; cbn [length uv] in *; try discriminate; [reflexivity|].
  injection Hl as Hl. pose proof (uv_range l). pose proof (uv_range l'). rewrite Hl in *. pose proof (pow2_pos (length l')).
  destruct a, b; cbn [b2z] in *; try (exfalso; lia); f_equal; apply IH; lia. Qed.
Lemma sv_inj l l' : length l = length l' -> sv l = sv l' -> l = l'.
Proof.
  destruct l as [|a l], l' as [|b l']; cbn [length]; intros Hl E; try discriminate; [reflexivity|]. injection Hl as Hl.
  pose proof (sv_sign a l) as Sa. pose proof (sv_sign b l') as Sb. rewrite E in Sa. assert (a = b) by congruence. subst b.
  f_equal. apply uv_inj; [lia|]. rewrite !sv_cons, Hl in E. lia. Qed.

(** bitwise operations *)
Lemma bits2 (f : Z -> Z -> Z) (g : bool -> bool -> bool) :
  (forall x y n, 0 <= n -> Z.testbit (f x y) n = g (Z.testbit x n) (Z.testbit y n)) ->
  forall x y a b, f (2 * x + b2z a) (2 * y + b2z b) = 2 * f x y + b2z (g a b).
Proof.
  intros H x y a b. apply Z.bits_inj'. intros n Hn. rewrite H by lia.
  assert (T : forall z c m, 0 <= m -> Z.testbit (2 * z + b2z c) m = if m =? 0 then c else Z.testbit z (m - 1)).
  { intros z c m Hm. destruct (Z.eqb_spec m 0) as [->|N].
    - destruct c; cbn [b2z]; [apply Z.testbit_odd_0|rewrite Z.add_0_r; apply Z.testbit_even_0].
    - replace m with (Z.succ (m - 1)) at 1 by lia. destruct c; cbn [b2z]; [apply Z.testbit_odd_succ|rewrite Z.add_0_r; apply Z.testbit_even_succ]; lia. }
  rewrite !T by lia. destruct (Z.eqb_spec n 0) as [->|N]; [reflexivity|]. rewrite H by lia. reflexivity. Qed.
Fixpoint zipw (g : bool -> bool -> bool) (l r : list bool) : list bool :=
  match l, r with a :: l, b :: r => g a b :: zipw g l r | _, _ => [] end.
Lemma zipw_length g l r : length l = length r -> length (zipw g l r) = length l.
Proof. revert r. induction l as [|a l IH]; intros [|b r] H; cbn in *; try discriminate; auto. Qed.
Lemma zipw_app g l r l' r' : length l = length r -> zipw g (l ++ l') (r ++ r') = zipw g l r ++ zipw g l' r'.
Proof. revert r. induction l as [|a l IH]; intros [|b r] H; cbn in *; try discriminate; auto. f_equal. apply IH. lia. Qed.
Lemma sv_zipw (f : Z -> Z -> Z) (g : bool -> bool -> bool) :
  (forall x y n, 0 <= n -> Z.testbit (f x y) n = g (Z.testbit x n) (Z.testbit y n)) ->
  forall l r, length l = length r -> l <> [] -> sv (zipw g l r) = f (sv l) (sv r).
Proof.
  intros H. induction l as [|a l IH] using rev_ind; intros r Hl Hn; [congruence|].
  destruct r as [|b r _] using rev_ind; [rewrite app_length in Hl; cbn in Hl; lia|].
  rewrite !app_length in Hl. cbn [length] in Hl. assert (Hl' : length l = length r) by lia.
  rewrite zipw_app by auto. cbn [zipw].
  destruct (decide (l = [])) as [->|Nl].
  - destruct r; [|discriminate]. cbn [app zipw]. rewrite !sv_cons. cbn [uv length]. rewrite pow2_0.
    apply Z.bits_inj'. intros n Hnn. rewrite H by lia.
    assert (T : forall c, Z.testbit (0 - b2z c * 1) n = c) by (intros []; cbn [b2z]; [apply Z.bits_m1; lia|apply Z.bits_0]).
    rewrite !T. reflexivity.
  - assert (r <> []) by (intros ->; destruct l; [congruence|discriminate]).
    assert (zipw g l r <> []) by (destruct l, r; try congruence; discriminate).
    rewrite !sv_snoc by auto. rewrite IH by auto. symmetry. apply bits2. exact H. Qed.
Lemma uv_not l : uv (map negb l) = pow2 (length l) - 1 - uv l.
Proof. induction l as [|b l IH]; cbn [uv map length]; [rewrite pow2_0; reflexivity|]. rewrite IH, map_length, pow2_S. destruct b; cbn [negb b2z]; lia. Qed.
Lemma sv_not l : l <> [] -> sv (map negb l) = - sv l - 1.
Proof. destruct l as [|b l]; [congruence|]. intros _. cbn [map]. rewrite !sv_cons, uv_not, map_length. destruct b; cbn [negb b2z]; lia. Qed.
