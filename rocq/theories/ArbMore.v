(** Bitwise operations and greatest common divisor of arbitrary precision integers (arb_prec.c).
    The operations themselves (arbi__bvop and its uses) are in ArbModel.v. *)
From Coq Require Import ZArith Bool List Lia Zquot Znumtheory.
From Verif Require Import ArbModel ArbBase ArbMul ArbDiv ArbDivThm.
Import ListNotations.
Open Scope Z_scope.

(** arb_prec.c 852-859, the loop on single words of arbi__gcd. *)
Fixpoint gcd_words (fuel : nat) (wx wy : Z) : option Z :=
  match fuel with
  | O => None
  | S k =>
      if wy =? 0 then Some wx else
      let? wx := cmod wx wy in
      if wx =? 0 then Some wy else
      let? wy := cmod wy wx in
      gcd_words k wx wy
  end.
(** arb_prec.c 849-866, the loop of arbi__gcd.  If ax has one word then ay[0] is read whatever the
    length of ay. *)
Fixpoint gcd_loop (fuel : nat) (ax ay : arbi) : option arbi :=
  match fuel with
  | O => None
  | S k =>
      if cmp0 ay =? 0 then Some ax else
      match ax with
      | [wx] => let? w := gcd_words k wx (hd 0 ay) in Some [w]
      | _ => let? t := arbi__mod k ax ay in gcd_loop k ay t
      end
  end.
(** arb_prec.c 838-848 (arbi__gcd). *)
Definition arbi__gcd (fuel : nat) (x y : arbi) : option arbi :=
  let ax := arbi__abs x in
  let ay := arbi__abs y in
  match Arbi_cmp ax ay with
  | Lt => gcd_loop fuel ay ax
  | _ => gcd_loop fuel ax ay
  end.
(** arb_prec.c 267-271. *)
Definition Arbi_IsNegative (x : arbi) : bool := cmp0 x <? 0.

(* ---- bitwise operations ---- *)
Local Transparent uw.
Lemma testbit_uw w v i : 0 <= i -> Z.testbit (uw w + B * v) i = if i <? 64 then Z.testbit w i else Z.testbit v (i - 64).
Proof.
  intros I. unfold uw. change B with (2 ^ 64). destruct (Z.ltb_spec i 64) as [L|L].
  - rewrite <- (Z.mod_pow2_bits_low (w mod 2 ^ 64 + 2 ^ 64 * v) 64 i) by lia.
    rewrite (Z.mul_comm (2 ^ 64)), Z_mod_plus_full, Zmod_mod. apply Z.mod_pow2_bits_low. lia.
  - replace i with ((i - 64) + 64) at 1 by lia. rewrite <- Z.div_pow2_bits by lia.
    rewrite (Z.mul_comm (2 ^ 64)), Z_div_plus_full by discriminate. rewrite (Z.div_small (w mod 2 ^ 64)).
    + f_equal.
    + apply Z.mod_pos_bound. reflexivity.
Qed.

Definition bitop (op : Z -> Z -> Z) (f : bool -> bool -> bool) : Prop :=
  forall a b i, 0 <= i -> Z.testbit (op a b) i = f (Z.testbit a i) (Z.testbit b i).
Lemma word_bits w : word w <-> (forall i, 63 <= i -> Z.testbit w i = Z.testbit w 63).
Proof.
  unfold word. split.
  - intros W i I. assert (S : forall j, 63 <= j -> Z.testbit w j = Z.testbit (w / 2 ^ 63) (j - 63)) by (intros j J; rewrite Z.div_pow2_bits by lia; f_equal; lia).
    rewrite (S i), (S 63) by lia.
    assert (D : w / 2 ^ 63 = 0 \/ w / 2 ^ 63 = -1).
    { change (2 ^ 63) with HB. pose proof (Z.div_mod w HB). pose proof (Z.mod_pos_bound w HB). unfold HB in *. lia. }
    destruct D as [-> | ->]; [rewrite !Z.bits_0; reflexivity|rewrite !Z.bits_m1 by lia; reflexivity].
  - intros H. assert (D : w / 2 ^ 63 = if Z.testbit w 63 then -1 else 0).
    { apply Z.bits_inj'. intros i I. rewrite Z.div_pow2_bits by lia. rewrite H by lia.
      destruct (Z.testbit w 63); [rewrite Z.bits_m1 by lia|rewrite Z.bits_0]; reflexivity. }
    change (2 ^ 63) with HB in D. pose proof (Z.div_mod w HB). pose proof (Z.mod_pos_bound w HB).
    destruct (Z.testbit w 63); unfold HB in *; lia.
Qed.

Section op.
Variables (op : Z -> Z -> Z) (f : bool -> bool -> bool).
Hypothesis OP : bitop op f.
Lemma word_op a b : word a -> word b -> word (op a b).
Proof.
  rewrite !word_bits. intros A C i I. rewrite !OP by lia. rewrite A, C by lia. reflexivity.
Qed.
Lemma bvop_map x : forall y, ok x -> ok y -> length x = length y ->
  let z := map (fun p => op (fst p) (snd p)) (combine x y) in ok z /\ val z = op (val x) (val y).
Proof.
  induction x as [|a x IH]; intros y X Y L z.
  - destruct X. contradiction.
  - destruct y as [|b y]; [discriminate L|]. injection L as L. destruct x as [|a' x].
    + destruct y; [|discriminate L]. subst z. cbn. apply ok_one in X, Y. split; [apply ok_one, word_op; assumption|reflexivity].
    + destruct y as [|b' y]; [discriminate L|].
      apply ok_cons in X; [|discriminate]. apply ok_cons in Y; [|discriminate]. destruct X as [WA X], Y as [WB Y].
      destruct (IH _ X Y L) as [O V]. subst z. cbn [combine map fst snd] in *.
      set (z := op a' b' :: _) in *. assert (NE : z <> []) by discriminate.
      split; [apply ok_cons; [exact NE|split; [apply word_op; assumption|exact O]]|].
      rewrite (val_cons _ z NE), (val_cons a (a' :: x)), (val_cons b (b' :: y)) by discriminate. rewrite V.
      apply Z.bits_inj'. intros i I. rewrite OP by exact I. rewrite !testbit_uw by exact I.
      destruct (i <? 64) eqn:E; [|apply Z.ltb_ge in E]; rewrite OP by lia; reflexivity.
Qed.
Lemma bvop_spec x y : (forall p q, f p q = f q p) \/ x = y -> ok x -> ok y -> canon (arbi__bvop op x y) /\ val (arbi__bvop op x y) = op (val x) (val y).
Proof.
  intros SYM X Y.
  assert (G : let z := let '(x, y) := if (length x <? length y)%nat then (y, x) else (x, y) in
    trim (map (fun p => op (fst p) (snd p)) (combine x (sext y (length x)))) in canon z /\ val z = op (val x) (val y)).
  { assert (K : forall x y, ok x -> ok y -> (length y <= length x)%nat ->
      let z := trim (map (fun p => op (fst p) (snd p)) (combine x (sext y (length x)))) in canon z /\ val z = op (val x) (val y)).
    { clear X Y SYM x y. intros x y X Y L. destruct (sext_spec y (length x) Y L) as (SO & SL & SV).
      destruct (bvop_map x (sext y (length x)) X) as [O V]; [assumption|congruence|].
      destruct (trim_spec _ O) as [T TV]. split; [exact T|]. rewrite TV, V. f_equal. assumption. }
    destruct (Nat.ltb_spec (length x) (length y)) as [L|L].
    - destruct (K y x Y X) as [C V]; [lia|]. split; [exact C|]. rewrite V. destruct SYM as [SYM| ->]; [|reflexivity].
      apply Z.bits_inj'. intros i I. rewrite !OP by exact I. apply SYM.
    - apply (K x y X Y). exact L. }
  unfold arbi__bvop. destruct x as [|a [|a' x]]; [destruct X; contradiction| |exact G].
  destruct y as [|b [|b' y]]; [destruct Y; contradiction| |exact G].
  apply ok_one in X, Y. split; [apply canon_one, word_op; assumption|reflexivity].
Qed.
End op.

Lemma and_spec x y : ok x -> ok y -> canon (Arbi_bvAND x y) /\ val (Arbi_bvAND x y) = Z.land (val x) (val y).
Proof. apply (bvop_spec Z.land andb); [intros a b i _; apply Z.land_spec|left; intros [] []; reflexivity]. Qed.
Lemma or_spec x y : ok x -> ok y -> canon (Arbi_bvOR x y) /\ val (Arbi_bvOR x y) = Z.lor (val x) (val y).
Proof. apply (bvop_spec Z.lor orb); [intros a b i _; apply Z.lor_spec|left; intros [] []; reflexivity]. Qed.
Lemma xor_spec x y : ok x -> ok y -> canon (Arbi_bvXOR x y) /\ val (Arbi_bvXOR x y) = Z.lxor (val x) (val y).
Proof. apply (bvop_spec Z.lxor xorb); [intros a b i _; apply Z.lxor_spec|left; intros [] []; reflexivity]. Qed.
Lemma not_spec x : ok x -> canon (Arbi_bvNOT x) /\ val (Arbi_bvNOT x) = Z.lnot (val x).
Proof.
  intros X. apply (bvop_spec (fun a _ => Z.lnot a) (fun a _ => negb a)); try exact X; [|right; reflexivity].
  intros a b i I. apply Z.lnot_spec. exact I.
Qed.
Lemma isneg_spec x : canon x -> Arbi_IsNegative x = (val x <? 0).
Proof. intros X. unfold Arbi_IsNegative. rewrite (cmp0_spec x X). destruct (val x); reflexivity. Qed.

(* ---- gcd ---- *)
Lemma gcd_step a b : 0 < b -> Z.gcd (a mod b) b = Z.gcd a b.
Proof. intros P. rewrite (Z.gcd_comm a b). apply Z.gcd_mod. lia. Qed.
Lemma gcd_words_ok n : forall wx wy, 0 <= wy < Z.of_nat n -> 0 <= wx -> word wx -> word wy ->
  exists m, forall fuel, gcd_words (m + fuel) wx wy = Some (Z.gcd wx wy) .
Proof.
  induction n as [|n IH]; intros wx wy W X WX WY; [lia|].
  destruct (Z.eqb_spec wy 0) as [->|N0].
  { exists 1%nat. intros fuel. cbn. rewrite Z.gcd_0_r. f_equal. lia. }
  assert (C1 : cmod wx wy = Some (wx mod wy)).
  { unfold cmod. destruct (Z.eqb_spec wy 0); [lia|]. destruct (Z.eqb_spec wy (-1)); [lia|]. rewrite andb_false_r. cbn [orb].
    rewrite Z.rem_mod_nonneg by lia. reflexivity. }
  pose proof (Z.mod_pos_bound wx wy ltac:(lia)) as R1.
  destruct (Z.eqb_spec (wx mod wy) 0) as [E1|N1].
  { exists 1%nat. intros fuel. cbn [Nat.add gcd_words]. destruct (Z.eqb_spec wy 0); [lia|]. rewrite C1. cbn [obind]. rewrite E1. cbn.
    rewrite <- gcd_step by lia. rewrite E1, Z.gcd_0_l. f_equal. lia. }
  assert (C2 : cmod wy (wx mod wy) = Some (wy mod (wx mod wy))).
  { unfold cmod. destruct (Z.eqb_spec (wx mod wy) 0); [lia|]. destruct (Z.eqb_spec (wx mod wy) (-1)); [lia|]. rewrite andb_false_r. cbn [orb].
    rewrite Z.rem_mod_nonneg by lia. reflexivity. }
  pose proof (Z.mod_pos_bound wy (wx mod wy) ltac:(lia)) as R2.
  unfold word in *.
  destruct (IH (wx mod wy) (wy mod (wx mod wy))) as [m M]; [lia|lia|unfold word; lia|unfold word; lia|].
  exists (S m). intros fuel. cbn [Nat.add gcd_words]. destruct (Z.eqb_spec wy 0); [lia|]. rewrite C1. cbn [obind].
  destruct (Z.eqb_spec (wx mod wy) 0); [lia|]. rewrite C2. cbn [obind]. rewrite M. f_equal.
  rewrite Z.gcd_comm, gcd_step by lia. rewrite Z.gcd_comm. apply gcd_step. lia.
Qed.

Lemma len_mono x y : canon x -> canon y -> 0 <= val y <= val x -> (length y <= length x)%nat.
Proof.
  intros X Y V. destruct (Nat.le_gt_cases (length y) (length x)) as [L|L]; [exact L|exfalso].
  pose proof (val_range x (proj1 X)) as R. pose proof (val_trimmed y (proj1 Y) (proj2 Y)) as T.
  pose proof (len_pos x (proj1 X)).
  specialize (T ltac:(lia)). pose proof (Bn_le (length x - 1) (length y - 2) ltac:(lia)).
  assert (HB * Bn (length x - 1) <= HB * Bn (length y - 2)) by (apply Z.mul_le_mono_nonneg_l; [discriminate|assumption]). lia.
Qed.

Lemma gcd_loop_ok : forall n ax ay, canon ax -> canon ay -> 0 <= val ay <= val ax -> val ay < Z.of_nat n -> Z.of_nat (1 + length ay) <= 32767 ->
  exists m z, (forall fuel, gcd_loop (m + fuel) ax ay = Some z) /\ canon z /\ val z = Z.gcd (val ax) (val ay).
Proof.
  induction n as [|n IH]; intros ax ay X Y V N LEN; [lia|].
  pose proof (cmp0_spec ay Y) as C0.
  destruct (Z.eqb_spec (val ay) 0) as [E|E].
  { exists 1%nat, ax. split; [|split; [exact X|rewrite E, Z.gcd_0_r; lia]]. intros fuel. cbn [Nat.add gcd_loop]. rewrite C0, E. reflexivity. }
  assert (C1 : (cmp0 ay =? 0) = false) by (rewrite C0; apply Z.eqb_neq; intros S; apply E, Z.sgn_null_iff, S).
  assert (SLOW : (2 <= length ax)%nat -> exists m z, (forall fuel, (let? t := arbi__mod (m + fuel) ax ay in gcd_loop (m + fuel) ay t) = Some z) /\
     canon z /\ val z = Z.gcd (val ax) (val ay)).
  { intros _. destruct (mod_spec ax ay X Y) as (m1 & t & M & T & TV); [exact E|unfold MinWord, HB; lia|exact LEN|].
    pose proof (Z.mod_pos_bound (val ax) (val ay) ltac:(lia)) as R.
    destruct (IH ay t Y T) as (m2 & z & G & Zc & ZV); [lia|lia|pose proof (len_mono ay t Y T ltac:(lia)); lia|].
    exists (m1 + m2)%nat, z. split; [|split; [exact Zc|]].
    - intros fuel. replace (m1 + m2 + fuel)%nat with (m1 + (m2 + fuel))%nat at 1 by lia. rewrite M. cbn [obind].
      replace (m1 + m2 + fuel)%nat with (m2 + (m1 + fuel))%nat by lia. apply G.
    - rewrite ZV, TV, Z.gcd_comm. apply gcd_step. lia. }
  destruct ax as [|wx [|wx' ax]]; [destruct X as [[X _] _]; contradiction| |].
  - pose proof (len_mono _ _ X Y V) as L. destruct ay as [|wy [|]]; [destruct Y as [[Y _] _]; contradiction| |cbn in L; lia].
    assert (WX : word wx) by (apply ok_one, X). assert (WY : word wy) by (apply ok_one, Y). cbn [val] in *.
    destruct (gcd_words_ok (S n) wx wy) as [m M]; [lia|lia|exact WX|exact WY|].
    exists (S m), [Z.gcd wx wy]. split; [|split; [|reflexivity]].
    + intros fuel. cbn [Nat.add gcd_loop hd]. rewrite C1, M. reflexivity.
    + apply canon_one. unfold word in *. pose proof (Z.gcd_nonneg wx wy). 
      assert (Z.gcd wx wy <= wy) by (apply Z.divide_pos_le; [lia|apply Z.gcd_divide_r]). unfold HB in *. lia.
  - destruct SLOW as (m & z & G & R); [cbn; lia|]. exists (S m), z. split; [|exact R]. intros fuel. cbn [Nat.add gcd_loop]. rewrite C1. exact (G fuel).
Qed.

Lemma abs_len_le x : canon x -> (length (arbi__abs x) <= S (length x))%nat.
Proof.
  intros X. destruct (abs_spec x X) as [A AV]. pose proof (val_range x (proj1 X)) as R. pose proof (len_pos x (proj1 X)).
  destruct (Nat.le_gt_cases (length (arbi__abs x)) (S (length x))) as [L|L]; [exact L|exfalso].
  pose proof (val_trimmed _ (proj1 A) (proj2 A) ltac:(lia)) as T. rewrite AV in T.
  pose proof (Bn_le (S (length x - 1)) (length (arbi__abs x) - 2) ltac:(lia)) as BL. rewrite Bn_S in BL.
  pose proof (Bn_pos (length x - 1)). unfold B, HB in *. lia.
Qed.

Lemma gcd_spec x y : canon x -> canon y -> Z.of_nat (length x) <= 32765 -> Z.of_nat (length y) <= 32765 ->
  exists n z, (forall fuel, arbi__gcd (n + fuel) x y = Some z) /\ canon z /\ val z = Z.gcd (val x) (val y).
Proof.
  intros X Y LX LY. destruct (abs_spec x X) as [AX VX], (abs_spec y Y) as [AY VY].
  pose proof (abs_len_le x X). pose proof (abs_len_le y Y).
  assert (G : forall a b, Z.gcd (Z.abs a) (Z.abs b) = Z.gcd a b) by (intros; rewrite Z.gcd_abs_l, Z.gcd_abs_r; reflexivity).
  unfold arbi__gcd. rewrite (cmp_spec _ _ AX AY), VX, VY. destruct (Z.compare_spec (Z.abs (val x)) (Z.abs (val y))) as [C|C|C].
  - destruct (gcd_loop_ok (S (Z.to_nat (Z.abs (val y)))) (arbi__abs x) (arbi__abs y) AX AY) as (m & z & M & Zc & V); [lia|lia|lia|].
    exists m, z. split; [exact M|]. split; [exact Zc|]. rewrite V, VX, VY. apply G.
  - destruct (gcd_loop_ok (S (Z.to_nat (Z.abs (val x)))) (arbi__abs y) (arbi__abs x) AY AX) as (m & z & M & Zc & V); [lia|lia|lia|].
    exists m, z. split; [exact M|]. split; [exact Zc|]. rewrite V, VX, VY, Z.gcd_comm. apply G.
  - destruct (gcd_loop_ok (S (Z.to_nat (Z.abs (val y)))) (arbi__abs x) (arbi__abs y) AX AY) as (m & z & M & Zc & V); [lia|lia|lia|].
    exists m, z. split; [exact M|]. split; [exact Zc|]. rewrite V, VX, VY. apply G.
Qed.
