(* The 64-bit, buffered computation of ShaModel.v is SHA-256. *)
From Coq Require Import ZArith Znumtheory List Bool Lia.
From Verif Require Import ShaModel ShaSpec.
Import ListNotations.
Open Scope Z_scope.

(* --- words ------------------------------------------------------------------------ *)

Definition lo (x : Z) : Z := x mod w32.

Lemma lo_bits : forall x i, 0 <= i -> Z.testbit (lo x) i = (i <? 32) && Z.testbit x i.
Proof.
  intros x i I. unfold lo, w32. destruct (Z.ltb_spec i 32).
  - rewrite Z.mod_pow2_bits_low by lia. reflexivity.
  - rewrite Z.mod_pow2_bits_high by lia. reflexivity.
Qed.

Lemma mask_lo : forall x, Z.land x mask = lo x.
Proof. intros x. change mask with (Z.ones 32). rewrite Z.land_ones by lia. reflexivity. Qed.

Lemma u64_lo : forall x, lo (u64 x) = lo x.
Proof.
  intros x. unfold lo, u64, w32. rewrite <- (Zmod_div_mod (2 ^ 32) (2 ^ 64)); [reflexivity|lia|lia|].
  exists (2 ^ 32). reflexivity.
Qed.

Lemma lo_add : forall x y, lo (u64 (x + y)) = add (lo x) (lo y).
Proof. intros x y. rewrite u64_lo. unfold lo, add. apply Z.add_mod. unfold w32. lia. Qed.

Lemma lo_idem : forall x, lo (lo x) = lo x.
Proof. intros x. unfold lo. apply Z.mod_mod. unfold w32. lia. Qed.

Ltac by_bits := apply Z.bits_inj'; intros i I;
  repeat (rewrite ?Z.lxor_spec, ?Z.land_spec, ?Z.lor_spec, ?lo_bits, ?Z.lnot_spec by lia);
  repeat match goal with |- context [Z.testbit ?x i] => destruct (Z.testbit x i) end;
  try destruct (i <? 32); reflexivity.

Lemma Ch_ok : forall x y z, lo (Ch x y z) = ch (lo x) (lo y) (lo z).
Proof. intros x y z. unfold Ch, ch. by_bits. Qed.

Lemma Maj_ok : forall x y z, lo (Maj x y z) = maj (lo x) (lo y) (lo z).
Proof. intros x y z. unfold Maj, maj. by_bits. Qed.

Lemma lo_range : forall x, 0 <= lo x < w32.
Proof. intros x. apply Z.mod_pos_bound. unfold w32. lia. Qed.

Lemma rot_ok : forall x r l, 0 <= x < w32 -> 0 < r -> 0 < l -> r + l = 32 -> lo (rot x r l) = ROTR r x.
Proof.
  intros x r l X R L E. unfold rot, ROTR. replace (32 - r) with l by lia.
  rewrite <- Z.shiftr_div_pow2, <- Z.shiftl_mul_pow2 by lia. fold (lo (Z.shiftl x l)).
  rewrite <- (u64_lo (Z.shiftl x l)).
  assert (A : lo (Z.shiftr x r) = Z.shiftr x r).
  { unfold lo. apply Z.mod_small. rewrite Z.shiftr_div_pow2 by lia. split.
    - apply Z.div_pos; [lia|]. apply Z.pow_pos_nonneg; lia.
    - apply Z.le_lt_trans with x; [|lia]. apply Z.div_le_upper_bound; [apply Z.pow_pos_nonneg; lia|].
      assert (0 < 2 ^ r) by (apply Z.pow_pos_nonneg; lia). nia. }
  rewrite <- A at 2. by_bits.
Qed.

Lemma shr_ok : forall x n, 0 <= x < w32 -> 0 <= n -> lo (Z.shiftr x n) = SHR n x.
Proof.
  intros x n X N. unfold lo, SHR. rewrite Z.shiftr_div_pow2 by lia. apply Z.mod_small.
  assert (0 < 2 ^ n) by (apply Z.pow_pos_nonneg; lia). split.
  - apply Z.div_pos; lia.
  - apply Z.le_lt_trans with x; [|lia]. apply Z.div_le_upper_bound; [lia|nia].
Qed.

Lemma lo_xor : forall x y, lo (Z.lxor x y) = Z.lxor (lo x) (lo y).
Proof. intros x y. by_bits. Qed.

Lemma Sigma0_ok : forall x, Sigma0 x = S0 (lo x).
Proof.
  intros x. unfold Sigma0, S0. cbv zeta. rewrite !mask_lo, !lo_xor, !rot_ok by (try apply lo_range; lia).
  reflexivity.
Qed.
Lemma Sigma1_ok : forall x, Sigma1 x = S1 (lo x).
Proof.
  intros x. unfold Sigma1, S1. cbv zeta. rewrite !mask_lo, !lo_xor, !rot_ok by (try apply lo_range; lia).
  reflexivity.
Qed.
Lemma Gamma0_ok : forall x, Gamma0 x = s0 (lo x).
Proof.
  intros x. unfold Gamma0, s0. cbv zeta.
  rewrite !mask_lo, !lo_xor, !rot_ok, shr_ok by (try apply lo_range; lia). reflexivity.
Qed.
Lemma Gamma1_ok : forall x, Gamma1 x = s1 (lo x).
Proof.
  intros x. unfold Gamma1, s1. cbv zeta.
  rewrite !mask_lo, !lo_xor, !rot_ok, shr_ok by (try apply lo_range; lia). reflexivity.
Qed.

Lemma Sigma0_lo : forall x, lo (Sigma0 x) = Sigma0 x.
Proof. intros x. unfold Sigma0. cbv zeta. rewrite !mask_lo. apply lo_idem. Qed.
Lemma Sigma1_lo : forall x, lo (Sigma1 x) = Sigma1 x.
Proof. intros x. unfold Sigma1. cbv zeta. rewrite !mask_lo. apply lo_idem. Qed.
Lemma Gamma0_lo : forall x, lo (Gamma0 x) = Gamma0 x.
Proof. intros x. unfold Gamma0. cbv zeta. rewrite !mask_lo. apply lo_idem. Qed.
Lemma Gamma1_lo : forall x, lo (Gamma1 x) = Gamma1 x.
Proof. intros x. unfold Gamma1. cbv zeta. rewrite !mask_lo. apply lo_idem. Qed.

(* --- the compression function -------------------------------------------------------- *)

Definition regs_list (r : regs) : list Z :=
  let '(Regs a b c d e f g h) := r in [a; b; c; d; e; f; g; h].
Definition los (r : regs) : list Z := map lo (regs_list r).

Lemma nth_lo : forall W i, lo (nth i W 0) = nth i (map lo W) 0.
Proof. intros W i. change 0 with (lo 0) at 2. rewrite map_nth. reflexivity. Qed.

Lemma fillW_ok : forall W i, map lo (fillW W i) = next_w (map lo W) i.
Proof.
  intros W i. unfold fillW, next_w. rewrite map_app. cbn [map]. do 2 f_equal.
  rewrite !lo_add, Gamma1_lo, Gamma0_lo, Gamma1_ok, Gamma0_ok, !nth_lo. reflexivity.
Qed.

Lemma fold_fill : forall l W, map lo (fold_left fillW l W) = fold_left next_w l (map lo W).
Proof.
  induction l as [|i l IH]; intros W; [reflexivity|]. cbn [fold_left]. rewrite IH, fillW_ok. reflexivity.
Qed.

Lemma bytes_firstn : forall n m, bytes m -> bytes (firstn n m).
Proof. intros n m H. rewrite <- (firstn_skipn n m) in H. apply Forall_app in H. tauto. Qed.
Lemma bytes_skipn : forall n m, bytes m -> bytes (skipn n m).
Proof. intros n m H. rewrite <- (firstn_skipn n m) in H. apply Forall_app in H. tauto. Qed.
Lemma bytes_app : forall a b, bytes (a ++ b) <-> bytes a /\ bytes b.
Proof. intros a b. apply Forall_app. Qed.

Lemma get_big_ok : forall l r, bytes l -> 0 <= r -> (length l <= 4)%nat ->
  r < 256 ^ Z.of_nat (4 - length l) ->
  fold_left (fun r b => u64 (256 * r + Z.land b 255)) l r = fold_left (fun v b => 256 * v + b) l r
  /\ 0 <= fold_left (fun v b => 256 * v + b) l r < w32.
Proof.
  induction l as [|b l IH]; intros r B R L H.
  - cbn [fold_left]. split; [reflexivity|]. cbn in H. unfold w32. lia.
  - inversion B as [|? ? B1 B2]; subst. cbn [fold_left length] in *.
    assert (E : Z.land b 255 = b).
    { change 255 with (Z.ones 8). rewrite Z.land_ones by lia. apply Z.mod_small. exact B1. }
    rewrite E.
    assert (Q : 256 * r + b < 256 ^ Z.of_nat (4 - length l)).
    { replace (4 - length l)%nat with (S (4 - S (length l))) by lia.
      rewrite Nat2Z.inj_succ, Z.pow_succ_r by lia. lia. }
    assert (Q2 : 256 ^ Z.of_nat (4 - length l) <= w32).
    { change w32 with (256 ^ 4). apply Z.pow_le_mono_r; lia. }
    assert (U : u64 (256 * r + b) = 256 * r + b).
    { unfold u64. apply Z.mod_small. unfold w32 in Q2. lia. }
    rewrite U. apply IH; try assumption; lia.
Qed.

Lemma getW_ok : forall data, bytes data -> map lo (getW data) = map (word_at data) (seq 0 16).
Proof.
  intros data B. unfold getW. rewrite map_map. apply map_ext. intros t. unfold word_at, word, get_bigendian.
  destruct (get_big_ok (firstn 4 (skipn (4 * t) data)) 0) as [E R].
  - apply bytes_firstn, bytes_skipn, B.
  - lia.
  - rewrite firstn_length. lia.
  - apply Z.pow_pos_nonneg; lia.
  - rewrite E. unfold lo. apply Z.mod_small. exact R.
Qed.

Lemma allW_ok : forall data, bytes data -> map lo (allW data) = schedule data.
Proof. intros data B. unfold allW, schedule. rewrite fold_fill, getW_ok by exact B. reflexivity. Qed.

Lemma K_ok : Ktab = Kconst.
Proof. vm_compute. reflexivity. Qed.

Lemma K_lo : map lo Ktab = Ktab.
Proof. vm_compute. reflexivity. Qed.

Lemma rnd_ok : forall W s i, los (rnd W s i) = round (map lo W) (los s) i.
Proof.
  intros W [a b c d e f g h] i. cbn [los rnd regs_list map round]. unfold los. cbn [rnd regs_list map].
  rewrite !lo_add, Sigma1_lo, Sigma0_lo, Sigma1_ok, Sigma0_ok, Ch_ok, Maj_ok, !nth_lo, K_lo, K_ok. reflexivity.
Qed.

Lemma fold_rnd : forall W l s, los (fold_left (rnd W) l s) = fold_left (round (map lo W)) l (los s).
Proof.
  intros W. induction l as [|i l IH]; intros s; [reflexivity|]. cbn [fold_left]. rewrite IH, rnd_ok. reflexivity.
Qed.

Lemma feedback_ok : forall h s, los (feedback h s) = map (fun p => add (fst p) (snd p)) (combine (los h) (los s)).
Proof.
  intros [a b c d e f g h] [a' b' c' d' e' f' g' h']. unfold los. cbn [feedback regs_list map combine fst snd].
  rewrite !lo_add. reflexivity.
Qed.

Lemma compress_ok : forall h data, bytes data -> los (compress h data) = hash_block (los h) data.
Proof.
  intros h data B. unfold compress, hash_block. rewrite feedback_ok, fold_rnd, allW_ok by exact B. reflexivity.
Qed.

(* --- buffering ------------------------------------------------------------------------------ *)

(* The context stands for the message m. *)
Definition stands (c : ctx) (m : list Z) : Prop :=
  exists bs tl, m = concat bs ++ tl /\ Forall (fun b => length b = 64%nat) bs
    /\ length tl = c_num c /\ (c_num c < 64)%nat /\ length (c_data c) = 64%nat
    /\ firstn (c_num c) (c_data c) = tl /\ los (c_h c) = fold_left hash_block bs Hconst.

Lemma put_at_length : forall data pos l, (pos + length l <= length data)%nat ->
  length (put_at data pos l) = length data.
Proof.
  intros data pos l H. unfold put_at. rewrite !app_length, firstn_length, skipn_length. lia.
Qed.

Lemma put_at_firstn : forall data pos l, (pos + length l <= length data)%nat ->
  firstn (pos + length l) (put_at data pos l) = firstn pos data ++ l.
Proof.
  intros data pos l H. unfold put_at. rewrite app_assoc.
  assert (L : length (firstn pos data ++ l) = (pos + length l)%nat) by (rewrite app_length, firstn_length; lia).
  rewrite <- L at 1. rewrite firstn_app, Nat.sub_diag, firstn_all, firstn_O, app_nil_r. reflexivity.
Qed.

Lemma stands_bytes : forall c m, stands c m -> bytes m -> bytes (firstn (c_num c) (c_data c)).
Proof.
  intros c m [bs [tl [-> [_ [_ [_ [_ [<- _]]]]]]]] B. apply bytes_app in B. tauto.
Qed.

Lemma feed_ok : forall fuel c m src, stands c m -> bytes m -> bytes src -> (length src <= fuel)%nat ->
  stands (feed fuel c src) (m ++ src).
Proof.
  induction fuel as [|k IH]; intros c m src R BM BS L.
  - destruct src; [|cbn in L; lia]. rewrite app_nil_r. exact R.
  - destruct src as [|b0 src0] eqn:ES; [rewrite app_nil_r; exact R|].
    rewrite <- ES in *. assert (NE : (0 < length src)%nat) by (subst; cbn; lia).
    replace (feed (S k) c src) with
      (let step := Nat.min (64 - c_num c) (length src) in
       let data := put_at (c_data c) (c_num c) (firstn step src) in
       if (step + c_num c <? 64)%nat
       then Ctx (c_h c) (c_Nl c) (c_Nh c) (c_num c + step) data
       else feed k (Ctx (compress (c_h c) data) (c_Nl c) (c_Nh c) 0 data) (skipn step src))
      by (subst src; reflexivity).
    clear ES b0 src0. cbv zeta.
    assert (BH := stands_bytes c m R BM).
    destruct R as [bs [tl [EM [FB [LT [NL [LD [FD HH]]]]]]]].
    set (step := Nat.min (64 - c_num c) (length src)).
    assert (LS : length (firstn step src) = step) by (rewrite firstn_length; unfold step; lia).
    assert (PL : length (put_at (c_data c) (c_num c) (firstn step src)) = 64%nat).
    { rewrite put_at_length; [exact LD|]. rewrite LS, LD. unfold step. lia. }
    assert (PF := put_at_firstn (c_data c) (c_num c) (firstn step src)).
    rewrite LS in PF. specialize (PF ltac:(rewrite LD; unfold step; lia)).
    destruct (Nat.ltb_spec (step + c_num c) 64).
    + assert (ST : step = length src) by (unfold step in *; lia).
      assert (FA : firstn step src = src) by (rewrite ST; apply firstn_all).
      rewrite FA in PL, PF |- *.
      exists bs, (tl ++ src). cbn [c_num c_data c_h]. split; [|split; [|split; [|split; [|split; [|split]]]]].
      * subst m. rewrite <- app_assoc. reflexivity.
      * exact FB.
      * rewrite app_length. lia.
      * lia.
      * exact PL.
      * rewrite PF, FD. reflexivity.
      * exact HH.
    + assert (ST : (step = 64 - c_num c)%nat) by (unfold step in *; lia).
      replace (m ++ src) with ((m ++ firstn step src) ++ skipn step src)
        by (rewrite <- app_assoc, firstn_skipn; reflexivity).
      set (data := put_at (c_data c) (c_num c) (firstn step src)) in *.
      assert (ED : data = tl ++ firstn step src).
      { rewrite <- FD, <- PF. replace (c_num c + step)%nat with (length data) by (rewrite PL; lia).
        symmetry. apply firstn_all. }
      apply IH.
      * exists (bs ++ [data]), []. cbn [c_num c_data c_h]. split; [|split; [|split; [|split; [|split; [|split]]]]].
        -- rewrite concat_app. cbn [concat]. rewrite !app_nil_r, ED, EM, app_assoc. reflexivity.
        -- apply Forall_app. split; [exact FB|]. constructor; [exact PL|constructor].
        -- reflexivity.
        -- lia.
        -- exact PL.
        -- reflexivity.
        -- rewrite fold_left_app. cbn [fold_left]. rewrite compress_ok, HH; [reflexivity|].
           rewrite ED. apply bytes_app. split; [rewrite <- FD; exact BH|]. apply bytes_firstn, BS.
      * apply bytes_app. split; [exact BM|]. apply bytes_firstn, BS.
      * apply bytes_skipn, BS.
      * rewrite skipn_length. lia.
Qed.

Lemma count_stands : forall c k m, stands c m -> stands (count_bits c k) m.
Proof. intros c k m R. exact R. Qed.

Lemma update_stands : forall c m src, stands c m -> bytes m -> bytes src ->
  stands (sha_update c src) (m ++ src).
Proof.
  intros c m src R BM BS. unfold sha_update. apply feed_ok; [apply count_stands; exact R|exact BM|exact BS|lia].
Qed.

Lemma stands_num : forall c m, stands c m -> c_num c = (length m mod 64)%nat.
Proof.
  intros c m [bs [tl [-> [FB [LT [NL _]]]]]]. rewrite app_length, LT.
  assert (E : length (concat bs) = (length bs * 64)%nat).
  { clear - FB. induction FB as [|b bs E _ IH]; [reflexivity|]. cbn. rewrite app_length, IH, E. lia. }
  rewrite E, Nat.add_comm, Nat.mod_add by lia. symmetry. apply Nat.mod_small. exact NL.
Qed.

(* --- counting -------------------------------------------------------------------------------- *)

Definition counts (c : ctx) (n : Z) : Prop :=
  c_Nl c = (8 * n) mod 2 ^ 32 /\ c_Nh c mod 2 ^ 32 = (8 * n) / 2 ^ 32 mod 2 ^ 32.

Lemma feed_counts : forall fuel c src, c_Nl (feed fuel c src) = c_Nl c /\ c_Nh (feed fuel c src) = c_Nh c.
Proof.
  induction fuel as [|k IH]; intros c [|b src]; try (split; reflexivity).
  cbn [feed]. match goal with |- context [if ?t then _ else _] => destruct t end; [split; reflexivity|].
  match goal with |- context [feed k ?c' ?s] => destruct (IH c' s) as [A B] end. rewrite A, B. split; reflexivity.
Qed.

Lemma count_ok : forall c n k, counts c n -> 0 <= n -> 0 <= k < 2 ^ 29 -> counts (count_bits c k) (n + k).
Proof.
  intros c n k [C1 C2] N K. unfold counts, count_bits. cbn [c_Nl c_Nh].
  change mask with (Z.ones 32). rewrite Z.land_ones by lia. unfold u32. rewrite Z.mod_mod by lia.
  assert (E1 : Z.shiftl k 3 mod 2 ^ 32 = 8 * k).
  { rewrite Z.shiftl_mul_pow2 by lia. rewrite Z.mod_small; lia. }
  rewrite E1. set (a := 8 * n) in *. replace (8 * (n + k)) with (a + 8 * k) by (unfold a; ring).
  set (b := 8 * k) in *. assert (HB : 0 <= b < 2 ^ 32) by (unfold b; lia).
  assert (HA := Z.mod_pos_bound a (2 ^ 32) ltac:(lia)).
  assert (EU : u64 (c_Nl c + b) mod 2 ^ 32 = (a + b) mod 2 ^ 32).
  { unfold u64. rewrite <- (Zmod_div_mod (2 ^ 32) (2 ^ 64)); [|lia|lia|exists (2 ^ 32); reflexivity].
    rewrite C1. rewrite Z.add_mod_idemp_l by lia. reflexivity. }
  rewrite EU. split; [reflexivity|]. rewrite C1.
  assert (DA := Z.div_mod a (2 ^ 32) ltac:(lia)).
  assert (DAB := Z.div_mod (a + b) (2 ^ 32) ltac:(lia)).
  assert (HAB := Z.mod_pos_bound (a + b) (2 ^ 32) ltac:(lia)).
  destruct (Z.ltb_spec ((a + b) mod 2 ^ 32) (a mod 2 ^ 32)).
  - assert (Q : (a + b) / 2 ^ 32 = a / 2 ^ 32 + 1) by nia. rewrite Q.
    unfold u64. rewrite <- (Zmod_div_mod (2 ^ 32) (2 ^ 64)); [|lia|lia|exists (2 ^ 32); reflexivity].
    rewrite <- Z.add_mod_idemp_l, C2, Z.add_mod_idemp_l by lia. reflexivity.
  - assert (Q : (a + b) / 2 ^ 32 = a / 2 ^ 32) by nia. rewrite Q. exact C2.
Qed.

Lemma update_counts : forall c n src, counts c n -> 0 <= n -> Z.of_nat (length src) < 2 ^ 29 ->
  counts (sha_update c src) (n + Z.of_nat (length src)).
Proof.
  intros c n src C N L. unfold sha_update, counts.
  destruct (feed_counts (length src) (count_bits c (u32 (Z.of_nat (length src)))) src) as [A B].
  rewrite A, B. unfold u32. rewrite Z.mod_small by lia. apply count_ok; [exact C|exact N|lia].
Qed.

(* --- the final step ------------------------------------------------------------------------------ *)

Lemma put_be_acc : forall n v acc, put_be n v acc = put_be n v [] ++ acc.
Proof.
  induction n as [|n IH]; intros v acc; [reflexivity|]. cbn [put_be]. rewrite IH, (IH _ [_]), <- app_assoc. reflexivity.
Qed.

Lemma be_bytes_S : forall n v, be_bytes (S n) v = be_bytes n (v / 256) ++ [v mod 256].
Proof.
  intros n v. unfold be_bytes. rewrite seq_S, map_app. cbn [map plus]. f_equal.
  - apply map_ext_in. intros i I. apply in_seq in I.
    replace (S n - 1 - i)%nat with (S (n - 1 - i)) by lia. rewrite Nat2Z.inj_succ, Z.pow_succ_r by lia.
    rewrite Z.div_div by (try lia; apply Z.pow_pos_nonneg; lia). reflexivity.
  - replace (S n - 1 - n)%nat with 0%nat by lia. rewrite Z.div_1_r. reflexivity.
Qed.

Lemma put_big_ok : forall n v, put_bigendian v n = be_bytes n v.
Proof.
  unfold put_bigendian. induction n as [|n IH]; intros v; [reflexivity|].
  cbn [put_be]. rewrite put_be_acc, IH, be_bytes_S. f_equal.
  - f_equal. rewrite Z.shiftr_div_pow2 by lia. reflexivity.
  - f_equal. change 255 with (Z.ones 8). rewrite Z.land_ones by lia. reflexivity.
Qed.

Lemma be_bytes_mod : forall n v, be_bytes n (v mod 256 ^ Z.of_nat n) = be_bytes n v.
Proof.
  induction n as [|n IH]; intros v; [reflexivity|]. rewrite !be_bytes_S, Nat2Z.inj_succ, Z.pow_succ_r by lia.
  assert (0 < 256 ^ Z.of_nat n) by (apply Z.pow_pos_nonneg; lia). f_equal.
  - rewrite <- (IH (v / 256)). f_equal. rewrite Z.rem_mul_r by lia.
    rewrite Z.add_comm, (Z.mul_comm 256), Z.div_add_l by lia.
    rewrite (Z.div_small (v mod 256)) by (apply Z.mod_pos_bound; lia). lia.
  - f_equal. rewrite Z.rem_mul_r by lia. rewrite (Z.mul_comm 256), Z.mod_add, Z.mod_mod by lia. reflexivity.
Qed.

Lemma be_bytes_lo : forall v, be_bytes 4 (lo v) = be_bytes 4 v.
Proof. intros v. exact (be_bytes_mod 4 v). Qed.

Lemma be_bytes_length : forall n v, length (be_bytes n v) = n.
Proof. intros n v. unfold be_bytes. rewrite map_length, seq_length. reflexivity. Qed.

Lemma be_bytes_bytes : forall n v, bytes (be_bytes n v).
Proof.
  intros n v. apply Forall_forall. intros b H. unfold be_bytes in H. apply in_map_iff in H as [i [<- _]].
  apply Z.mod_pos_bound. lia.
Qed.

Lemma be_bytes_8 : forall v, be_bytes 8 v = be_bytes 4 (v / 2 ^ 32) ++ be_bytes 4 v.
Proof.
  intros v. rewrite (be_bytes_S 7), (be_bytes_S 6), (be_bytes_S 5), (be_bytes_S 4 (v / 256 / 256 / 256)).
  rewrite (be_bytes_S 3 v), (be_bytes_S 2), (be_bytes_S 1), (be_bytes_S 0), <- !app_assoc.
  f_equal. f_equal. rewrite !Z.div_div by lia. reflexivity.
Qed.

Lemma finalcount_ok : forall c n, counts c n ->
  put_bigendian (c_Nh c) 4 ++ put_bigendian (c_Nl c) 4 = be_bytes 8 (8 * n).
Proof.
  intros c n [C1 C2]. rewrite !put_big_ok, be_bytes_8. f_equal.
  - rewrite <- (be_bytes_lo (c_Nh c)), <- (be_bytes_lo (8 * n / 2 ^ 32)). unfold lo, w32. rewrite C2. reflexivity.
  - rewrite C1. exact (be_bytes_lo (8 * n)).
Qed.

Lemma zeros_stands : forall c m, stands c m -> (c_num c <= 56)%nat ->
  stands (set_num c 56 (put_at (c_data c) (c_num c) (repeat 0 (56 - c_num c)))) (m ++ repeat 0 (56 - c_num c)).
Proof.
  intros c m [bs [tl [EM [FB [LT [NL [LD [FD HH]]]]]]]] N.
  set (z := repeat 0 (56 - c_num c)). assert (LZ : length z = (56 - c_num c)%nat) by apply repeat_length.
  exists bs, (tl ++ z). cbn [set_num c_num c_data c_h]. split; [|split; [|split; [|split; [|split; [|split]]]]].
  - rewrite EM, app_assoc. reflexivity.
  - exact FB.
  - rewrite app_length. lia.
  - lia.
  - rewrite put_at_length; [exact LD|]. lia.
  - replace 56%nat with (c_num c + length z)%nat by lia. rewrite put_at_firstn by lia. rewrite FD. reflexivity.
  - exact HH.
Qed.

Lemma chunks_concat : forall bs fuel, Forall (fun b => length b = 64%nat) bs ->
  (length (concat bs) <= fuel)%nat -> chunks fuel (concat bs) = bs.
Proof.
  induction bs as [|b bs IH]; intros fuel F L; [destruct fuel; reflexivity|].
  inversion F as [|? ? F1 F2]; subst. cbn [concat] in *. rewrite app_length in L.
  destruct fuel as [|k]; [lia|]. destruct b as [|x b]; [discriminate|]. cbn [app chunks].
  change (x :: b ++ concat bs) with ((x :: b) ++ concat bs).
  rewrite firstn_app, skipn_app, F1, Nat.sub_diag. rewrite firstn_O, app_nil_r.
  rewrite <- F1, firstn_all, skipn_all. cbn [app skipn]. rewrite IH; [reflexivity|exact F2|lia].
Qed.

Lemma stands_full : forall c m, stands c m -> c_num c = 0%nat ->
  los (c_h c) = fold_left hash_block (chunks (length m) m) Hconst.
Proof.
  intros c m [bs [tl [EM [FB [LT [NL [LD [FD HH]]]]]]]] N. rewrite N in LT. destruct tl; [|discriminate].
  rewrite app_nil_r in EM. subst m. rewrite chunks_concat by (try exact FB; lia). exact HH.
Qed.

Lemma bytes_zeros : forall n, bytes (repeat 0 n).
Proof. induction n; constructor; [lia|assumption]. Qed.

Theorem final_ok : forall c m, stands c m -> bytes m -> counts c (Z.of_nat (length m)) ->
  sha_final c = sha256 m.
Proof.
  intros c m R B C. unfold sha_final. rewrite (finalcount_ok c _ C).
  set (fc := be_bytes 8 (8 * Z.of_nat (length m))).
  assert (BF : bytes fc) by apply be_bytes_bytes. assert (LF : length fc = 8%nat) by apply be_bytes_length.
  assert (B80 : bytes [128]) by (constructor; [lia|constructor]).
  assert (R1 := update_stands c m [128] R B B80). assert (BM1 : bytes (m ++ [128])) by (apply bytes_app; split; assumption).
  set (c1 := sha_update c [128]) in *.
  assert (N1 := stands_num c1 _ R1). rewrite app_length in N1. cbn [length] in N1.
  assert (PAD : exists c3 z, (if (56 <? c_num c1)%nat then sha_update c1 (repeat 0 8) else c1) = c3
    /\ stands c3 (m ++ [128] ++ repeat 0 z) /\ (c_num c3 <= 56)%nat
    /\ (z + (56 - c_num c3))%nat = Z.to_nat ((55 - Z.of_nat (length m)) mod 64)).
  { assert (M : ((length m + 1) mod 64 = c_num c1)%nat) by (symmetry; exact N1).
    assert (ML : (c_num c1 < 64)%nat) by (rewrite N1; apply Nat.mod_upper_bound; lia).
    assert (DM := Nat.div_mod (length m + 1) 64 ltac:(lia)). rewrite M in DM.
    set (q := ((length m + 1) / 64)%nat) in *.
    assert (EZ : (55 - Z.of_nat (length m)) mod 64 = if (56 <? c_num c1)%nat then 120 - Z.of_nat (c_num c1) else 56 - Z.of_nat (c_num c1)).
    { replace (Z.of_nat (length m)) with (64 * Z.of_nat q + Z.of_nat (c_num c1) - 1) by lia.
      destruct (Nat.ltb_spec 56 (c_num c1)).
      - replace (55 - (64 * Z.of_nat q + Z.of_nat (c_num c1) - 1)) with (120 - Z.of_nat (c_num c1) + (- Z.of_nat q - 1) * 64) by ring.
        rewrite Z.mod_add by lia. apply Z.mod_small. lia.
      - replace (55 - (64 * Z.of_nat q + Z.of_nat (c_num c1) - 1)) with (56 - Z.of_nat (c_num c1) + (- Z.of_nat q) * 64) by ring.
        rewrite Z.mod_add by lia. apply Z.mod_small. lia. }
    rewrite EZ. destruct (Nat.ltb_spec 56 (c_num c1)) as [G|G].
    - assert (R2 := update_stands c1 _ (repeat 0 8) R1 BM1 (bytes_zeros 8)).
      assert (N2 := stands_num _ _ R2). rewrite !app_length, repeat_length in N2. change (length [128]) with 1%nat in N2.
      replace (length m + 1 + 8)%nat with (c_num c1 + 8 - 64 + (q + 1) * 64)%nat in N2 by lia.
      rewrite Nat.mod_add in N2 by lia. rewrite Nat.mod_small in N2 by lia.
      eexists _, 8%nat. split; [reflexivity|]. split; [|split].
      + rewrite app_assoc. exact R2.
      + rewrite N2. lia.
      + rewrite N2. lia.
    - exists c1, 0%nat. split; [reflexivity|]. cbn [repeat]. rewrite app_nil_r.
      split; [exact R1|]. split; [exact G|]. lia. }
  destruct PAD as [c3 [z [-> [R3 [N3 Z3]]]]].
  assert (R4 := zeros_stands c3 _ R3 N3).
  set (c4 := set_num c3 56 _) in *.
  assert (B4 : bytes ((m ++ [128] ++ repeat 0 z) ++ repeat 0 (56 - c_num c3))).
  { rewrite !bytes_app. repeat split; try assumption; apply bytes_zeros. }
  assert (R5 := update_stands c4 _ fc R4 B4 BF).
  assert (N5 := stands_num _ _ R5). rewrite app_length in N5.
  assert (N4 := stands_num _ _ R4). change (c_num c4) with 56%nat in N4.
  rewrite LF, Nat.add_mod, <- N4 in N5 by lia. cbn in N5.
  assert (E : (((m ++ [128] ++ repeat 0 z) ++ repeat 0 (56 - c_num c3)) ++ fc) = pad m).
  { unfold pad. cbv zeta. fold fc. rewrite <- Z3, repeat_app, <- !app_assoc. cbn [app]. reflexivity. }
  rewrite E in R5. assert (H5 := stands_full _ _ R5 N5).
  unfold sha256. cbv zeta. rewrite <- H5.
  destruct (c_h (sha_update c4 fc)) as [h0 h1 h2 h3 h4 h5 h6 h7]. unfold los. cbn [regs_list map flat_map].
  rewrite !be_bytes_lo, !put_big_ok. reflexivity.
Qed.

(* --- all of it ----------------------------------------------------------------------------------- *)

Lemma init_stands : forall g, length g = 64%nat -> stands (sha_init g) [].
Proof.
  intros g G. exists [], []. cbn [c_num c_data c_h sha_init]. repeat split; try lia; try constructor.
Qed.

Lemma fold_update : forall ms c m, stands c m -> bytes m -> counts c (Z.of_nat (length m)) ->
  Forall bytes ms -> Forall (fun s => Z.of_nat (length s) < 2 ^ 29) ms ->
  let c' := fold_left sha_update ms c in
  stands c' (m ++ concat ms) /\ counts c' (Z.of_nat (length (m ++ concat ms))) /\ bytes (m ++ concat ms).
Proof.
  induction ms as [|s ms IH]; intros c m R B C F L.
  - cbn. rewrite app_nil_r. auto.
  - inversion F as [|? ? F1 F2]; subst. inversion L as [|? ? L1 L2]; subst. cbn [fold_left concat].
    rewrite app_assoc. apply IH; try assumption.
    + apply update_stands; assumption.
    + apply bytes_app. split; assumption.
    + rewrite app_length, Nat2Z.inj_add. apply update_counts; [exact C|lia|exact L1].
Qed.

Theorem sha_chunks_ok : forall g ms, length g = 64%nat -> Forall bytes ms ->
  Forall (fun s => Z.of_nat (length s) < 2 ^ 29) ms ->
  sha_final (fold_left sha_update ms (sha_init g)) = sha256 (concat ms).
Proof.
  intros g ms G F L.
  destruct (fold_update ms (sha_init g) []) as [R [C B]]; try assumption.
  - apply init_stands. exact G.
  - constructor.
  - split; reflexivity.
  - cbn [app] in *. apply final_ok; assumption.
Qed.
