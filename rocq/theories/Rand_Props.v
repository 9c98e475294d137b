(* Property theorems: random integers (C66). *)
From Coq Require Import List ZArith Lia.
From Verif Require Import RandModel RandSpec RandThms.
Import ListNotations.
Local Open Scope Z_scope.

(* C66: random2 of up to 61 bits gives a number of that many bits, whatever
   random() answers; with enough answers it gives one for any number of bits. *)
Theorem C66_random2 : forall rs bits, draws rs -> 0 <= bits ->
  (Z.to_nat (bits / 31) < length rs)%nat ->
  exists v rest, random2 rs bits = Some (v, rest) /\ (bits <= 61 -> 0 <= v < 2 ^ bits).
Proof.
  intros rs bits D B L. destruct (answers rs bits B D L) as (v & rest & E).
  exists v, rest. split; [exact E|]. intros H. exact (range rs bits v rest (conj B H) D E).
Qed.
Print Assumptions C66_random2.

(* and each number can come. *)
Theorem C66_random2_onto : forall bits v, 0 <= bits <= 61 -> 0 <= v < 2 ^ bits ->
  exists rs, draws rs /\ random2 rs bits = Some (v, []).
Proof. exact onto. Qed.
Print Assumptions C66_random2_onto.

(* For every larger number of bits the answer can be negative: the chunk
   1 << 31 is the most negative int. *)
Theorem C66_random2_refuted : forall bits, 62 <= bits ->
  exists rs v, draws rs /\ random2 rs bits = Some (v, []) /\ v < 0.
Proof. exact negative. Qed.
Print Assumptions C66_random2_refuted.

(* log2 and ** of integers *)
Theorem C66_log2 : forall n,
  (0 < n -> exists l, log2 n = Some l /\ 0 <= l /\ 2 ^ l <= n < 2 ^ (l + 1)) /\
  (n <= 0 -> log2 n = None).
Proof.
  intros n. split; [|exact (log2_none n)]. intros P. exists (Z.log2 n). split; [exact (log2_spec n P)|].
  split; [apply Z.log2_nonneg|]. rewrite Z.add_1_r. now apply Z.log2_spec.
Qed.
Print Assumptions C66_log2.
Theorem C66_pow : forall base n,
  ipow base n = if n <? 0 then None else Some (base ^ n).
Proof.
  intros base n. destruct (Z.ltb_spec n 0) as [L|L]; [|exact (ipow_spec base n L)].
  unfold ipow. apply Z.ltb_lt in L. rewrite L. reflexivity.
Qed.
Print Assumptions C66_pow.

(* random min max lies between min and max, if the size of the interval is not
   a power of two above 2^61; *)
Theorem C66_random : forall rs min max v rest, min <= max -> draws rs ->
  (power_of_two (max - min + 1) -> max - min + 1 <= 2 ^ 61) ->
  random rs min max = Val v rest -> min <= v <= max.
Proof. exact random_range. Qed.
Print Assumptions C66_random.

(* it fails for the empty intervals and for no others; *)
Theorem C66_random_fails : forall rs min max, random rs min max = Fail <-> max < min.
Proof. exact random_fail. Qed.
Print Assumptions C66_random_fails.

(* each number of the interval can come, for sizes up to 2^47 (10000 times the
   size is then below 2^61); *)
Theorem C66_random_onto : forall min max v, min <= v <= max -> max - min + 1 <= 2 ^ 47 ->
  exists rs, draws rs /\ random rs min max = Val v [].
Proof. exact random_onto. Qed.
Print Assumptions C66_random_onto.

(* for a power of two above 2^61 the answer can lie below the interval. *)
Theorem C66_random_refuted : forall k, 62 <= k -> forall min,
  exists rs v, draws rs /\ random rs min (min + 2 ^ k - 1) = Val v [] /\ v < min.
Proof.
  intros k K min. destruct (negative k K) as (rs & v & D & E & N).
  exists rs, (min + v). split; [exact D|]. split; [|lia].
  assert (P : 2 ^ 62 <= 2 ^ k) by (apply Z.pow_le_mono_r; lia).
  rewrite random_split by lia. cbv zeta.
  replace (min + 2 ^ k - 1 - min + 1) with (2 ^ k) by lia.
  rewrite Z.log2_pow2, Z.eqb_refl, E by lia. reflexivity.
Qed.
Print Assumptions C66_random_refuted.

(* Non-vacuity *)
Example C66_ex :
  draws [5; 2147483647; 77] /\
  random2 [5; 2147483647; 77] 40 = Some (5 * 512 + 511, [77]) /\
  random2 [2147483647; 2147483647] 61 = Some (2 ^ 61 - 1, []) /\
  random2 [5; 7] 62 = Some (7 - 5 * 2 ^ 31, []) /\
  random [5; 2147483647; 77] (-3) 4 = Val 2 [2147483647; 77] /\
  random [65535; 123] 1 6 = Val 4 [] /\
  random [12345678; 2147483647] 0 (2 ^ 40 + 3) = Val 104484306755 [] /\
  ipow (-3) 13 = Some (-1594323) /\ log2 1000 = Some 9.
Proof. split; [repeat constructor; lia|]. repeat split; vm_compute; reflexivity. Qed.
