(* SHA-256 after FIPS 180-4, on bytes: 32-bit words, no context, no buffers. *)
From Coq Require Import ZArith List.
Import ListNotations.
Open Scope Z_scope.

Definition w32 := 2 ^ 32.
Definition add (x y : Z) : Z := (x + y) mod w32.
Definition SHR (n x : Z) : Z := x / 2 ^ n.
Definition ROTR (n x : Z) : Z := Z.lor (x / 2 ^ n) ((x * 2 ^ (32 - n)) mod w32).
(* 4.1.2 *)
Definition ch (x y z : Z) : Z := Z.lxor (Z.land x y) (Z.land (Z.lnot x) z).
Definition maj (x y z : Z) : Z := Z.lxor (Z.lxor (Z.land x y) (Z.land x z)) (Z.land y z).
Definition S0 (x : Z) : Z := Z.lxor (Z.lxor (ROTR 2 x) (ROTR 13 x)) (ROTR 22 x).
Definition S1 (x : Z) : Z := Z.lxor (Z.lxor (ROTR 6 x) (ROTR 11 x)) (ROTR 25 x).
Definition s0 (x : Z) : Z := Z.lxor (Z.lxor (ROTR 7 x) (ROTR 18 x)) (SHR 3 x).
Definition s1 (x : Z) : Z := Z.lxor (Z.lxor (ROTR 17 x) (ROTR 19 x)) (SHR 10 x).

(* 4.2.2 and 5.3.3: the first 32 bits of the fractional parts of the cube and square roots of
   the first primes. *)
Definition primes : list Z :=
  [2; 3; 5; 7; 11; 13; 17; 19; 23; 29; 31; 37; 41; 43; 47; 53; 59; 61; 67; 71; 73; 79; 83; 89; 97;
   101; 103; 107; 109; 113; 127; 131; 137; 139; 149; 151; 157; 163; 167; 173; 179; 181; 191; 193;
   197; 199; 211; 223; 227; 229; 233; 239; 241; 251; 257; 263; 269; 271; 277; 281; 283; 293; 307;
   311].
Fixpoint cbrt_bits (n : nat) (x r : Z) : Z :=
  match n with
  | O => r
  | S k => let r' := r + 2 ^ Z.of_nat k in cbrt_bits k x (if r' ^ 3 <=? x then r' else r)
  end.
Definition cbrt (x : Z) : Z := cbrt_bits 36 x 0.
Definition Kconst : list Z := map (fun p => cbrt (p * 2 ^ 96) mod w32) primes.
Definition Hconst : list Z := map (fun p => Z.sqrt (p * 2 ^ 64) mod w32) (firstn 8 primes).

(* 5.1.1: a 1 bit, zeros, and the length in bits in 64 bits. *)
Definition be_bytes (n : nat) (v : Z) : list Z :=
  map (fun i => v / 256 ^ Z.of_nat (n - 1 - i) mod 256) (seq 0 n).
Definition pad (m : list Z) : list Z :=
  let n := Z.of_nat (length m) in
  m ++ [128] ++ repeat 0 (Z.to_nat ((55 - n) mod 64)) ++ be_bytes 8 (8 * n).

(* 5.2.1 *)
Definition word (l : list Z) : Z := fold_left (fun v b => 256 * v + b) l 0.
Definition word_at (block : list Z) (t : nat) : Z := word (firstn 4 (skipn (4 * t) block)).
Fixpoint chunks (fuel : nat) (m : list Z) : list (list Z) :=
  match fuel, m with
  | S k, _ :: _ => firstn 64 m :: chunks k (skipn 64 m)
  | _, _ => []
  end.

(* 6.2.2 *)
Definition next_w (W : list Z) (t : nat) : list Z :=
  W ++ [add (add (add (s1 (nth (t - 2) W 0)) (nth (t - 7) W 0)) (s0 (nth (t - 15) W 0))) (nth (t - 16) W 0)].
Definition schedule (block : list Z) : list Z :=
  fold_left next_w (seq 16 48) (map (word_at block) (seq 0 16)).
Definition round (W : list Z) (s : list Z) (t : nat) : list Z :=
  match s with
  | [a; b; c; d; e; f; g; h] =>
      let T1 := add (add (add (add h (S1 e)) (ch e f g)) (nth t Kconst 0)) (nth t W 0) in
      let T2 := add (S0 a) (maj a b c) in
      [add T1 T2; a; b; c; add d T1; e; f; g]
  | _ => []
  end.
Definition hash_block (H : list Z) (block : list Z) : list Z :=
  map (fun p => add (fst p) (snd p))
      (combine H (fold_left (round (schedule block)) (seq 0 64) H)).
Definition sha256 (m : list Z) : list Z :=
  let p := pad m in
  flat_map (be_bytes 4) (fold_left hash_block (chunks (length p) p) Hconst).

Definition bytes (m : list Z) : Prop := Forall (fun b => 0 <= b < 256) m.
