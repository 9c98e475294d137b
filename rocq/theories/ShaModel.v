(* SHA-256 as in src/bin/fl/sha256.c: unsigned long has 64 bits, unsigned int 32 bits, an
   unsigned char is a Z from 0 to 255. *)
From Coq Require Import ZArith List Bool Ascii.
Import ListNotations.
Open Scope Z_scope.

Definition u64 (x : Z) : Z := x mod 2 ^ 64.
Definition u32 (x : Z) : Z := x mod 2 ^ 32.

(* sha256.c 38-56 *)
Definition Ktab : list Z := [
  0x428a2f98; 0x71374491; 0xb5c0fbcf; 0xe9b5dba5; 0x3956c25b;
  0x59f111f1; 0x923f82a4; 0xab1c5ed5; 0xd807aa98; 0x12835b01;
  0x243185be; 0x550c7dc3; 0x72be5d74; 0x80deb1fe; 0x9bdc06a7;
  0xc19bf174; 0xe49b69c1; 0xefbe4786; 0x0fc19dc6; 0x240ca1cc;
  0x2de92c6f; 0x4a7484aa; 0x5cb0a9dc; 0x76f988da; 0x983e5152;
  0xa831c66d; 0xb00327c8; 0xbf597fc7; 0xc6e00bf3; 0xd5a79147;
  0x06ca6351; 0x14292967; 0x27b70a85; 0x2e1b2138; 0x4d2c6dfc;
  0x53380d13; 0x650a7354; 0x766a0abb; 0x81c2c92e; 0x92722c85;
  0xa2bfe8a1; 0xa81a664b; 0xc24b8b70; 0xc76c51a3; 0xd192e819;
  0xd6990624; 0xf40e3585; 0x106aa070; 0x19a4c116; 0x1e376c08;
  0x2748774c; 0x34b0bcb5; 0x391c0cb3; 0x4ed8aa4a; 0x5b9cca4f;
  0x682e6ff3; 0x748f82ee; 0x78a5636f; 0x84c87814; 0x8cc70208;
  0x90befffa; 0xa4506ceb; 0xbef9a3f7; 0xc67178f2 ].

(* put_bigendian (62-71) *)
Fixpoint put_be (n : nat) (v : Z) (acc : list Z) : list Z :=
  match n with
  | O => acc
  | S k => put_be k (Z.shiftr v 8) (Z.land v 255 :: acc)
  end.
Definition put_bigendian (v : Z) (n : nat) : list Z := put_be n v [].

(* get_bigendian (73-83) *)
Definition get_bigendian (l : list Z) : Z :=
  fold_left (fun r b => u64 (256 * r + Z.land b 255)) l 0.

(* 87-88 *)
Definition Ch (x y z : Z) : Z := Z.lxor z (Z.land x (Z.lxor y z)).
Definition Maj (x y z : Z) : Z := Z.lor (Z.land (Z.lor x y) z) (Z.land x y).

(* Sigma0, Sigma1, Gamma0, Gamma1 (90-124) *)
Definition mask := 0xFFFFFFFF.
Definition rot (mx : Z) (r l : Z) : Z := Z.lor (Z.shiftr mx r) (u64 (Z.shiftl mx l)).
Definition Sigma0 (x : Z) : Z :=
  let mx := Z.land x mask in
  Z.land (Z.lxor (Z.lxor (rot mx 2 30) (rot mx 13 19)) (rot mx 22 10)) mask.
Definition Sigma1 (x : Z) : Z :=
  let mx := Z.land x mask in
  Z.land (Z.lxor (Z.lxor (rot mx 6 26) (rot mx 11 21)) (rot mx 25 7)) mask.
Definition Gamma0 (x : Z) : Z :=
  let mx := Z.land x mask in
  Z.land (Z.lxor (Z.lxor (rot mx 7 25) (rot mx 18 14)) (Z.shiftr mx 3)) mask.
Definition Gamma1 (x : Z) : Z :=
  let mx := Z.land x mask in
  Z.land (Z.lxor (Z.lxor (rot mx 17 15) (rot mx 19 13)) (Z.shiftr mx 10)) mask.

(* sha256_compress (126-189) *)
Definition getW (data : list Z) : list Z :=
  map (fun i => get_bigendian (firstn 4 (skipn (4 * i) data))) (seq 0 16).
Definition fillW (W : list Z) (i : nat) : list Z :=
  W ++ [u64 (u64 (u64 (Gamma1 (nth (i - 2) W 0) + nth (i - 7) W 0)
                  + Gamma0 (nth (i - 15) W 0)) + nth (i - 16) W 0)].
Definition allW (data : list Z) : list Z := fold_left fillW (seq 16 48) (getW data).

Inductive regs := Regs (a b c d e f g h : Z).
Definition rnd (W : list Z) (s : regs) (i : nat) : regs :=
  let '(Regs s0 s1 s2 s3 s4 s5 s6 s7) := s in
  let t0 := u64 (u64 (u64 (u64 (s7 + Sigma1 s4) + Ch s4 s5 s6) + nth i Ktab 0) + nth i W 0) in
  let t1 := u64 (Sigma0 s0 + Maj s0 s1 s2) in
  let s3' := u64 (s3 + t0) in
  let s7' := u64 (t0 + t1) in
  Regs s7' s0 s1 s2 s3' s4 s5 s6.
Definition feedback (h s : regs) : regs :=
  let '(Regs h0 h1 h2 h3 h4 h5 h6 h7) := h in
  let '(Regs s0 s1 s2 s3 s4 s5 s6 s7) := s in
  Regs (u64 (h0 + s0)) (u64 (h1 + s1)) (u64 (h2 + s2)) (u64 (h3 + s3))
       (u64 (h4 + s4)) (u64 (h5 + s5)) (u64 (h6 + s6)) (u64 (h7 + s7)).
Definition compress (h : regs) (data : list Z) : regs :=
  feedback h (fold_left (rnd (allW data)) (seq 0 64) h).

(* SHA256_rec and SHA256_init (191-206); data is not initialised, here any 64 bytes. *)
Record ctx := Ctx { c_h : regs; c_Nl : Z; c_Nh : Z; c_num : nat; c_data : list Z }.
Definition sha_init (garbage : list Z) : ctx :=
  Ctx (Regs 0x6A09E667 0xBB67AE85 0x3C6EF372 0xA54FF53A 0x510E527F 0x9B05688C 0x1F83D9AB 0x5BE0CD19)
      0 0 0 garbage.

(* SHA256_update (208-233).  count is an unsigned int. *)
Definition put_at (data : list Z) (pos : nat) (l : list Z) : list Z :=
  firstn pos data ++ l ++ skipn (pos + length l) data.
Definition count_bits (c : ctx) (count : Z) : ctx :=
  let new_count := u32 (Z.land (u64 (c_Nl c + u32 (Z.shiftl count 3))) mask) in
  Ctx (c_h c) new_count (if new_count <? c_Nl c then u64 (c_Nh c + 1) else c_Nh c) (c_num c) (c_data c).
Fixpoint feed (fuel : nat) (c : ctx) (src : list Z) : ctx :=
  match fuel, src with
  | S k, _ :: _ =>
      let step := Nat.min (64 - c_num c) (length src) in
      let data := put_at (c_data c) (c_num c) (firstn step src) in
      if (step + c_num c <? 64)%nat
      then Ctx (c_h c) (c_Nl c) (c_Nh c) (c_num c + step) data
      else feed k (Ctx (compress (c_h c) data) (c_Nl c) (c_Nh c) 0 data) (skipn step src)
  | _, _ => c
  end.
Definition sha_update (c : ctx) (src : list Z) : ctx :=
  feed (length src) (count_bits c (u32 (Z.of_nat (length src)))) src.

(* SHA256_final (238-266) *)
Definition set_num (c : ctx) (n : nat) (data : list Z) : ctx := Ctx (c_h c) (c_Nl c) (c_Nh c) n data.
Definition sha_final (c : ctx) : list Z :=
  let finalcount := put_bigendian (c_Nh c) 4 ++ put_bigendian (c_Nl c) 4 in
  let c1 := sha_update c [128] in
  let c2 := if (56 <? c_num c1)%nat then sha_update c1 (repeat 0 8) else c1 in
  let c3 := set_num c2 56 (put_at (c_data c2) (c_num c2) (repeat 0 (56 - c_num c2))) in
  let c4 := sha_update c3 finalcount in
  let '(Regs h0 h1 h2 h3 h4 h5 h6 h7) := c_h c4 in
  flat_map (fun h => put_bigendian h 4) [h0; h1; h2; h3; h4; h5; h6; h7].

(* do_printf (355-360): the text after formatting, of which vsnprintf keeps 4095 bytes, and
   strlen those before the first 0. *)
Definition SHA_BUF_SIZE := 4096%nat.
Fixpoint before_nul (l : list Z) : list Z :=
  match l with [] => [] | b :: r => if b =? 0 then [] else b :: before_nul r end.
Definition sha_printf (c : ctx) (text : list Z) : ctx :=
  sha_update c (before_nul (firstn (SHA_BUF_SIZE - 1) text)).

(* Get_SHA256_hash (374-389) *)
Definition hex_digit (d : Z) : ascii :=
  ascii_of_N (Z.to_N (if d <? 10 then 48 + d else 87 + d)).
Definition sha_hash (c : ctx) : list ascii :=
  flat_map (fun b => [hex_digit (b / 16); hex_digit (b mod 16)]) (sha_final c).
