(* Property theorems: SHA-256 and the signatures of graphs (C44). *)
From Coq Require Import ZArith List Bool Ascii String Lia.
From Verif Require Import ShaModel ShaSpec ShaThms VnameModel ShaGraph ShaGraphSpec ShaGraphThms.
Import ListNotations.
Open Scope Z_scope.
Open Scope string_scope.
Open Scope list_scope.

Local Notation length := List.length.

(* C44: the digest of a message that is passed in pieces, each below 2^29 bytes, is the SHA-256
   digest of the whole message, whatever the buffer held before. *)
Theorem C44_digest : forall g ms, length g = 64%nat -> Forall bytes ms ->
  Forall (fun s => Z.of_nat (length s) < 2 ^ 29) ms ->
  sha_final (fold_left sha_update ms (sha_init g)) = sha256 (List.concat ms).
Proof. exact sha_chunks_ok. Qed.
Print Assumptions C44_digest.

Definition text (s : string) : chars := list_ascii_of_string s.
Definition raw (s : string) : list Z := map byte_of (text s).

(* The first example of FIPS 180-2, in two pieces; and a message that fills the block up to the
   place of the length. *)
Example C44_digest_ex :
  string_of_list_ascii (sha_hash (fold_left sha_update [raw "a"; raw "bc"] (sha_init (repeat 7 64))))
    = "ba7816bf8f01cfea414140de5dae2223b00361a396177a9cb410ff61f20015ad"
  /\ string_of_list_ascii (sha_hash (fold_left sha_update
       [raw "abcdbcdecdefdefgefghfghighijhi"; raw "jkijkljklmklmnlmnomnopnopq"] (sha_init (repeat 7 64))))
    = "248d6a61d20638b8e5c026930c3e6039a33ce45964ff2167f6ecedd419db06c1".
Proof. vm_compute. split; reflexivity. Qed.

(* A single piece of 2^29 bytes is counted as 0 bits: the carry is lost. *)
Theorem C44_count_refuted : exists g k, length g = 64%nat /\ k = 2 ^ 29
  /\ c_Nl (count_bits (sha_init g) k) = 0 /\ c_Nh (count_bits (sha_init g) k) = 0.
Proof. exists (repeat 0 64), (2 ^ 29). vm_compute. repeat split. Qed.
Print Assumptions C44_count_refuted.

(* C44: the signature is the SHA-256 digest, in hexadecimal, of what the lines leave after
   truncation. *)
Theorem C44_signature : forall g ls, length g = 64%nat -> signature g ls = hex (sha256 (stream ls)).
Proof. exact signature_ok. Qed.
Print Assumptions C44_signature.

(* C44: the traversal ends, on cyclic graphs too. *)
Theorem C44_total : forall h dom r, closed h dom -> In r dom ->
  exists ls, lines_of (S (length dom)) h r = Some ls.
Proof. exact graph_total. Qed.
Print Assumptions C44_total.

(* C44: graphs that are equal up to addresses have the same lines, hence the same signature. *)
Theorem C44_iso : forall h1 r1 h2 r2 k, isomorphic h1 r1 h2 r2 -> lines_of k h1 r1 = lines_of k h2 r2.
Proof. exact graph_iso. Qed.
Print Assumptions C44_iso.

(* C44: graphs without NULL whose texts have no newline and at most 3900 characters, and which
   hash the same bytes, are equal up to addresses, sharing and cycles included. *)
Theorem C44_stream : forall h1 d1 r1 k1 l1 h2 d2 r2 k2 l2,
  closed h1 d1 -> In r1 d1 -> closed h2 d2 -> In r2 d2 ->
  (forall p nd, h1 p = Some nd -> text_ok nd) -> (forall p nd, h2 p = Some nd -> text_ok nd) ->
  Z.of_nat (length d1) < 2 ^ 31 -> Z.of_nat (length d2) < 2 ^ 31 ->
  lines_of k1 h1 r1 = Some l1 -> lines_of k2 h2 r2 = Some l2 ->
  stream l1 = stream l2 -> isomorphic h1 r1 h2 r2.
Proof. exact stream_iso. Qed.
Print Assumptions C44_stream.

Fixpoint heap_of (l : list (ptr * node)) : heap :=
  match l with
  | [] => fun _ => None
  | (p, n) :: r => fun q => if Nat.eqb q p then Some n else heap_of r q
  end.

(* The list l = "x" : 3 : l, cyclic. *)
Definition cyc : heap := heap_of
  [(1, NCons (Some 2) (Some 3)); (2, NLeaf (LStr (text "x"))); (3, NCons (Some 4) (Some 1)); (4, NLeaf (LInt (-3)%Z))]%nat.

Example C44_closed_ex : closed cyc [1; 2; 3; 4]%nat /\ (forall p nd, cyc p = Some nd -> text_ok nd)
  /\ lines_of 5 cyc 1%nat = Some (map (fun s => text s ++ [nl]) ["2=""x"""; "4=I-3"; "3=4:1"; "1=2:3"]).
Proof.
  split; [|split].
  - intros p I. cbn in I. decompose [or] I; subst; try contradiction; cbn; eexists; (split; [reflexivity|]);
      intros k K; cbn in K; decompose [or] K; subst; try contradiction; eexists; (split; [reflexivity|]); cbn; tauto.
  - intros p nd H. cbn in H.
    repeat (match type of H with context [Nat.eqb p ?x] => destruct (Nat.eqb p x) end);
      try discriminate; injection H as <-; repeat split; cbn; try lia; intros I;
      repeat (destruct I as [I|I]; [discriminate|]); exact I.
  - vm_compute. reflexivity.
Qed.

(* A newline in a string: two pairs of strings hash the same bytes. *)
Definition pair_heap (a b : chars) : heap := heap_of
  [(1, NCons (Some 2) (Some 3)); (2, NLeaf (LStr a)); (3, NLeaf (LStr b))]%nat.
Definition two_lines (a b : string) : chars := text a ++ [nl] ++ text b.

Lemma pair_iso : forall a b a' b', isomorphic (pair_heap a b) 1%nat (pair_heap a' b') 1%nat -> a = a'.
Proof.
  intros a b a' b' [R [R1 [_ [_ N]]]]. destruct (N _ _ R1) as [n [m [E1 [E2 NR]]]].
  injection E1 as <-. injection E2 as <-. inversion NR as [| | |? ? ? ? O1 O2|]; subst.
  inversion O1 as [|? ? R2]; subst. destruct (N _ _ R2) as [n [m [E1 [E2 NR2]]]].
  injection E1 as <-. injection E2 as <-. inversion NR2; subst. reflexivity.
Qed.

Theorem C44_newline_refuted : exists h1 h2 l1 l2,
  lines_of 4 h1 1%nat = Some l1 /\ lines_of 4 h2 1%nat = Some l2 /\ stream l1 = stream l2 /\ ~ isomorphic h1 1%nat h2 1%nat.
Proof.
  exists (pair_heap (two_lines "a""" "3=""b") (text "c")), (pair_heap (text "a") (two_lines "b""" "3=""c")).
  eexists _, _. split; [vm_compute; reflexivity|]. split; [vm_compute; reflexivity|].
  split; [vm_compute; reflexivity|]. intros H. apply pair_iso in H. discriminate H.
Qed.
Print Assumptions C44_newline_refuted.

(* A long string: what follows the first 4095 bytes of the line does not count. *)
Theorem C44_long_refuted : exists h1 h2 l1 l2,
  lines_of 4 h1 1%nat = Some l1 /\ lines_of 4 h2 1%nat = Some l2 /\ stream l1 = stream l2 /\ ~ isomorphic h1 1%nat h2 1%nat.
Proof.
  exists (pair_heap (repeat "a"%char 4095 ++ ["b"%char]) []), (pair_heap (repeat "a"%char 4095 ++ ["c"%char]) []).
  eexists _, _. split; [vm_compute; reflexivity|]. split; [vm_compute; reflexivity|].
  split; [vm_compute; reflexivity|]. intros H. apply pair_iso in H. apply app_inv_head in H. discriminate H.
Qed.
Print Assumptions C44_long_refuted.

(* A child that is NULL has the number of the root. *)
Theorem C44_null_refuted : exists h1 h2 l1 l2,
  lines_of 2 h1 1%nat = Some l1 /\ lines_of 2 h2 1%nat = Some l2 /\ l1 = l2 /\ ~ isomorphic h1 1%nat h2 1%nat.
Proof.
  exists (heap_of [(1%nat, NApp None None)]), (heap_of [(1%nat, NApp (Some 1%nat) (Some 1%nat))]).
  eexists _, _. split; [vm_compute; reflexivity|]. split; [vm_compute; reflexivity|]. split; [reflexivity|].
  intros [R [R1 [_ [_ N]]]]. destruct (N _ _ R1) as [n [m [E1 [E2 NR]]]].
  injection E1 as <-. injection E2 as <-. inversion NR as [| |? ? ? ? O1 O2| |]; subst. inversion O1.
Qed.
Print Assumptions C44_null_refuted.
