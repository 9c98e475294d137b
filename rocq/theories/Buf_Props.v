(* Property theorems: growing buffers (C67). *)
From Coq Require Import List NArith ZArith Lia.
From Verif Require Import BufModel BufSpec BufThms.
Import ListNotations.
Local Open Scope N_scope.

(* C67: a buffer gives the answers of a list of items, through all growth and
   shrinking, and nothing outside its block is read or written. *)
Theorem C67_buffer : forall s n ops, 0 < s -> s * n < 2 ^ 32 -> s < 2 ^ 32 -> proper s ops [] ->
  exists b, brun ops (new_buf n s) = Some (fst (sp_run s ops []), b) /\
    b_size b = len (snd (sp_run s ops [])).
Proof.
  intros s n ops P L S H. destruct (run_rep s P S ops _ [] (rep_new s P n L S) H) as (b & E & R).
  exists b. split; [exact E|]. apply R.
Qed.
Print Assumptions C67_buffer.

(* A buffer of distinct items gives the answers of a list without repetition:
   the same number for the same item, numbers in the order of arrival, and the
   item under its number.  The hash and the comparison are those of the code. *)
Theorem C67_unique : forall s n ops, 0 < s -> s * n < 2 ^ 32 -> s < 2 ^ 32 -> n <= 2147483629 ->
  u_proper s ops [] ->
  exists u u', new_uniq_buf n s = Some u /\ urun ops u = Some (fst (us_run ops []), u') /\
    u_items u' = len (snd (us_run ops [])).
Proof.
  intros s n ops P L S B H. destruct (unew s P S n L B) as (u & E & R).
  destruct (urun_rep s P S ops u [] R H) as (u' & E' & R'). exists u, u'.
  split; [exact E|]. split; [exact E'|]. apply R'.
Qed.
Print Assumptions C67_unique.

(* M_LOCATE_BUF takes the count for an index: fetch_buf just behind the last item
   answers TRUE, with what was there before or from behind the block. *)
Theorem C67_fetch_refuted : exists ops1 ops2 r1 b1,
  proper 2 ops1 [] /\ proper 2 ops2 [] /\
  brun (ops1 ++ [BFetch 1]) (new_buf 1 2) = Some (r1 ++ [[3; 4]], b1) /\ b_size b1 = 1 /\
  brun (ops2 ++ [BFetch 2]) (new_buf 1 2) = None.
Proof.
  exists [BPush [1; 2]; BPush [3; 4]; BPop], [BPush [1; 2]; BPush [3; 4]], [[]; []; [3; 4]].
  eexists. split; [repeat split; discriminate|]. split; [repeat split|].
  split; [vm_compute; reflexivity|]. split; reflexivity.
Qed.
Print Assumptions C67_fetch_refuted.

(* With 2 GB in the block, the doubled size is 0 as an unsigned int: push_buf
   copies the items behind a block of no bytes. *)
Theorem C67_push_refuted : exists ops n x, proper 4 ops [] /\ len x = 4 /\ 4 * n < 2 ^ 32 /\
  len (snd (sp_run 4 ops [])) = 2 ^ 29 /\
  (exists r b, brun ops (new_buf n 4) = Some (r, b)) /\
  brun (ops ++ [BPush x]) (new_buf n 4) = None.
Proof.
  assert (P4 : 0 < 4) by reflexivity. assert (S4 : 4 < 2 ^ 32) by reflexivity.
  assert (B : 4 * 2 ^ 29 < 2 ^ 32) by reflexivity.
  pose proof (rep_new 4 P4 (2 ^ 29) B S4) as R0.
  destruct (resize_rep 4 P4 (new_buf (2 ^ 29) 4) [] (2 ^ 29) R0 B) as (b & E & R).
  exists [BResize (2 ^ 29)], (2 ^ 29), [1; 2; 3; 4].
  split; [split; [exact B|exact Logic.I]|]. split; [reflexivity|]. split; [exact B|].
  assert (L : len (resized 4 [] (2 ^ 29)) = 2 ^ 29).
  { unfold resized, len. cbn [app length]. rewrite firstn_length, repeat_length. lia. }
  split; [exact L|]. cbn [app brun bstep]. rewrite E. cbn [option_map].
  split; [eexists; eexists; reflexivity|].
  assert (A : b_alloc (new_buf (2 ^ 29) 4) <= 4 * 2 ^ 29) by (unfold new_buf; cbn [b_alloc]; vm_compute; discriminate).
  assert (L0 : len (@nil bytes) <= 2 ^ 29) by (vm_compute; discriminate).
  pose proof (resize_alloc 4 P4 S4 _ [] (2 ^ 29) b R0 L0 B A E) as A2.
  rewrite (push_wraps 4 P4 S4 b _ [1; 2; 3; 4] R); [reflexivity|rewrite L; reflexivity|].
  rewrite L. exact A2.
Qed.
Print Assumptions C67_push_refuted.

(* locate_uniq_buf of a number not given out lengthens the buffer, but not the
   count: later numbers lead to other items. *)
Theorem C67_locate_refuted : exists u u',
  new_uniq_buf 4 2 = Some u /\
  urun [UAdd [1; 2]; ULocate 2; UAdd [7; 8]; UIndex [7; 8]; ULocate 1; ULocate 3] u =
    Some ([Num 0; Item [0; 0]; Num 1; Num 1; Item [0; 0]; Item [7; 8]], u').
Proof. do 2 eexists. split; [vm_compute; reflexivity|]. vm_compute. reflexivity. Qed.
Print Assumptions C67_locate_refuted.

(* Non-vacuity *)
Definition hist : list bop :=
  [BEmpty; BPush [1; 2]; BPush [3; 4]; BPush [5; 6]; BCount; BTop; BPop; BStore 0 [9; 9]; BFetch 0; BFetch 7;
   BLocate 4; BCount; BFetch 1; BResize 1; BResize 3; BFetch 1; BPush [7; 7]; BTop].
Example C67_ex : proper 2 hist [] /\
  (exists b, brun hist (new_buf 1 2) =
    Some ([[1]; []; []; []; [3]; [5; 6]; [5; 6]; []; [9; 9]; []; [0; 0]; [5]; [3; 4]; []; []; [0; 0]; []; [7; 7]], b)).
Proof.
  split; [vm_compute; repeat split; try discriminate|]. eexists. vm_compute. reflexivity.
Qed.
Definition uhist : list uop :=
  [UAdd [1; 2]; UPush [200; 4]; UPush [1; 2]; UAdd [200; 4]; UIndex [5; 5]; UAdd [5; 5]; UAdd [1; 2]; UFetch 1;
   ULocate 2; UFetch 9].
Example C67_ex_unique : u_proper 2 uhist [] /\
  (exists u u', new_uniq_buf 1 2 = Some u /\
    urun uhist u = Some ([Num 0; Num 1; Num 0; Num 1; Num (-1); Num 2; Num 0; Item [200; 4]; Item [5; 5]; Item []], u')).
Proof.
  split; [vm_compute; repeat split; try discriminate|]. do 2 eexists. split; [vm_compute; reflexivity|]. vm_compute. reflexivity.
Qed.
