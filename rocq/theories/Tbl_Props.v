(* Property theorems: tables (C36). *)
From Coq Require Import List Arith NArith ZArith Bool Lia.
From Verif Require Import HashModel HashThms ListModel ListThms TblModel TblThms.
Import ListNotations.

(* C36: any history of table operations answers as finite maps, one per handle,
   do.  The maps are [astep] of TblModel.v: an update through a handle kills it
   and yields a new one.  Missing: copying of a handle (see
   C36_copy_refuted), and the state after a failed tbl_insertn is the one with
   the pairs before the first duplicate, not the old one (C36_atomic_refuted). *)
Theorem C36_history_partial : forall hf he l,
  good_hash hf he -> tproper he l [] ->
  exists r s, trun hf he l s0 = Some (r, s) /\ Forall2 agree r (fst (arun he l [])).
Proof. intros hf he l G. exact (table_history hf he G l). Qed.
Print Assumptions C36_history_partial.

(* A handle through which an update has succeeded never works again. *)
Theorem C36_linear : forall he a h o n l o',
  kills o h -> fst (astep he o a) = AHandle n -> uses o' h ->
  fst (astep he o' (snd (arun he l (snd (astep he o a))))) = AFail.
Proof. intros he a h o n l o'. exact (stale_fails he a h o n l o'). Qed.
Print Assumptions C36_linear.

(* An operation leaves the tables of all handles it does not update as they
   were, and a failing insertion or deletion changes nothing. *)
Theorem C36_frame : forall he o a,
  (forall h x, nth_error a h = Some x -> ~ kills o h ->
     nth_error (snd (astep he o a)) h = Some x) /\
  (forall h, (exists k d, o = TInsert h k d) \/ (exists k, o = TDelete h k) ->
     fst (astep he o a) = AFail -> snd (astep he o a) = a).
Proof.
  intros he o a. split; [exact (others_kept he o a)|]. intros h. exact (fail_same he a h o).
Qed.
Print Assumptions C36_frame.

(* A tbl_insertn that fails on a duplicate has changed the table. *)
Theorem C36_atomic_refuted : exists h k,
  option_map fst (trun int_hash N.eqb
    [TCreate 3; TInsertn 0 [(1, 7); (1, 8)]%N; TMember h k] s0)
    = Some [AHandle 0; AFail; ABool true] /\
  option_map fst (trun int_hash N.eqb [TCreate 3; TMember h k] s0) = Some [AHandle 0; ABool false].
Proof. exact insertn_partial. Qed.
Print Assumptions C36_atomic_refuted.

(* A copied handle works after an update through the original, and sees it. *)
Theorem C36_copy_refuted : exists h g k d,
  option_map fst (trun int_hash N.eqb
    [TCreate 3; TCopy h; TInsert h k d; TMember h k; TMember g k] s0)
    = Some [AHandle 0; AHandle 1; AHandle 2; AFail; ABool true].
Proof. exact copy_alive. Qed.
Print Assumptions C36_copy_refuted.

(* tbl_create with a negative size reads past the table of primes. *)
Theorem C36_create_refuted : trun int_hash N.eqb [TCreate (-1)] s0 = None.
Proof. exact create_negative. Qed.
Print Assumptions C36_create_refuted.

Definition demo_ops : list top :=
  [TCreate 2; TInsert 0 5 7; TInsert 1 6 8; TMember 2 5; TMember 1 5; TGet 2 6; TInsert 2 5 9;
   TDelete 2 5; TGet 3 5; TSize 3; TFromList [(1, 2); (3, 4)]; TSetInsertn 4 [8; 9]; TList 5;
   TClear 5; TSize 6; TGet 4 1]%N.
Example C36_ex :
  tproper N.eqb demo_ops [] /\
  option_map fst (trun int_hash N.eqb demo_ops s0) =
  Some [AHandle 0; AHandle 1; AHandle 2; ABool true; AFail; AVal 8; AFail; AHandle 3; AFail; AInt 1;
        AHandle 4; AHandle 5; AList [(1, 2); (3, 4); (8, 8); (9, 9)]; AHandle 6; AInt 0; AFail]%N.
Proof.
  split; [|vm_compute; reflexivity].
  assert (R : forall (a : astate) e, Forall (fun x => match x with Some m => length m + e <= 100 | None => True end) a ->
    aroom a e).
  { intros a e F h m E. rewrite Forall_forall in F. apply nth_error_In in E. specialize (F _ E). cbn in F. lia. }
  cbn. repeat split; try lia; repeat constructor; cbn; try lia; apply R; repeat constructor; cbn; lia.
Qed.
