(* Property theorems: hash tables with generations (C65). *)
From Coq Require Import List Arith NArith Bool Lia.
From Verif Require Import HashModel GenModel GenSpec GenThms.
Import ListNotations.
Local Open Scope N_scope.

(* C65: with any hash function and equality that fit together, any history in
   which a key is changed at most once in a generation, inserted when unbound
   and deleted when bound, gives the answers of a finite map that goes back to
   what it was at the end of each generation.  Nothing outside a table is
   touched and no null pointer is followed. *)
Theorem C65_map : forall (K : Type) (hash_fn : K -> N -> N) (hash_eq : K -> K -> bool)
    (word : K -> N) size l,
  good_hash hash_fn hash_eq -> (forall k, word k <> 0) ->
  size <= 2147483629 -> inserts l <= 2147483630 ->
  proper hash_eq l start [[]] ->
  exists g g', create_gen_hash size = Some g /\
    grun hash_fn hash_eq word l g = Some (fst (sp_run hash_eq l start), g').
Proof. intros K hf he w size l G W L B P. exact (gen_map hf he w G W size l L B P). Qed.
Print Assumptions C65_map.

(* In particular a generation, with others inside it, leaves the answer to each
   later question as it was. *)
Theorem C65_restore : forall (K : Type) (hash_fn : K -> N -> N) (hash_eq : K -> K -> bool)
    (word : K -> N) size l l1 l2,
  let whole := l ++ (GBegin :: l1 ++ [GEnd]) ++ l2 in
  good_hash hash_fn hash_eq -> (forall k, word k <> 0) ->
  size <= 2147483629 -> inserts whole <= 2147483630 ->
  proper hash_eq whole start [[]] -> closes 0 l1 = true ->
  exists g g' r, create_gen_hash size = Some g /\
    grun hash_fn hash_eq word whole g = Some (r, g') /\
    skipn (length r - length l2) r =
    fst (sp_run hash_eq l2 (snd (sp_run hash_eq l start))).
Proof.
  intros K hf he w size l l1 l2 whole G W L B P C.
  destruct (gen_map hf he w G W size whole L B P) as (g & g' & E1 & E2).
  exists g, g', (fst (sp_run he whole start)). split; [exact E1|]. split; [exact E2|].
  unfold whole. rewrite !sp_run_app. cbn [fst]. rewrite (sp_restore he l1 _ C).
  assert (Len : forall q v, length (fst (sp_run he q v)) = length q).
  { induction q as [|o q IH]; intros v; cbn [sp_run]; [reflexivity|].
    destruct (sp_step he o v) as [a v1]. specialize (IH v1). destruct (sp_run he q v1). cbn in *. congruence. }
  rewrite app_assoc, skipn_app.
  rewrite (app_length (_ ++ _) (fst (sp_run he l2 _))), (Len l2).
  rewrite Nat.add_sub, skipn_all, Nat.sub_diag. reflexivity.
Qed.
Print Assumptions C65_restore.

(* Beyond that use the table is wrong.  A key inserted and then deleted in the
   same generation: the end of the generation follows a null pointer. *)
Definition hf (k n : N) := k mod n.
Definition ans (l : list (gop N)) : option (list N) :=
  match create_gen_hash 100 with
  | Some g => option_map fst (grun hf N.eqb (fun k => k + 1) l g)
  | None => None
  end.
Theorem C65_undo_refuted : good_hash hf N.eqb /\
  exists l, ans (l ++ [GDel 1]) = Some [0; 0; 0; 0] /\ ans (l ++ [GDel 1; GEnd]) = None /\
    fst (sp_run N.eqb (l ++ [GDel 1; GEnd; GFind 2]) start) = [0; 0; 0; 0; 0; 7].
Proof.
  split.
  - split; try (intros; apply N.mod_lt; lia); try (intros; apply N.eqb_refl);
      intros *; rewrite ?N.eqb_eq; congruence.
  - exists [GIns 2 7; GBegin; GIns 1 5]. repeat split; vm_compute; reflexivity.
Qed.
Print Assumptions C65_undo_refuted.

(* A key inserted twice in a generation, or deleted and inserted again, is not
   given its old state back. *)
Theorem C65_twice_refuted :
  (exists l, ans l = Some [0; 0; 0; 0; 5] /\ fst (sp_run N.eqb l start) = [0; 0; 0; 0; 0]) /\
  (exists l, ans l = Some [0; 0; 0; 0; 0; 5; 0; 6] /\
     fst (sp_run N.eqb l start) = [0; 0; 0; 0; 0; 5; 0; 0]).
Proof.
  split.
  - exists [GBegin; GIns 1 5; GIns 1 6; GEnd; GFind 1]. split; vm_compute; reflexivity.
  - exists [GIns 1 5; GBegin; GDel 1; GIns 1 6; GEnd; GFind 1; GDel 1; GFind 1].
    split; vm_compute; reflexivity.
Qed.
Print Assumptions C65_twice_refuted.

(* A binding replaced in an inner generation outlives the outer one. *)
Theorem C65_replace_refuted : exists l,
  ans l = Some [0; 0; 0; 0; 0; 5; 0; 5] /\
  fst (sp_run N.eqb l start) = [0; 0; 0; 0; 0; 5; 0; 0].
Proof.
  exists [GBegin; GIns 1 5; GBegin; GIns 1 6; GEnd; GFind 1; GEnd; GFind 1].
  split; vm_compute; reflexivity.
Qed.
Print Assumptions C65_replace_refuted.

(* Once the generation opened by create_gen_hash is ended, cur_diff is NULL and
   an insertion, a deletion or another end follows it. *)
Theorem C65_closed_refuted :
  ans [GEnd; GFind 1] = Some [0; 0] /\ ans [GEnd; GIns 1 5] = None /\
  ans [GEnd; GDel 1] = None /\ ans [GEnd; GEnd] = None /\
  ans [GEnd; GBegin; GIns 1 5; GFind 1] = Some [0; 0; 0; 5].
Proof. repeat split; vm_compute; reflexivity. Qed.
Print Assumptions C65_closed_refuted.

(* Non-vacuity: three generations, keys changed in each of them. *)
Definition hist : list (gop N) :=
  [GIns 1 5; GIns 114 6; GBegin; GDel 1; GIns 2 7; GFind 1; GBegin; GIns 1 8; GDel 2; GDel 114;
   GFind 1; GFind 2; GFind 114; GEnd; GFind 1; GFind 2; GFind 114; GEnd; GFind 1; GFind 2; GEnd;
   GFind 1; GFind 114].
Example C65_ex : inserts hist <= 2147483630 /\ proper N.eqb hist start [[]] /\
  ans hist = Some [0; 0; 0; 0; 0; 0; 0; 0; 0; 0; 8; 0; 0; 0; 0; 7; 6; 0; 5; 0; 0; 0; 0] /\
  fst (sp_run N.eqb hist start) = [0; 0; 0; 0; 0; 0; 0; 0; 0; 0; 8; 0; 0; 0; 0; 7; 6; 0; 5; 0; 0; 0; 0].
Proof.
  split; [vm_compute; discriminate|]. split; [vm_compute; repeat split; discriminate|].
  split; vm_compute; reflexivity.
Qed.
Example C65_ex_restore : closes 0 [GDel 1; GIns 2 7; GBegin; GIns 1 8; GEnd; GFind 2] = true /\
  proper N.eqb ([GIns 1 5] ++ (GBegin :: [GDel 1; GIns 2 7; GBegin; GIns 1 8; GEnd; GFind 2] ++ [GEnd])
    ++ [GFind 1; GFind 2]) start [[]].
Proof. split; [reflexivity|]. vm_compute; repeat split; discriminate. Qed.
