(* Property theorems: vector names (C43). *)
From Coq Require Import ZArith List Bool Ascii String Lia Permutation.
From Verif Require Import IlistModel IlistSpec IlistThms VnameModel VnameThms VnameMerge.
Import ListNotations.
Open Scope Z_scope.
Open Scope string_scope.
Open Scope list_scope.

Definition name (s : string) : chars := list_ascii_of_string s.
Definition one (n : string) (rs : list (Z * Z)) : vec := [Txt (n ++ "[")%string; Idx rs; Txt "]"].

(* C43: parsing the printed form of a vector gives the vector back, but for neighbouring
   ranges that continue each other, which are joined; the scalars and their order stay. *)
Theorem C43_split_show : forall v, readable v ->
  split_name (show_vec v) = joined_vec v /\ expand_vector (split_name (show_vec v)) = expand_vector v.
Proof.
  intros v R. rewrite (split_show v R). exact (conj eq_refl (joined_vec_ok v)).
Qed.
Print Assumptions C43_split_show.

Example C43_split_show_ex :
  split_name (name "mem[7:4,2][-1:0].q") =
    [Txt "mem["; Idx [(7, 4); (2, 2)]; Txt "]["; Idx [(-1, 0)]; Txt "].q"]
  /\ show_vec [Txt "mem["; Idx [(7, 4); (2, 2)]; Txt "]["; Idx [(-1, 0)]; Txt "].q"]
     = name "mem[7:4,2][-1:0].q"
  /\ split_name (name "a[3:2,1:0]") = one "a" [(3, 0)].
Proof. vm_compute. repeat split. Qed.

Example C43_readable_ex : readable [Txt "mem["; Idx [(7, 4); (2, 2)]; Txt "].q"].
Proof.
  assert (N : forall t, existsb (fun c => Ascii.eqb c "["%char) t = false -> no_index_in t).
  { intros t H a b -> _. rewrite existsb_app in H. cbn in H. rewrite orb_true_r in H. discriminate. }
  cbn. repeat split; try discriminate; try reflexivity.
  - intros a b E NB. destruct b as [|c b]; [congruence|]. exfalso.
    destruct a as [|a1 [|a2 [|a3 [|a4 a]]]]; cbn in E; injection E; try discriminate.
    intros. subst. destruct a; discriminate.
  - exists (name "mem"). reflexivity.
  - exists (name ".q"). reflexivity.
  - apply N. reflexivity.
Qed.

(* Contiguous printing lists the same scalars. *)
Theorem C43_contig : forall v, Permutation (flat_map expand_vector (contig v)) (expand_vector v).
Proof. exact contig_ok. Qed.
Print Assumptions C43_contig.

(* make_range_canonical loses no index, and neither adds one nor reorders when the ranges
   fall. *)
Theorem C43_canonical : forall rs, no_special rs ->
  oriented (canonical rs)
  /\ (forall x, In x (ints rs) -> In x (ints (canonical rs)))
  /\ (falling rs -> canonical rs = rs).
Proof.
  intros rs NS. destruct (canonical_superset rs NS) as [A B].
  exact (conj A (conj B (canonical_falling rs))).
Qed.
Print Assumptions C43_canonical.

Example C43_canonical_ex : canonical [(0, 3)] = [(3, 0)] /\ canonical [(7, 4); (5, 2)] = [(7, 2)].
Proof. vm_compute. split; reflexivity. Qed.

(* It does add the indices between ranges that are not in falling order. *)
Theorem C43_canonical_refuted : exists rs x, no_special rs /\ NoDup (ints rs)
  /\ In x (ints (canonical rs)) /\ ~ In x (ints rs).
Proof.
  exists [(1, 0); (7, 5)], 3. split; [repeat constructor; discriminate|].
  split; [|split].
  - vm_compute. repeat constructor; cbn; lia.
  - vm_compute. tauto.
  - vm_compute. intuition discriminate.
Qed.
Print Assumptions C43_canonical_refuted.

(* The mark [-1:0] of an empty vector is not a range of its own among others. *)
Theorem C43_special_refuted : exists rs x, In x (ints rs) /\ ~ In x (ints (canonical rs)).
Proof.
  exists [(-2, -2); (-1, 0)], 0. split; [vm_compute; tauto|]. vm_compute. intuition discriminate.
Qed.
Print Assumptions C43_special_refuted.

(* compress_ranges is a union of sets. *)
Theorem C43_compress : forall a b, oriented a -> oriented b ->
  oriented (compress_ranges a b)
  /\ forall x, In x (ints (compress_ranges a b)) <-> In x (ints a) \/ In x (ints b).
Proof. exact (fun a b A B => compress_ok _ a b A B (le_n _)). Qed.
Print Assumptions C43_compress.

Example C43_compress_ex : compress_ranges [(7, 6); (1, 0)] [(5, 4)] = [(7, 4); (1, 0)].
Proof. reflexivity. Qed.

(* It may yield an index twice. *)
Theorem C43_compress_refuted : exists a b, falling a /\ falling b /\ ~ NoDup (ints (compress_ranges a b)).
Proof.
  exists [(7, 6); (3, 2)], [(5, 3)]. split; [cbn; lia|]. split; [cbn; lia|].
  vm_compute. intros H. repeat match goal with H : NoDup (_ :: _) |- _ => inversion H; clear H; subst end.
  cbn in *. intuition lia.
Qed.
Print Assumptions C43_compress_refuted.

(* Check_range_overlap is right for single ranges only. *)
Theorem C43_overlap : forall u1 l1 u2 l2, l1 <= u1 -> l2 <= u2 ->
  range_overlap [(u1, l1)] [(u2, l2)] = true
  <-> exists x, In x (ints [(u1, l1)]) /\ In x (ints [(u2, l2)]).
Proof. exact range_overlap_one. Qed.
Print Assumptions C43_overlap.

Theorem C43_overlap_refuted : exists a b x, falling a /\ falling b
  /\ In x (ints a) /\ In x (ints b) /\ range_overlap a b = false.
Proof.
  exists [(3, 0)], [(7, 5); (2, 1)], 2. split; [cbn; lia|]. split; [cbn; lia|].
  split; [vm_compute; tauto|]. split; [vm_compute; tauto|]. reflexivity.
Qed.
Print Assumptions C43_overlap_refuted.

(* Names whose texts and indices alternate and that have no star in a text have the same
   signature only if they differ in their indices only. *)
Theorem C43_signature : forall v w, plain v -> plain w ->
  (signature v = signature w <-> same_shape v w).
Proof. exact (fun v w P Q => conj (plain_alike v w P Q) (shape_signature v w)). Qed.
Print Assumptions C43_signature.

Theorem C43_star_refuted : exists v w, split_name (name "a[*]") = v /\ split_name (name "a[3]") = w
  /\ signature v = signature w /\ ~ same_shape v w
  /\ extract_sorted [v; w] = Some [v] /\ extract_sorted [w; v] = None.
Proof. do 2 eexists. repeat split; try reflexivity. cbn. intros [H _]. discriminate. Qed.
Print Assumptions C43_star_refuted.

(* Merging adjacent vectors ends, and the result has the scalars of the argument, constants
   counting bit by bit. *)
Theorem C43_merge : forall l, good_names l ->
  exists out, merge_vectors l = Some out /\ Permutation (all_scalars out) (all_scalars l).
Proof.
  intros l G. destruct (merge_vectors_ok l G) as [out [O1 [_ [O2 _]]]]. exact (ex_intro _ out (conj O1 O2)).
Qed.
Print Assumptions C43_merge.

(* ... in the same order, if no vector has more than one index. *)
Theorem C43_merge_order : forall l, good_names l -> Forall one_dim l ->
  exists out, merge_vectors l = Some out /\ all_scalars out = all_scalars l.
Proof.
  intros l G D. destruct (merge_vectors_ok l G) as [out [O1 [_ [_ O2]]]]. exact (ex_intro _ out (conj O1 (O2 D))).
Qed.
Print Assumptions C43_merge_order.

Definition sample : list vec :=
  [one "a" [(3, 3)]; one "a" [(2, 1)]; [Txt "0b01"]; [Txt "0b1"]; one "b" [(0, 1)]; one "b" [(2, 5)]; one "b" [(9, 9)]].

Example C43_merge_ex :
  merge_vectors sample = Some [one "a" [(3, 1)]; [Txt "0b011"]; one "b" [(0, 5); (9, 9)]]
  /\ all_scalars sample =
     [one "a" [(3, 3)]; one "a" [(2, 2)]; one "a" [(1, 1)]; [Txt "0b0"]; [Txt "0b1"]; [Txt "0b1"];
      one "b" [(0, 0)]; one "b" [(1, 1)]; one "b" [(2, 2)]; one "b" [(3, 3)]; one "b" [(4, 4)];
      one "b" [(5, 5)]; one "b" [(9, 9)]].
Proof. split; vm_compute; reflexivity. Qed.

Example C43_sample_good : good_names sample /\ Forall one_dim sample.
Proof.
  split; [split; [|split]|].
  - repeat constructor; intros t T; try (cbn in T; discriminate T);
      [exists "01"%string|exists "1"%string]; do 2 eexists; split; reflexivity.
  - intros v w V W. cbn in V, W.
    repeat (destruct V as [<-|V]); try destruct V; repeat (destruct W as [<-|W]); try destruct W;
      vm_compute; try tauto; discriminate.
  - repeat constructor.
  - repeat constructor.
Qed.

(* With two indices the order of the scalars changes. *)
Theorem C43_merge_order_refuted : exists l out, good_names l /\ merge_vectors l = Some out
  /\ all_scalars out <> all_scalars l.
Proof.
  exists (map (fun p => [Txt "a["; Idx [(fst p, fst p)]; Txt "]["; Idx [(snd p, snd p)]; Txt "]"])
            [(1, 3); (0, 3); (1, 2); (0, 2)]).
  eexists. split; [|split; [vm_compute; reflexivity|vm_compute; discriminate]].
  split; [|split].
  - repeat constructor; intros t T; cbn in T; discriminate T.
  - intros v w V W. cbn in V, W.
    repeat (destruct V as [<-|V]); try destruct V; repeat (destruct W as [<-|W]); try destruct W;
      vm_compute; tauto.
  - repeat constructor.
Qed.
Print Assumptions C43_merge_order_refuted.

(* Extracting vectors from scalars and vectors in any order: the result covers the scalars
   of the argument and no others. *)
Theorem C43_extract : forall l sorted, good_names l -> Forall tidy l ->
  Permutation sorted (map canonical_vec l) ->
  exists out, extract_sorted sorted = Some out
    /\ forall e, In e (all_scalars out) <-> In e (all_scalars l).
Proof. exact extract_vectors_ok. Qed.
Print Assumptions C43_extract.

Example C43_extract_ex :
  extract_sorted (map canonical_vec [one "a" [(3, 3)]; one "a" [(0, 2)]; one "a" [(5, 5)]; one "b" [(0, 0)]])
  = Some [one "b" [(0, 0)]; one "a" [(5, 5); (3, 0)]].
Proof. vm_compute. reflexivity. Qed.

Example C43_tidy_ex : Forall tidy [one "a" [(3, 3)]; one "a" [(0, 2)]; one "a" [(5, 5)]; one "b" [(0, 0)]].
Proof.
  assert (T : forall n p, p <> (-1, 0) -> tidy (one n [p])).
  { intros n p N. constructor; [exact I|]. constructor; [|constructor; [exact I|constructor]].
    split; [constructor; [exact N|constructor]|]. right. exists p. reflexivity. }
  repeat (apply Forall_cons; [apply T; discriminate|]). apply Forall_nil.
Qed.
