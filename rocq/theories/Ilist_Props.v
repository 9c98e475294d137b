(* Property theorems: index lists, vector declarations and names (C42). *)
From Coq Require Import ZArith List Bool Ascii String Lia.
From Verif Require Import IlistModel IlistSpec IlistThms.
Import ListNotations.
Open Scope Z_scope.
Open Scope string_scope.
Open Scope list_scope.

(* C42: index lists stand for the sequence of their nodes. *)
Theorem C42_append : forall l a b, good l ->
  good (append_range l a b) /\ nodes (append_range l a b) = nodes l ++ run a b.
Proof. exact append_range_ok. Qed.
Print Assumptions C42_append.

Theorem C42_select : forall l k, good l ->
  (0 <= k < Z.of_nat (List.length (nodes l)) -> ilist_sel l k = Some (nth (Z.to_nat k) (nodes l) 0))
  /\ (Z.of_nat (List.length (nodes l)) <= k -> ilist_sel l k = None)
  /\ ilist_length l = Z.of_nat (List.length (nodes l)).
Proof.
  intros l k G. rewrite (nodes_length l G).
  exact (conj (ilist_sel_ok l k G) (conj (ilist_sel_none l k G) eq_refl)).
Qed.
Print Assumptions C42_select.

Theorem C42_slice : forall mp from to, good mp ->
  0 <= from -> from <= to -> to < Z.of_nat (List.length (nodes mp)) ->
  exists r, translate_range mp from to = Some r /\ good r
            /\ nodes r = firstn (Z.to_nat (to - from + 1)) (skipn (Z.to_nat from) (nodes mp)).
Proof. exact translate_range_ok. Qed.
Print Assumptions C42_slice.

(* The size of a vector is the number of its scalars, and expansion lists them in order. *)
Theorem C42_size : forall v, vec_size v = Z.of_nat (List.length (coords v))
                             /\ expand_vector v = map (scalar v) (coords v).
Proof. exact (fun v => conj (vec_size_ok v) (expand_scalars v)). Qed.
Print Assumptions C42_size.

(* Mapping a name: each scalar of the name gets the node of the declaration that has it, in
   the order of the name, across one or several declarations and whichever of the three
   methods (copy, map_node, scalar by scalar) applies; the mapping fails only if a scalar is
   undeclared.  Declarations whose inner ranges ascend are excluded (see below). *)
Theorem C42_map_vector : forall ds v, Forall declared ds -> disjoint ds ->
  Forall (fun d => same_shape (fst d) v) ds -> indexed v ->
  match map_vector ds v with
  | Some r => good r /\ map Some (nodes r) = map (lookup ds) (coords v)
  | None => exists c, In c (coords v) /\ lookup ds c = None
  end.
Proof. exact map_vector_ok. Qed.
Print Assumptions C42_map_vector.

Theorem C42_declare : forall d n, indexed d -> inner_descending d -> NoDup (coords d) ->
  declared (d, fresh_map d n).
Proof. exact fresh_declared. Qed.
Print Assumptions C42_declare.

(* The name of a node and the node of a name are inverse to each other. *)
Theorem C42_names : forall d idx start, inner_descending d -> indexed d ->
  NoDup (coords d) -> 0 <= idx < Z.of_nat (List.length (coords d)) ->
  real_name d idx = Some (scalar d (nth (Z.to_nat idx) (coords d) []))
  /\ find_node_index d (scalar d (nth (Z.to_nat idx) (coords d) [])) start = Some (start + idx).
Proof.
  intros d idx start D IX N K. destruct (name_roundtrip d idx start D IX N K) as [v [V1 V2]].
  pose proof (real_name_ok d idx D IX K) as R. rewrite R in V1. injection V1 as <-.
  exact (conj R V2).
Qed.
Print Assumptions C42_names.

(* The node of a scalar name, when every declaration has nodes of its own. *)
Theorem C42_name2idx : forall ds v c, Forall (fun d => inner_descending (fst d)
    /\ exists n, 0 <= n /\ snd d = fresh_map (fst d) n) ds ->
  Forall (fun d => same_shape (fst d) v) ds -> In c (coords v) ->
  name2idx ds (scalar v c) = lookup ds c.
Proof. exact name2idx_ok. Qed.
Print Assumptions C42_name2idx.

(* A formal has the nodes of its actual.  name2idx adds an offset to the first of them and
   so gives a wrong node when they are not consecutive; map_vector gives the right one. *)
Theorem C42_name2idx_refuted : exists d v c, declared d /\ same_shape (fst d) v /\ In c (coords v)
  /\ lookup [d] c = Some 3 /\ name2idx [d] (scalar v c) = Some 8
  /\ map_vector [d] (scalar v c) = Some [Seg 3 3 1].
Proof.
  exists ([Txt "p["; Idx [(1, 0)]; Txt "]"], [Seg 7 7 1; Seg 3 3 1]),
         [Txt "p["; Idx [(1, 0)]; Txt "]"], [0].
  vm_compute. repeat split; auto; repeat constructor; cbn; intuition discriminate.
Qed.
Print Assumptions C42_name2idx_refuted.

(* get_stride takes |upper - lower + 1|, which is too small when the range ascends: two
   scalars of the vector a[1:0][0:3] get one node, and its last two nodes are out of reach. *)
Theorem C42_stride_refuted : exists d n a b r, good (fresh_map d n) /\ NoDup (coords d) /\ indexed d
  /\ In a (coords d) /\ In b (coords d) /\ a <> b
  /\ map_vector [(d, fresh_map d n)] (scalar d a) = Some r
  /\ map_vector [(d, fresh_map d n)] (scalar d b) = Some r
  /\ real_name d 7 = None.
Proof.
  exists [Txt "a["; Idx [(1, 0)]; Txt "]["; Idx [(0, 3)]; Txt "]"], 4, [1; 2], [0; 0], [Seg 6 6 1].
  vm_compute. repeat split; auto; try discriminate; repeat constructor; cbn; intuition discriminate.
Qed.
Print Assumptions C42_stride_refuted.

(* --- the hypotheses can be met ----------------------------------------------------------- *)

Definition two_dim : vec := [Txt "m["; Idx [(2, 3)]; Txt "]["; Idx [(7, 5); (1, 0)]; Txt "]"].
Definition other : vec := [Txt "m["; Idx [(0, 0)]; Txt "]["; Idx [(1, 0)]; Txt "]"].
Definition decls : list vinfo :=
  [(two_dim, fresh_map two_dim 10); (other, [Seg 40 40 1; Seg 30 30 1])].

Example C42_ex_declared : Forall declared decls /\ disjoint decls.
Proof.
  split.
  - constructor; [|constructor; [|constructor]].
    + apply C42_declare; [repeat constructor|repeat constructor; cbn; lia|].
      vm_compute. repeat constructor; cbn; intuition discriminate.
    + split; [repeat constructor|]. split; [reflexivity|]. split; [repeat constructor; cbn; lia|].
      vm_compute. repeat constructor; cbn; intuition discriminate.
  - split; [|split; [|exact I]].
    + intros c e C [<-|[]] D. vm_compute in C, D. intuition congruence.
    + intros c e _ [].
Qed.

(* One declaration: the runs of nodes are merged. *)
Example C42_ex_one : map_vector decls [Txt "m["; Idx [(2, 2)]; Txt "]["; Idx [(0, 1); (5, 7)]; Txt "]"]
  = Some [Seg 14 10 5].
Proof. vm_compute. reflexivity. Qed.

(* Two declarations. *)
Example C42_ex_two : map_vector decls [Txt "m["; Idx [(2, 2); (0, 0)]; Txt "]["; Idx [(1, 0)]; Txt "]"]
  = Some [Seg 13 13 1; Seg 14 14 1; Seg 40 40 1; Seg 30 30 1].
Proof. vm_compute. reflexivity. Qed.

Example C42_ex_missing : map_vector decls [Txt "m["; Idx [(2, 2); (0, 0)]; Txt "]["; Idx [(5, 5)]; Txt "]"]
  = None.
Proof. vm_compute. reflexivity. Qed.

Example C42_ex_slice : translate_range [Seg 5 3 3; Seg 8 10 3; Seg 11 11 1] 1 5
  = Some [Seg 4 3 2; Seg 8 10 3].
Proof. vm_compute. reflexivity. Qed.

Example C42_ex_names : real_name two_dim 8 = Some (scalar two_dim [3; 1])
  /\ find_node_index two_dim (scalar two_dim [3; 1]) 10 = Some 18.
Proof. vm_compute. split; reflexivity. Qed.
