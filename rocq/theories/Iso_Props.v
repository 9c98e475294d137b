(* Property theorems: searching for a needle in a haystack (C45). *)
From Coq Require Import List Bool Arith Lia.
From Verif Require Import IsoModel IsoSpec IsoThms IsoCreate.
Import ListNotations.

(* C45: the adjacency matrix is symmetric, has no loops, and holds exactly the given pairs;
   indices out of range are written outside the matrix. *)
Theorem C45_adjacency : forall n ps,
  ((forall i j, In (i, j) ps -> i < n /\ j < n) ->
   exists m, mk_adj n ps = Some m
     /\ forall i j, i < n -> j < n -> (get m i j = true <-> i <> j /\ (In (i, j) ps \/ In (j, i) ps)))
  /\ (mk_adj n ps = None -> exists i j, In (i, j) ps /\ (n <= i \/ n <= j)).
Proof.
  intros n ps. split; [|exact (mk_adj_none n ps)]. intros B.
  destruct (mk_adj_ok n ps B) as [m [E [_ GT]]]. exact (ex_intro _ m (conj E GT)).
Qed.
Print Assumptions C45_adjacency.

(* C45: successive calls deliver every embedding of the needle into the haystack exactly once,
   then []; after that they start again from the beginning, any number of times. *)
Theorem C45_search : forall psigs gsigs padj gadj (wrapped : bool),
  let off := if wrapped then 1 else 0 in
  1 < length psigs -> 1 < length gsigs -> padj <> [] -> gadj <> [] ->
  (forall i j, In (i, j) padj -> i < length psigs /\ j < length psigs) ->
  (forall i j, In (i, j) gadj -> i < length gsigs /\ j < length gsigs) ->
  exists R C s L, R = length psigs - off /\ C = length gsigs - off
    /\ search_create psigs gsigs padj gadj wrapped = Some (R, C, s) /\ NoDup L
    /\ (forall f, In f L <-> embedding R C (alike off psigs gsigs) (edge off padj) (edge off gadj) f)
    /\ forall n, exists fuel,
         search_steps fuel R C (n * S (length L)) s = Some (concat (repeat (map pairs L ++ [[]]) n)).
Proof. exact search_ok. Qed.
Print Assumptions C45_search.

(* A path of two gates in a square of gates, the wrapper (index 0) removed. *)
Example C45_search_ex :
  match search_create [(9, 9); (1, 1); (2, 2)] [(8, 8); (1, 1); (2, 2); (1, 1); (2, 2)]
          [(0, 1); (1, 2)] [(1, 2); (2, 3); (3, 4)] true with
  | Some (R, C, s) => search_steps 100 R C 5 s
      = Some [[(0, 0); (1, 1)]; [(0, 2); (1, 1)]; [(0, 2); (1, 3)]; []; [(0, 0); (1, 1)]]
  | None => False
  end.
Proof. vm_compute. reflexivity. Qed.

(* The search as such: any symmetric needle, any haystack, any matrix of candidates. *)
Theorem C45_enumeration : forall R C M P G,
  0 < R -> length M = R -> (forall i, i < R -> length (nth i M []) = C) ->
  (forall i j, i < R -> j < R -> get P i j = get P j i) ->
  exists L, NoDup L
    /\ (forall f, In f L <->
          embedding R C (fun i j => get M i j = true) (fun i j => get P i j = true) (fun i j => get G i j = true) f)
    /\ forall n, exists fuel,
         search_steps fuel R C (n * S (length L)) (init_search R C M P G)
         = Some (concat (repeat (map pairs L ++ [[]]) n)).
Proof.
  intros R C M P G RP L1 L2 PS. assert (W : wfm R C M) by (split; assumption).
  destruct (all_ok R C M P G W PS) as [N A]. exists (all R C M P G). split; [exact N|]. split; [exact A|].
  intros n. apply rounds; try assumption; [apply holds_init; assumption|]. cbn [init_search s_set]. apply nth_repeat.
Qed.
Print Assumptions C45_enumeration.

Example C45_enumeration_ex :
  let P := [[false; true; false]; [true; false; true]; [false; true; false]] in
  let G := [[false; true; true; false]; [true; false; true; false]; [true; true; false; true]; [false; false; true; false]] in
  let M := repeat (repeat true 4) 3 in
  match search_steps 200 3 4 20 (init_search 3 4 M P G) with
  | Some l => nth 0 l [] = [(0, 0); (1, 1); (2, 2)] /\ nth 10 l [(7, 7)] = [] /\ nth 11 l [] = nth 0 l [(8, 8)]
  | None => False
  end.
Proof. vm_compute. repeat split. Qed.

(* Symmetry of the needle is needed: trim looks at row r of the needle, the final check at both. *)
Theorem C45_symmetric_refuted : exists R C M P G f,
  embedding R C (fun i j => get M i j = true) (fun i j => get P i j = true) (fun i j => get G i j = true) f
  /\ search_steps 50 R C 1 (init_search R C M P G) = Some [[]].
Proof.
  exists 2, 2, [[true; false]; [false; true]], [[false; true]; [false; false]], [[false; true]; [false; false]], [0; 1].
  split; [|vm_compute; reflexivity]. split; [reflexivity|]. split.
  - constructor; [intros [H|[]]; discriminate|]. constructor; [tauto|constructor].
  - split.
    + intros [|[|i]] I; [split; [cbn; lia|reflexivity]|split; [cbn; lia|reflexivity]|lia].
    + intros [|[|i]] [|[|j]] I J H; try lia; try discriminate H; reflexivity.
Qed.
Print Assumptions C45_symmetric_refuted.

(* Equal fingerprints are enough: nodes with different SHA sums are matched. *)
Theorem C45_sha_refuted : exists psigs gsigs padj gadj R C s a,
  search_create psigs gsigs padj gadj false = Some (R, C, s)
  /\ search_steps 50 R C 1 s = Some [a] /\ In (1, 1) a /\ snd (nth 1 psigs (0, 0)) <> snd (nth 1 gsigs (0, 0)).
Proof.
  exists [(1, 1); (2, 2)], [(1, 1); (2, 3)], [(0, 1)], [(0, 1)]. eexists _, _, _, _.
  split; [vm_compute; reflexivity|]. split; [vm_compute; reflexivity|]. split; [right; left; reflexivity|discriminate].
Qed.
Print Assumptions C45_sha_refuted.
