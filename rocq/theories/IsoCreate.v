(* The matrices that a search starts from. *)
From Coq Require Import List Bool Arith Lia.
From Verif Require Import IsoModel IsoSpec IsoThms.
Import ListNotations.

Lemma alloc_wf : forall n m, wfm n m (allocate_matrix n m).
Proof.
  intros n m. unfold allocate_matrix. split; [apply repeat_length|]. intros i I.
  rewrite (nth_indep _ [] (repeat false m)) by (rewrite repeat_length; exact I). rewrite nth_repeat. apply repeat_length.
Qed.
Lemma alloc_get : forall n m i j, get (allocate_matrix n m) i j = false.
Proof.
  intros n m i j. unfold get, allocate_matrix. destruct (Nat.lt_ge_cases i n).
  - rewrite (nth_indep _ [] (repeat false m)) by (rewrite repeat_length; exact H). rewrite nth_repeat. apply nth_repeat.
  - rewrite (nth_overflow (repeat _ n)) by (rewrite repeat_length; exact H). destruct j; reflexivity.
Qed.

Lemma inb_cons : forall i j a b ps, inb (i, j) ((a, b) :: ps) = Nat.eqb i a && Nat.eqb j b || inb (i, j) ps.
Proof. reflexivity. Qed.

Lemma edges_ok : forall n ps m, wfm n n m -> (forall i j, In (i, j) ps -> i < n /\ j < n) ->
  exists m', add_edges n m ps = Some m' /\ wfm n n m'
    /\ forall i j, i < n -> j < n -> get m' i j = get m i j || inb (i, j) ps || inb (j, i) ps.
Proof.
  intros n. induction ps as [|[a b] ps IH]; intros m W B.
  - exists m. split; [reflexivity|]. split; [exact W|]. intros i j _ _. cbn. rewrite !orb_false_r. reflexivity.
  - destruct (B a b (or_introl eq_refl)) as [A1 B1]. cbn [add_edges].
    rewrite (proj2 (Nat.ltb_lt a n)), (proj2 (Nat.ltb_lt b n)) by assumption. cbn [andb].
    destruct (IH (put (put m a b true) b a true)) as [m' [E [W' GT]]].
    + apply put_wf, put_wf, W.
    + intros i j H. apply B. right. exact H.
    + exists m'. split; [exact E|]. split; [exact W'|]. intros i j I J. rewrite GT by assumption.
      rewrite (get_put n n) by (try assumption; apply put_wf, W). rewrite (get_put n n) by assumption.
      rewrite !inb_cons. rewrite (andb_comm (Nat.eqb j a)).
      destruct (Nat.eqb i b && Nat.eqb j a), (Nat.eqb i a && Nat.eqb j b), (get m i j), (inb (i, j) ps), (inb (j, i) ps); reflexivity.
Qed.

Lemma diag_ok : forall n l m, wfm n n m -> (forall i, In i l -> i < n) ->
  let m' := fold_left (fun m i => put m i i false) l m in
  wfm n n m' /\ forall i j, get m' i j = get m i j && negb (Nat.eqb i j && existsb (Nat.eqb i) l).
Proof.
  intros n. induction l as [|a l IH]; intros m W B; cbn [fold_left].
  - split; [exact W|]. intros i j. cbn. rewrite andb_false_r, andb_true_r. reflexivity.
  - destruct (IH (put m a a false) (put_wf _ _ _ _ _ _ W)) as [X1 X2]; [intros i H; apply B; right; exact H|].
    split; [exact X1|]. intros i j. rewrite X2. assert (A := B a (or_introl eq_refl)).
    rewrite (get_put n n) by assumption. cbn [existsb].
    destruct (Nat.eqb_spec i a) as [->|NE]; cbn [andb orb].
    + destruct (Nat.eqb_spec j a) as [->|NJ].
      * rewrite Nat.eqb_refl. cbn. symmetry. apply andb_false_r.
      * destruct (Nat.eqb_spec a j); [congruence|]. reflexivity.
    + reflexivity.
Qed.

Theorem mk_adj_ok : forall n ps, (forall i j, In (i, j) ps -> i < n /\ j < n) ->
  exists m, mk_adj n ps = Some m /\ wfm n n m
    /\ forall i j, i < n -> j < n -> (get m i j = true <-> i <> j /\ (In (i, j) ps \/ In (j, i) ps)).
Proof.
  intros n ps B. destruct (edges_ok n ps _ (alloc_wf n n) B) as [m [E [W GT]]].
  destruct (diag_ok n (seq 0 n) m W) as [W' GD]; [intros i I; apply in_seq in I; lia|].
  unfold mk_adj. rewrite E. eexists. split; [reflexivity|]. split; [exact W'|]. intros i j I J.
  rewrite GD, GT, alloc_get by assumption. cbn [orb].
  assert (EX : existsb (Nat.eqb i) (seq 0 n) = true).
  { apply existsb_exists. exists i. split; [apply in_seq; lia|apply Nat.eqb_refl]. }
  rewrite EX, andb_true_r, andb_true_iff, orb_true_iff, !inb_In, negb_true_iff, Nat.eqb_neq. tauto.
Qed.

(* None exactly when a pair lies outside. *)
Theorem mk_adj_none : forall n ps, mk_adj n ps = None -> exists i j, In (i, j) ps /\ (n <= i \/ n <= j).
Proof.
  intros n ps H. unfold mk_adj in H. destruct (add_edges n (allocate_matrix n n) ps) eqn:E; [discriminate|]. clear H.
  revert E. generalize (allocate_matrix n n). induction ps as [|[a b] ps IH]; intros m E; [discriminate|]. cbn [add_edges] in E.
  destruct (Nat.ltb_spec a n) as [A|A]; cbn [andb] in E; [|exists a, b; split; [left; reflexivity|lia]].
  destruct (Nat.ltb_spec b n) as [B|B]; [|exists a, b; split; [left; reflexivity|lia]].
  destruct (IH _ E) as [i [j [I J]]]. exists i, j. split; [right; exact I|exact J].
Qed.

Lemma iso_matrix_ok : forall p g, wfm (length p) (length g) (mk_iso_matrix p g)
  /\ forall i j d, i < length p -> j < length g ->
     get (mk_iso_matrix p g) i j = true <-> fst (nth i p d) = fst (nth j g d) \/ snd (nth i p d) = snd (nth j g d).
Proof.
  intros p g. split.
  - split; [unfold mk_iso_matrix; apply map_length|]. intros i I. unfold mk_iso_matrix.
    rewrite (nth_indep _ [] (map (fun c => Nat.eqb (fst (0, 0)) (fst c) || Nat.eqb (snd (0, 0)) (snd c)) g)) by (rewrite map_length; exact I).
    rewrite (map_nth (fun r : sig => map (fun c : sig => Nat.eqb (fst r) (fst c) || Nat.eqb (snd r) (snd c)) g) p (0, 0)). apply map_length.
  - intros i j d I J. unfold get, mk_iso_matrix.
    rewrite (nth_indep _ [] (map (fun c => Nat.eqb (fst d) (fst c) || Nat.eqb (snd d) (snd c)) g)) by (rewrite map_length; exact I).
    rewrite (map_nth (fun r : sig => map (fun c : sig => Nat.eqb (fst r) (fst c) || Nat.eqb (snd r) (snd c)) g) p d).
    rewrite (nth_indep _ false (Nat.eqb (fst (nth i p d)) (fst d) || Nat.eqb (snd (nth i p d)) (snd d))) by (rewrite map_length; exact J).
    rewrite (map_nth (fun c : sig => Nat.eqb (fst (nth i p d)) (fst c) || Nat.eqb (snd (nth i p d)) (snd c)) g d).
    rewrite orb_true_iff, !Nat.eqb_eq. reflexivity.
Qed.

Lemma nth_tl : forall (A : Type) (l : list A) i d, nth i (tl l) d = nth (S i) l d.
Proof. intros A [|x l] i d; [destruct i; reflexivity|reflexivity]. Qed.

Lemma trim_matrix_ok : forall R C m, wfm (S R) (S C) m -> wfm R C (trim_matrix m)
  /\ forall i j, i < R -> j < C -> get (trim_matrix m) i j = get m (S i) (S j).
Proof.
  intros R C m [M1 M2]. assert (L : length (tl m) = R) by (destruct m; cbn in *; lia).
  assert (N : forall i, i < R -> nth i (trim_matrix m) [] = tl (nth (S i) m [])).
  { intros i I. unfold trim_matrix. change (@nil bool) with (tl (@nil bool)) at 1. rewrite map_nth, nth_tl. reflexivity. }
  split.
  - split; [unfold trim_matrix; rewrite map_length; exact L|]. intros i I. rewrite N by exact I.
    specialize (M2 (S i) ltac:(lia)). destruct (nth (S i) m []); cbn in *; lia.
  - intros i j I J. unfold get. rewrite N by exact I. apply nth_tl.
Qed.

(* The whole: create, then any number of rounds. *)
Lemma embedding_ext : forall R C c1 n1 h1 c2 n2 h2 f,
  (forall i j, i < R -> j < C -> (c1 i j <-> c2 i j)) -> (forall i j, i < R -> j < R -> (n1 i j <-> n2 i j)) ->
  (forall i j, i < C -> j < C -> (h1 i j <-> h2 i j)) ->
  (embedding R C c1 n1 h1 f <-> embedding R C c2 n2 h2 f).
Proof.
  assert (A : forall R C (c1 n1 h1 c2 n2 h2 : nat -> nat -> Prop) f,
    (forall i j, i < R -> j < C -> (c1 i j <-> c2 i j)) -> (forall i j, i < R -> j < R -> (n1 i j <-> n2 i j)) ->
    (forall i j, i < C -> j < C -> (h1 i j <-> h2 i j)) ->
    embedding R C c1 n1 h1 f -> embedding R C c2 n2 h2 f).
  { intros R C c1 n1 h1 c2 n2 h2 f EC EN EH [E1 [E2 [E3 E4]]]. split; [exact E1|]. split; [exact E2|]. split.
    - intros i I. destruct (E3 i I) as [X Y]. split; [exact X|]. apply EC; assumption.
    - intros i j I J N. apply EH; [apply E3; exact I|apply E3; exact J|]. apply E4; [exact I|exact J|]. apply EN; assumption. }
  intros R C c1 n1 h1 c2 n2 h2 f EC EN EH. split; [apply A; assumption|].
  apply A; intros i j I J; symmetry; [apply EC|apply EN|apply EH]; assumption.
Qed.

Theorem search_ok : forall psigs gsigs padj gadj (wrapped : bool),
  let off := if wrapped then 1 else 0 in
  1 < length psigs -> 1 < length gsigs -> padj <> [] -> gadj <> [] ->
  (forall i j, In (i, j) padj -> i < length psigs /\ j < length psigs) ->
  (forall i j, In (i, j) gadj -> i < length gsigs /\ j < length gsigs) ->
  exists R C s L, R = length psigs - off /\ C = length gsigs - off
    /\ search_create psigs gsigs padj gadj wrapped = Some (R, C, s) /\ NoDup L
    /\ (forall f, In f L <-> embedding R C (alike off psigs gsigs) (edge off padj) (edge off gadj) f)
    /\ forall n, exists fuel, search_steps fuel R C (n * S (length L)) s = Some (concat (repeat (map pairs L ++ [[]]) n)).
Proof.
  intros psigs gsigs padj gadj wrapped off LP LG NP NG BP BG.
  destruct (mk_adj_ok _ _ BP) as [p [EP [WP GP]]]. destruct (mk_adj_ok _ _ BG) as [g [EG [WG GG]]].
  destruct (iso_matrix_ok psigs gsigs) as [WI GI].
  assert (MAIN : forall R C M P G s, wfm R C M -> 0 < R -> s = init_search R C M P G ->
    R = length psigs - off -> C = length gsigs - off ->
    (forall i j, i < R -> j < C -> (get M i j = true <-> alike off psigs gsigs i j)) ->
    (forall i j, i < R -> j < R -> (get P i j = true <-> edge off padj i j)) ->
    (forall i j, i < C -> j < C -> (get G i j = true <-> edge off gadj i j)) ->
    search_create psigs gsigs padj gadj wrapped = Some (R, C, s) ->
    exists R C s L, R = length psigs - off /\ C = length gsigs - off
    /\ search_create psigs gsigs padj gadj wrapped = Some (R, C, s) /\ NoDup L
    /\ (forall f, In f L <-> embedding R C (alike off psigs gsigs) (edge off padj) (edge off gadj) f)
    /\ forall n, exists fuel, search_steps fuel R C (n * S (length L)) s = Some (concat (repeat (map pairs L ++ [[]]) n))).
  { intros R C M P G s W RP ES ER EC HM HP HG CR.
    assert (PS : forall i j, i < R -> j < R -> get P i j = get P j i).
    { intros i j I J. apply eq_true_iff_eq. rewrite (HP i j I J), (HP j i J I). unfold edge. intuition. }
    destruct (all_ok R C M P G W PS) as [N A]. exists R, C, s, (all R C M P G).
    split; [exact ER|]. split; [exact EC|]. split; [exact CR|]. split; [exact N|]. split.
    - intros f. rewrite A. unfold emb. apply embedding_ext; assumption.
    - intros n. apply rounds; try assumption.
      + rewrite ES. apply holds_init; assumption.
      + rewrite ES. cbn [init_search s_set]. apply nth_repeat. }
  assert (CR : search_create psigs gsigs padj gadj wrapped =
    let n := length psigs in let h := length gsigs in let iso := mk_iso_matrix psigs gsigs in
    if wrapped then Some (n - 1, h - 1, init_search (n - 1) (h - 1) (trim_matrix iso) (trim_matrix p) (trim_matrix g))
    else Some (n, h, init_search n h iso p g)).
  { unfold search_create. cbv zeta. destruct (Nat.leb_spec (length psigs) 1); [lia|]. destruct (Nat.leb_spec (length gsigs) 1); [lia|].
    cbn [orb]. destruct padj; [congruence|]. destruct gadj; [congruence|]. rewrite EP, EG. reflexivity. }
  destruct wrapped; cbv zeta in CR; unfold off in *.
  - set (R := length psigs - 1) in *. set (C := length gsigs - 1) in *.
    assert (ER : length psigs = S R) by (unfold R; lia). assert (EC : length gsigs = S C) by (unfold C; lia).
    rewrite ER in WP, WI, GP. rewrite EC in WG, WI, GG.
    destruct (trim_matrix_ok R C _ WI) as [V1 T1]. destruct (trim_matrix_ok R R _ WP) as [V2 T2]. destruct (trim_matrix_ok C C _ WG) as [V3 T3].
    apply (MAIN R C _ (trim_matrix p) (trim_matrix g) _ V1 ltac:(lia) eq_refl eq_refl eq_refl); [| | |exact CR].
    + intros i j I J. rewrite T1 by assumption. unfold alike. rewrite (GI (S i) (S j) (0, 0)) by lia. reflexivity.
    + intros i j I J. rewrite T2 by assumption. unfold edge. rewrite GP by lia. cbn [plus]. intuition.
    + intros i j I J. rewrite T3 by assumption. unfold edge. rewrite GG by lia. cbn [plus]. intuition.
  - apply (MAIN (length psigs) (length gsigs) _ p g _ WI ltac:(lia) eq_refl); try lia; [| | |exact CR].
    + intros i j I J. unfold alike. rewrite (GI i j (0, 0)) by assumption. reflexivity.
    + intros i j I J. unfold edge. cbn [plus]. apply GP; assumption.
    + intros i j I J. unfold edge. cbn [plus]. apply GG; assumption.
Qed.
