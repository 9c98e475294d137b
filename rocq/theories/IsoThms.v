(* lazy_search enumerates the embeddings. *)
From Coq Require Import List Bool Arith Lia.
From Verif Require Import IsoModel IsoSpec.
Import ListNotations.

(* --- lists and matrices ------------------------------------------------------------- *)

Lemma upd_length : forall (A : Type) (l : list A) i x, length (upd l i x) = length l.
Proof. induction l as [|y l IH]; intros [|i] x; cbn; auto. Qed.

Lemma nth_upd : forall (A : Type) (l : list A) i x k d, i < length l ->
  nth k (upd l i x) d = if Nat.eqb k i then x else nth k l d.
Proof.
  induction l as [|y l IH]; intros [|i] x [|k] d H; cbn in *; try lia; try reflexivity.
  apply IH. lia.
Qed.

Definition wfm (R C : nat) (m : mat) : Prop := length m = R /\ forall i, i < R -> length (nth i m []) = C.
Definition tab (R C : nat) (g : nat -> nat -> bool) : mat := map (fun i => map (g i) (seq 0 C)) (seq 0 R).

Lemma nth_map_seq : forall (A : Type) (g : nat -> A) n i d, i < n -> nth i (map g (seq 0 n)) d = g i.
Proof.
  intros A g n i d H. rewrite (nth_indep _ d (g 0)) by (rewrite map_length, seq_length; exact H).
  rewrite map_nth, seq_nth by exact H. reflexivity.
Qed.

Lemma tab_wf : forall R C g, wfm R C (tab R C g).
Proof.
  intros R C g. split; [unfold tab; rewrite map_length, seq_length; reflexivity|].
  intros i H. unfold tab. rewrite nth_map_seq by exact H. rewrite map_length, seq_length. reflexivity.
Qed.

Lemma get_tab : forall R C g i j, i < R -> j < C -> get (tab R C g) i j = g i j.
Proof.
  intros R C g i j I J. unfold get, tab. rewrite nth_map_seq by exact I. rewrite nth_map_seq by exact J. reflexivity.
Qed.

Lemma list_ext : forall (A : Type) d (l m : list A), length l = length m ->
  (forall i, i < length l -> nth i l d = nth i m d) -> l = m.
Proof. intros A d l m L H. exact (nth_ext l m d d L H). Qed.

Lemma mat_ext : forall R C m n, wfm R C m -> wfm R C n ->
  (forall i j, i < R -> j < C -> get m i j = get n i j) -> m = n.
Proof.
  intros R C m n [M1 M2] [N1 N2] H. apply (list_ext _ []); [congruence|]. intros i I. rewrite M1 in I.
  apply (list_ext _ false); [rewrite M2, N2 by exact I; reflexivity|]. intros j J. rewrite M2 in J by exact I.
  exact (H i j I J).
Qed.

Lemma tab_get : forall R C m, wfm R C m -> m = tab R C (get m).
Proof.
  intros R C m W. apply (mat_ext R C); [exact W|apply tab_wf|]. intros i j I J. rewrite get_tab by assumption. reflexivity.
Qed.

Lemma tab_ext : forall R C g h, (forall i j, i < R -> j < C -> g i j = h i j) -> tab R C g = tab R C h.
Proof.
  intros R C g h H. apply (mat_ext R C); try apply tab_wf. intros i j I J. rewrite !get_tab by assumption. auto.
Qed.

Lemma upd_wf : forall R C m i row, wfm R C m -> length row = C -> wfm R C (upd m i row).
Proof.
  intros R C m i row [M1 M2] L. split; [rewrite upd_length; exact M1|]. intros k K.
  destruct (Nat.lt_ge_cases i R) as [I|I].
  - rewrite nth_upd by lia. destruct (Nat.eqb k i); [exact L|apply M2; exact K].
  - assert (E : upd m i row = m).
    { clear - I M1. revert i R M1 I. induction m as [|y m IH]; intros [|i] R M I; cbn in *; try reflexivity; [lia|].
      f_equal. apply (IH i (length m)); lia. }
    rewrite E. apply M2. exact K.
Qed.

Lemma put_wf : forall R C m i j b, wfm R C m -> wfm R C (put m i j b).
Proof.
  intros R C m i j b W. unfold put. destruct (Nat.lt_ge_cases i R) as [I|I].
  - apply upd_wf; [exact W|]. rewrite upd_length. apply W. exact I.
  - destruct W as [M1 M2]. assert (E : upd m i (upd (nth i m []) j b) = m).
    { clear - I M1. generalize (upd (nth i m []) j b). intros x. revert i R M1 I.
      induction m as [|y m IH]; intros [|i] R M I; cbn in *; try reflexivity; [lia|].
      f_equal. apply (IH i (length m)); lia. }
    rewrite E. split; assumption.
Qed.

Lemma get_put : forall R C m i j b k l, wfm R C m -> i < R -> j < C ->
  get (put m i j b) k l = if Nat.eqb k i && Nat.eqb l j then b else get m k l.
Proof.
  intros R C m i j b k l [M1 M2] I J. unfold get, put. rewrite nth_upd by lia.
  destruct (Nat.eqb_spec k i) as [->|NE]; [|reflexivity]. rewrite nth_upd by (rewrite M2; assumption).
  cbn [andb]. destruct (Nat.eqb l j); reflexivity.
Qed.

Lemma get_upd : forall R C m i row k l, wfm R C m -> i < R ->
  get (upd m i row) k l = if Nat.eqb k i then nth l row false else get m k l.
Proof.
  intros R C m i row k l [M1 M2] I. unfold get. rewrite nth_upd by lia. destruct (Nat.eqb k i); reflexivity.
Qed.

(* --- trim ------------------------------------------------------------------------------- *)

Definition cell (g : mat) (c : nat) (s : mat * list (nat * nat)) (ij : nat * nat) : mat * list (nat * nat) :=
  trim_cell g c (fst ij) s (snd ij).
Definition cells (R C : nat) (p : mat) (r : nat) : list (nat * nat) :=
  flat_map (fun i => if get p r i then map (pair i) (seq 0 C) else []) (seq (S r) (R - S r)).

Lemma trim_flat : forall R C iso p g r c, trim R C iso p g r c = fold_left (cell g c) (cells R C p r) (iso, []).
Proof.
  intros R C iso p g r c. unfold trim, cells. generalize (iso, @nil (nat * nat)). generalize (seq (S r) (R - S r)).
  induction l as [|i l IH]; intros s; [reflexivity|]. cbn [fold_left flat_map]. rewrite fold_left_app, IH. f_equal.
  destruct (get p r i); [|reflexivity]. generalize (seq 0 C). intros js. revert s.
  induction js as [|j js IHj]; intros s; [reflexivity|]. cbn [fold_left map]. rewrite IHj. reflexivity.
Qed.

Definition inb (ij : nat * nat) (l : list (nat * nat)) : bool :=
  existsb (fun x => Nat.eqb (fst ij) (fst x) && Nat.eqb (snd ij) (snd x)) l.

Lemma inb_In : forall ij l, inb ij l = true <-> In ij l.
Proof.
  intros [i j] l. unfold inb. rewrite existsb_exists. split.
  - intros [[x y] [H E]]. cbn in E. apply andb_true_iff in E as [E1 E2]. apply Nat.eqb_eq in E1, E2. subst. exact H.
  - intros H. exists (i, j). split; [exact H|]. cbn. rewrite !Nat.eqb_refl. reflexivity.
Qed.

Lemma cell_fold : forall R C g c ps m u, wfm R C m ->
  (forall ij, In ij ps -> fst ij < R /\ snd ij < C) ->
  let s := fold_left (cell g c) ps (m, u) in
  wfm R C (fst s)
  /\ (forall i j, i < R -> j < C -> get (fst s) i j = get m i j && negb (inb (i, j) ps && negb (get g c j)))
  /\ (forall i j, In (i, j) (snd s) <-> In (i, j) u \/ (In (i, j) ps /\ get g c j = false /\ get m i j = true)).
Proof.
  intros R C g c. induction ps as [|[i0 j0] ps IH]; intros m u W B.
  - cbn. split; [exact W|]. split; [intros i j _ _; rewrite andb_true_r; reflexivity|]. intros i j. tauto.
  - destruct (B (i0, j0) (or_introl eq_refl)) as [I0 J0]. cbn [fst snd] in I0, J0.
    assert (B' : forall ij, In ij ps -> fst ij < R /\ snd ij < C) by (intros ij H; apply B; right; exact H).
    cbn [fold_left]. unfold cell at 2 4 6. cbn [fst snd]. unfold trim_cell.
    destruct (get g c j0) eqn:EG; cbn [negb andb].
    + destruct (IH m u W B') as [X1 [X2 X3]]. split; [exact X1|]. split.
      * intros i j I J. rewrite X2 by assumption. f_equal. f_equal. cbn [inb existsb fst snd].
        destruct (Nat.eqb_spec i i0) as [->|NE]; [|reflexivity]. destruct (Nat.eqb_spec j j0) as [->|NE]; [|reflexivity].
        cbn [andb orb]. rewrite EG. cbn [negb]. rewrite !andb_false_r. reflexivity.
      * intros i j. rewrite X3. split; [intros [H|H]; [auto|right; destruct H; split; [right; assumption|assumption]]|].
        intros [H|[[H|H] G]]; [auto| |auto]. injection H as <- <-. destruct G as [G _]. congruence.
    + destruct (get m i0 j0) eqn:EM.
      * destruct (IH (put m i0 j0 false) (u ++ [(i0, j0)]) (put_wf _ _ _ _ _ _ W) B') as [X1 [X2 X3]].
        split; [exact X1|]. split.
        -- intros i j I J. rewrite X2 by assumption. rewrite (get_put R C) by assumption. cbn [inb existsb fst snd].
           destruct (Nat.eqb_spec i i0) as [->|NE]; [|reflexivity]. destruct (Nat.eqb_spec j j0) as [->|NE]; [|reflexivity].
           cbn [andb orb]. rewrite EG. cbn [negb andb]. rewrite andb_false_r. reflexivity.
        -- intros i j. rewrite X3, in_app_iff. rewrite (get_put R C) by assumption.
           destruct (Nat.eqb_spec i i0) as [->|NE1]; [destruct (Nat.eqb_spec j j0) as [->|NE2]|]; cbn [andb].
           ++ split; [intros [[H|[H|[]]]|[_ [_ H]]]; [auto| |discriminate]|].
              ** right. split; [left; reflexivity|]. auto.
              ** intros [H|_]; [auto|]. left. right. left. reflexivity.
           ++ split.
              ** intros [[H|[H|[]]]|[H1 H2]]; [auto|congruence|]. right. split; [right; exact H1|exact H2].
              ** intros [H|[[H|H] G]]; [auto|congruence|auto].
           ++ split.
              ** intros [[H|[H|[]]]|[H1 H2]]; [auto|congruence|]. right. split; [right; exact H1|exact H2].
              ** intros [H|[[H|H] G]]; [auto|congruence|auto].
      * destruct (IH m u W B') as [X1 [X2 X3]]. split; [exact X1|]. split.
        -- intros i j I J. rewrite X2 by assumption. cbn [inb existsb fst snd].
           destruct (Nat.eqb_spec i i0) as [->|NE]; [|reflexivity]. destruct (Nat.eqb_spec j j0) as [->|NE]; [|reflexivity].
           rewrite EM. reflexivity.
        -- intros i j. rewrite X3. split; [intros [H|[H1 H2]]; [auto|right; split; [right; exact H1|exact H2]]|].
           intros [H|[[H|H] G]]; [auto| |auto]. injection H as <- <-. destruct G as [_ G]. congruence.
Qed.

Lemma in_cells : forall R C p r i j, In (i, j) (cells R C p r) <-> r < i < R /\ j < C /\ get p r i = true.
Proof.
  intros R C p r i j. unfold cells. rewrite in_flat_map. split.
  - intros [k [H1 H2]]. apply in_seq in H1. destruct (get p r k) eqn:E; [|destruct H2].
    apply in_map_iff in H2 as [l [H2 H3]]. injection H2 as <- <-. apply in_seq in H3. repeat split; try lia. exact E.
  - intros [[H1 H2] [H3 H4]]. exists i. split; [apply in_seq; lia|]. rewrite H4. apply in_map, in_seq. lia.
Qed.

Lemma trim_ok : forall R C m p g r c, wfm R C m ->
  wfm R C (fst (trim R C m p g r c))
  /\ (forall i j, i < R -> j < C -> get (fst (trim R C m p g r c)) i j
        = get m i j && negb (Nat.ltb r i && get p r i && negb (get g c j)))
  /\ (forall i j, In (i, j) (snd (trim R C m p g r c)) <->
        r < i < R /\ j < C /\ get p r i = true /\ get g c j = false /\ get m i j = true).
Proof.
  intros R C m p g r c W. rewrite trim_flat.
  assert (B : forall ij, In ij (cells R C p r) -> fst ij < R /\ snd ij < C).
  { intros [i j] H. apply in_cells in H. cbn. lia. }
  destruct (cell_fold R C g c (cells R C p r) m [] W B) as [X1 [X2 X3]]. split; [exact X1|]. split.
  - intros i j I J. rewrite X2 by assumption. f_equal. f_equal. f_equal.
    apply eq_true_iff_eq. rewrite inb_In, in_cells, andb_true_iff, Nat.ltb_lt. intuition lia.
  - intros i j. rewrite X3, in_cells. cbn [In]. tauto.
Qed.

Lemma undo_trim_ok : forall R C ps m, wfm R C m -> (forall ij, In ij ps -> fst ij < R /\ snd ij < C) ->
  wfm R C (undo_trim m ps)
  /\ forall i j, i < R -> j < C -> get (undo_trim m ps) i j = get m i j || inb (i, j) ps.
Proof.
  intros R C. unfold undo_trim. induction ps as [|[i0 j0] ps IH]; intros m W B.
  - split; [exact W|]. intros i j _ _. cbn. rewrite orb_false_r. reflexivity.
  - destruct (B (i0, j0) (or_introl eq_refl)) as [I0 J0]. cbn [fst snd fold_left] in *.
    destruct (IH (put m i0 j0 true) (put_wf _ _ _ _ _ _ W)) as [X1 X2]; [intros ij H; apply B; right; exact H|].
    split; [exact X1|]. intros i j I J. rewrite X2 by assumption. rewrite (get_put R C) by assumption.
    cbn [inb existsb fst snd]. fold (inb (i, j) ps). destruct (Nat.eqb i i0 && Nat.eqb j j0); [|reflexivity].
    cbn [orb]. rewrite orb_true_r. reflexivity.
Qed.

(* --- the state after some choices ------------------------------------------------------------ *)

Section Search.
Variables R C : nat.
Variables M0 P G : mat.
Hypothesis W0 : wfm R C M0.

(* Rows below length f are decided; the others are cut down by the decisions. *)
Definition allow (f : list nat) (i j : nat) : bool :=
  forallb (fun k => negb (get P k i && negb (get G (nth k f 0) j))) (seq 0 (length f)).
Definition cut (f : list nat) (i j : nat) : bool :=
  if Nat.ltb i (length f) then Nat.eqb j (nth i f 0) else get M0 i j && allow f i j.
Definition now (f : list nat) : mat := tab R C (cut f).
Definition taken (f : list nat) : list bool := map (fun j => existsb (Nat.eqb j) f) (seq 0 C).

Lemma allow_snoc : forall f c i j, allow (f ++ [c]) i j = allow f i j && negb (get P (length f) i && negb (get G c j)).
Proof.
  intros f c i j. unfold allow. rewrite app_length. cbn [length]. rewrite Nat.add_1_r, seq_S, forallb_app. cbn [forallb plus].
  rewrite app_nth2, Nat.sub_diag, andb_true_r by lia. cbn [nth]. f_equal. apply eq_true_iff_eq. rewrite !forallb_forall.
  split; intros H x X; specialize (H x X); apply in_seq in X; rewrite app_nth1 in * by lia; exact H.
Qed.

Definition trimmed (f : list nat) (c : nat) : mat * list (nat * nat) := trim R C (now f) P G (length f) c.

Lemma pick_now : forall f c cpy, length f < R -> c < C ->
  fst (pick C (fst (trimmed f c)) cpy (length f) c) = now (f ++ [c])
  /\ nth (length f) (fst (trimmed f c)) [] = nth (length f) (now f) [].
Proof.
  intros f c cpy L CC. destruct (trim_ok R C (now f) P G (length f) c (tab_wf _ _ _)) as [X1 [X2 X3]].
  fold (trimmed f c) in X1, X2, X3. split.
  - unfold pick. cbn [fst].
    assert (WP : wfm R C (upd (fst (trimmed f c)) (length f) (upd (repeat false C) c true)))
      by (apply upd_wf; [exact X1|rewrite upd_length, repeat_length; reflexivity]).
    apply (mat_ext R C); [exact WP|apply tab_wf|]. intros i j I J. rewrite (get_upd R C) by assumption.
    unfold now at 1. rewrite get_tab by assumption. unfold cut. rewrite app_length. cbn [length].
    destruct (Nat.eqb_spec i (length f)) as [->|NE].
    + rewrite (proj2 (Nat.ltb_lt _ _)) by lia. rewrite app_nth2, Nat.sub_diag by lia. cbn [nth].
      rewrite nth_upd by (rewrite repeat_length; exact CC). destruct (Nat.eqb_spec j c); [reflexivity|].
      rewrite nth_repeat. reflexivity.
    + rewrite X2 by assumption. unfold now. rewrite get_tab by assumption. unfold cut.
      destruct (Nat.ltb_spec i (length f)).
      * rewrite (proj2 (Nat.ltb_lt i (length f + 1))) by lia. rewrite (proj2 (Nat.ltb_ge (length f) i)) by lia.
        cbn [andb negb]. rewrite andb_true_r, app_nth1 by lia. reflexivity.
      * rewrite (proj2 (Nat.ltb_ge i (length f + 1))) by lia. rewrite (proj2 (Nat.ltb_lt (length f) i)) by lia.
        rewrite allow_snoc. cbn [andb]. rewrite andb_assoc. reflexivity.
  - apply (list_ext _ false).
    + rewrite (proj2 X1) by exact L. rewrite (proj2 (tab_wf R C (cut f))) by exact L. reflexivity.
    + intros j J. rewrite (proj2 X1) in J by exact L.
      change (get (fst (trimmed f c)) (length f) j = get (now f) (length f) j). rewrite X2 by assumption.
      rewrite Nat.ltb_irrefl. cbn [andb negb]. apply andb_true_r.
Qed.

Lemma undo_now : forall f c, length f < R -> c < C ->
  undo_trim (upd (now (f ++ [c])) (length f) (nth (length f) (now f) [])) (snd (trimmed f c)) = now f.
Proof.
  intros f c L CC. destruct (trim_ok R C (now f) P G (length f) c (tab_wf _ _ _)) as [X1 [X2 X3]].
  fold (trimmed f c) in X1, X2, X3.
  assert (WU : wfm R C (upd (now (f ++ [c])) (length f) (nth (length f) (now f) []))).
  { apply upd_wf; [apply tab_wf|]. apply (tab_wf R C (cut f)). exact L. }
  destruct (undo_trim_ok R C (snd (trimmed f c)) _ WU) as [Y1 Y2].
  { intros [i j] H. apply X3 in H. cbn. lia. }
  apply (mat_ext R C); [exact Y1|apply tab_wf|]. intros i j I J. rewrite Y2 by assumption.
  rewrite (get_upd R C) by (try exact L; apply tab_wf).
  destruct (Nat.eqb_spec i (length f)) as [->|NE].
  - assert (E : inb (length f, j) (snd (trimmed f c)) = false).
    { destruct (inb _ _) eqn:E; [|reflexivity]. apply inb_In, X3 in E. lia. }
    rewrite E, orb_false_r. reflexivity.
  - unfold now at 1. rewrite get_tab by assumption. unfold now. rewrite get_tab by assumption.
    assert (EI : inb (i, j) (snd (trimmed f c)) = Nat.ltb (length f) i && get P (length f) i && negb (get G c j) && cut f i j).
    { apply eq_true_iff_eq. rewrite inb_In, X3. unfold now. rewrite get_tab by assumption.
      rewrite !andb_true_iff, Nat.ltb_lt, negb_true_iff. intuition lia. }
    rewrite EI. unfold cut. rewrite app_length. cbn [length]. destruct (Nat.ltb_spec i (length f)).
    + rewrite (proj2 (Nat.ltb_lt i (length f + 1))) by lia. rewrite (proj2 (Nat.ltb_ge (length f) i)) by lia.
      cbn [andb]. rewrite orb_false_r, app_nth1 by lia. reflexivity.
    + rewrite (proj2 (Nat.ltb_ge i (length f + 1))) by lia. rewrite (proj2 (Nat.ltb_lt (length f) i)) by lia.
      rewrite allow_snoc. destruct (get M0 i j), (allow f i j), (get P (length f) i), (get G c j); reflexivity.
Qed.

Lemma taken_snoc : forall f c, c < C -> upd (taken f) c true = taken (f ++ [c]).
Proof.
  intros f c H. apply (list_ext _ false).
  - rewrite upd_length. unfold taken. rewrite !map_length. reflexivity.
  - intros j J. rewrite upd_length in J. unfold taken in J. rewrite map_length, seq_length in J.
    rewrite nth_upd by (unfold taken; rewrite map_length, seq_length; exact H).
    unfold taken. rewrite !nth_map_seq by exact J. rewrite existsb_app. cbn [existsb].
    destruct (Nat.eqb j c); [rewrite orb_true_r; reflexivity|]. rewrite !orb_false_r. reflexivity.
Qed.

Lemma taken_back : forall f c, c < C -> ~ In c f -> upd (taken (f ++ [c])) c false = taken f.
Proof.
  intros f c H N. apply (list_ext _ false).
  - rewrite upd_length. unfold taken. rewrite !map_length. reflexivity.
  - intros j J. rewrite upd_length in J. unfold taken in J. rewrite map_length, seq_length in J.
    rewrite nth_upd by (unfold taken; rewrite map_length, seq_length; exact H).
    unfold taken. rewrite !nth_map_seq by exact J. rewrite existsb_app. cbn [existsb].
    destruct (Nat.eqb_spec j c) as [->|NE]; [|rewrite !orb_false_r; reflexivity].
    destruct (existsb (Nat.eqb c) f) eqn:E; [|reflexivity]. exfalso. apply N.
    apply existsb_exists in E as [x [X E]]. apply Nat.eqb_eq in E. subst. exact X.
Qed.

Lemma nodup_snoc : forall (f : list nat) c, NoDup f -> ~ In c f -> NoDup (f ++ [c]).
Proof.
  induction f as [|x f IH]; intros c N I; cbn; [constructor; [tauto|constructor]|].
  inversion N as [|? ? N1 N2]; subst. constructor.
  - rewrite in_app_iff. intros [H|[H|[]]]; [contradiction|]. subst. apply I. left. reflexivity.
  - apply IH; [exact N2|]. intros H. apply I. right. exact H.
Qed.

(* A state whose decisions are f. *)
Definition holds (f : list nat) (row : nat) (s : search) : Prop :=
  s_row s = row /\ s_iso s = now f /\ s_used s = taken f /\ s_needle s = P /\ s_haystack s = G
  /\ length (s_cols s) = R /\ length (s_set s) = S R /\ length (s_changes s) = R /\ length (s_copy s) = R
  /\ length f <= R /\ NoDup f /\ (forall c, In c f -> c < C)
  /\ (forall k, k < length f ->
        nth k (s_cols s) 0 = nth k f 0 /\ nth k (s_set s) false = true
        /\ nth k (s_changes s) [] = snd (trimmed (firstn k f) (nth k f 0))
        /\ nth k (s_copy s) [] = nth k (now (firstn k f)) [])
  /\ (forall k, length f <= k < R -> nth k (s_set s) false = false).

Definition candidate (f : list nat) (c : nat) : bool := cut f (length f) c && negb (existsb (Nat.eqb c) f).

Lemma next_col_spec : forall f n start, length f < R -> start + n = C ->
  match next_col (taken f) (nth (length f) (now f) []) start n with
  | Some c => start <= c < C /\ candidate f c = true /\ forall d, start <= d < c -> candidate f d = false
  | None => forall d, start <= d < C -> candidate f d = false
  end.
Proof.
  intros f. induction n as [|n IH]; intros start L E; cbn [next_col]; [intros d D; lia|].
  assert (S0 : start < C) by lia.
  assert (E1 : nth start (taken f) false = existsb (Nat.eqb start) f) by (unfold taken; rewrite nth_map_seq by exact S0; reflexivity).
  assert (E2 : nth start (nth (length f) (now f) []) false = cut f (length f) start) by (apply (get_tab R C); assumption).
  rewrite E1, E2.
  assert (CE : existsb (Nat.eqb start) f || negb (cut f (length f) start) = negb (candidate f start)).
  { unfold candidate. destruct (existsb _ f), (cut f (length f) start); reflexivity. }
  rewrite CE. destruct (candidate f start) eqn:EC; cbn [negb].
  - split; [lia|]. split; [exact EC|]. intros d D. lia.
  - specialize (IH (S start) L ltac:(lia)). destruct (next_col _ _ _ _) as [c|].
    + destruct IH as [A [B D]]. split; [lia|]. split; [exact B|]. intros d H.
      destruct (Nat.eq_dec d start); [subst; exact EC|]. apply D. lia.
    + intros d H. destruct (Nat.eq_dec d start); [subst; exact EC|]. apply IH. lia.
Qed.

(* --- runs ------------------------------------------------------------------------------------------ *)

(* From s to s', the matrices found on the way. *)
Inductive run : search -> list mat -> search -> Prop :=
| run_refl : forall s, run s [] s
| run_go : forall s s1 l s2, step R C s = Go s1 -> run s1 l s2 -> run s l s2
| run_found : forall s m s1 l s2, step R C s = Found m s1 -> run s1 l s2 -> run s (m :: l) s2.

Lemma run_trans : forall a l b m c, run a l b -> run b m c -> run a (l ++ m) c.
Proof. intros a l b m c H. induction H; intros K; cbn; [exact K|eapply run_go; eauto|eapply run_found; eauto]. Qed.

(* The embeddings that extend f, from column start on; fuel rows remain. *)
Fixpoint found (fuel : nat) (f : list nat) : list (list nat) :=
  match fuel with
  | O => if is_match R C (now f) P G then [f] else []
  | S k => flat_map (fun c => if candidate f c then found k (f ++ [c]) else []) (seq 0 C)
  end.

Definition from (k : nat) (f : list nat) (start : nat) : list (list nat) :=
  flat_map (fun c => if candidate f c then found k (f ++ [c]) else []) (seq start (C - start)).

Lemma from_skip : forall k f start c, start <= c < C -> candidate f c = true ->
  (forall d, start <= d < c -> candidate f d = false) -> from k f start = found k (f ++ [c]) ++ from k f (S c).
Proof.
  intros k f start c H K N. unfold from. replace (C - start) with ((c - start) + (C - c)) by lia.
  rewrite seq_app, flat_map_app. replace (start + (c - start)) with c by lia.
  replace (C - c) with (S (C - S c)) by lia. cbn [seq flat_map]. rewrite K.
  assert (E : flat_map (fun c0 => if candidate f c0 then found k (f ++ [c0]) else []) (seq start (c - start)) = []).
  { assert (A : forall l, (forall d, In d l -> candidate f d = false) ->
      flat_map (fun c0 => if candidate f c0 then found k (f ++ [c0]) else []) l = []).
    { induction l as [|d l IH]; intros H'; [reflexivity|]. cbn. rewrite (H' d (or_introl eq_refl)). apply IH.
      intros e E. apply H'. right. exact E. }
    apply A. intros d D. apply in_seq in D. apply N. lia. }
  rewrite E. reflexivity.
Qed.

Lemma from_none : forall k f start, (forall d, start <= d < C -> candidate f d = false) -> from k f start = [].
Proof.
  intros k f start N. unfold from.
  assert (A : forall l, (forall d, In d l -> candidate f d = false) ->
    flat_map (fun c0 => if candidate f c0 then found k (f ++ [c0]) else []) l = []).
  { induction l as [|d l IH]; intros H'; [reflexivity|]. cbn. rewrite (H' d (or_introl eq_refl)). apply IH.
    intros e E. apply H'. right. exact E. }
  apply A. intros d D. apply in_seq in D. apply N. lia.
Qed.

Lemma candidate_spec : forall f c, candidate f c = true -> ~ In c f.
Proof.
  intros f c H I. unfold candidate in H. apply andb_true_iff in H as [_ H]. apply negb_true_iff in H.
  assert (existsb (Nat.eqb c) f = true); [|congruence]. apply existsb_exists. exists c. split; [exact I|apply Nat.eqb_refl].
Qed.

(* One search for a column. *)
Lemma advance_ok : forall f s start, holds f (length f) s -> nth R (s_set s) false = false -> length f < R -> start <= C ->
  match next_col (taken f) (nth (length f) (now f) []) start (C - start) with
  | Some c => exists s', advance R C s start = Go s' /\ holds (f ++ [c]) (length (f ++ [c])) s' /\ nth R (s_set s') false = false
  | None =>
      match f with
      | [] => advance R C s start = Exhausted s
      | _ => exists s', advance R C s start = Go s' /\ holds f (length f - 1) s' /\ nth R (s_set s') false = false
      end
  end.
Proof.
  intros f s start [H1 [H2 [H3 [H4 [H5 [H6 [H7 [H8 [H9 [H10 [H11 [H12 [H13 H14]]]]]]]]]]]]] HR L SC.
  assert (NC := next_col_spec f (C - start) start L ltac:(lia)).
  unfold advance. rewrite H1, H2, H3, H4, H5.
  destruct (next_col (taken f) (nth (length f) (now f) []) start (C - start)) as [c|].
  - destruct NC as [[C1 C2] [C3 _]]. apply candidate_spec in C3.
    fold (trimmed f c). destruct (pick_now f c (s_copy s) L C2) as [PN1 PN2].
    destruct (trimmed f c) as [m1 ch] eqn:ET. cbn [fst] in PN1, PN2. unfold pick in *. cbn [fst] in PN1.
    eexists. split; [reflexivity|]. cbn [s_set]. split.
    + split; [cbn; rewrite app_length; cbn; lia|]. split; [exact PN1|]. split; [cbn [s_used]; apply taken_snoc; exact C2|].
      split; [reflexivity|]. split; [reflexivity|]. cbn [s_cols s_set s_changes s_copy].
      split; [rewrite upd_length; exact H6|]. split; [rewrite upd_length; exact H7|].
      split; [rewrite upd_length; exact H8|]. split; [rewrite upd_length; exact H9|].
      split; [rewrite app_length; cbn; lia|].
      split; [apply nodup_snoc; assumption|].
      split; [intros d D; apply in_app_iff in D as [D|[<-|[]]]; [apply H12; exact D|exact C2]|].
      split.
      * intros k K. rewrite app_length in K. cbn [length] in K.
        rewrite !nth_upd by lia. destruct (Nat.eqb_spec k (length f)) as [->|NE].
        -- rewrite app_nth2, Nat.sub_diag by lia. cbn [nth]. rewrite firstn_app, Nat.sub_diag, firstn_all, firstn_O, app_nil_r.
           rewrite ET. repeat split; try reflexivity. exact PN2.
        -- rewrite app_nth1 by lia. rewrite firstn_app. replace (k - length f) with 0 by lia. rewrite firstn_O, app_nil_r.
           apply H13. lia.
      * intros k K. rewrite app_length in K. cbn [length] in K. rewrite nth_upd by lia.
        destruct (Nat.eqb_spec k (length f)); [lia|]. apply H14. lia.
    + rewrite nth_upd by lia. destruct (Nat.eqb_spec R (length f)); [lia|exact HR].
  - destruct f as [|c0 f0]; [reflexivity|]. eexists. split; [reflexivity|]. split; [|exact HR].
    cbn [length Nat.sub]. rewrite Nat.sub_0_r.
    repeat (split; [first [reflexivity|assumption]|]). assumption.
Qed.

(* The step at a row that is set: undo, then the next column. *)
Lemma redo_ok : forall f c s, holds (f ++ [c]) (length f) s -> nth R (s_set s) false = false ->
  exists s1, holds f (length f) s1 /\ nth R (s_set s1) false = false /\ step R C s = advance R C s1 (S c) /\ c < C /\ length f < R.
Proof.
  intros f c s [H1 [H2 [H3 [H4 [H5 [H6 [H7 [H8 [H9 [H10 [H11 [H12 [H13 H14]]]]]]]]]]]]] HR.
  rewrite app_length in H10, H13, H14. cbn [length] in H10, H13, H14.
  assert (L : length f < R) by lia. assert (CC : c < C) by (apply H12, in_or_app; right; left; reflexivity).
  destruct (H13 (length f) ltac:(lia)) as [K1 [K2 [K3 K4]]].
  rewrite app_nth2, Nat.sub_diag in K1, K3 by lia. cbn [nth] in K1, K3.
  rewrite firstn_app, Nat.sub_diag, firstn_all, firstn_O, app_nil_r in K3, K4.
  unfold step. rewrite H1. destruct (Nat.eqb_spec (length f) R); [lia|]. rewrite K2. cbv zeta. rewrite K1, K3.
  eexists. split; [|split; [|split; [reflexivity|split; assumption]]]; cbn [s_set].
  - split; [reflexivity|]. split.
    { cbn [s_iso]. unfold undo_pick. rewrite H2, K4. apply undo_now; assumption. }
    assert (ND : NoDup f /\ ~ In c f).
    { split; [|]; apply NoDup_remove in H11; rewrite app_nil_r in H11; apply H11. }
    split; [cbn [s_used]; rewrite H3; apply taken_back; tauto|]. split; [exact H4|]. split; [exact H5|].
    cbn [s_cols s_set s_changes s_copy]. split; [exact H6|]. split; [rewrite upd_length; exact H7|].
    split; [exact H8|]. split; [exact H9|]. split; [lia|]. split; [tauto|].
    split; [intros d D; apply H12, in_or_app; left; exact D|]. split.
    + intros k K. destruct (H13 k ltac:(lia)) as [A1 [A2 [A3 A4]]]. rewrite app_nth1 in A1, A3 by lia.
      rewrite firstn_app in A3, A4. replace (k - length f) with 0 in A3, A4 by lia. rewrite firstn_O, app_nil_r in A3, A4.
      rewrite nth_upd by lia. destruct (Nat.eqb_spec k (length f)); [lia|]. auto.
    + intros k K. rewrite nth_upd by lia. destruct (Nat.eqb_spec k (length f)); [reflexivity|]. apply H14. lia.
  - rewrite nth_upd by lia. destruct (Nat.eqb_spec R (length f)); [lia|exact HR].
Qed.

(* What is left behind when all below f is done. *)
Definition done (f : list nat) (s : search) : Prop :=
  nth R (s_set s) false = false /\
  match f with
  | [] => holds [] 0 s
  | _ => holds f (length f - 1) s
  end.

(* Below a node of the search tree.  For f = [] the run ends just before the step that finds
   nothing more. *)
Inductive finishes : list nat -> search -> list (list nat) -> search -> Prop :=
| fin_run : forall f s L s', f <> [] -> run s (map now L) s' -> done f s' -> finishes f s L s'
| fin_top : forall s L s1 s', run s (map now L) s1 -> step R C s1 = Exhausted s' -> done [] s' -> finishes [] s L s'.

Lemma fin_after : forall f s l s1 m s', run s (map now l) s1 -> finishes f s1 m s' -> finishes f s (l ++ m) s'.
Proof.
  intros f s l s1 m s' A B. destruct B as [f s1 m s' NE B D|s1 m s2 s' B X D].
  - apply fin_run; [exact NE| |exact D]. rewrite map_app. eapply run_trans; eassumption.
  - eapply fin_top; [|exact X|exact D]. rewrite map_app. eapply run_trans; eassumption.
Qed.

Lemma search_below : forall k f s, length f + k = R -> 0 < R -> holds f (length f) s -> nth R (s_set s) false = false ->
  exists s', finishes f s (found k f) s'.
Proof.
  induction k as [|k IH]; intros f s EL RP H HR.
  - (* the bottom *)
    assert (LF : length f = R) by lia. cbn [found].
    assert (NE : f <> []) by (intros ->; cbn in LF; lia).
    assert (HR0 := H).
    destruct H as [H1 [H2 [H3 [H4 [H5 [H6 [H7 [H8 [H9 [H10 [H11 [H12 [H13 H14]]]]]]]]]]]]].
    assert (FIN : forall st, length st = S R -> (forall k, k < R -> nth k st false = nth k (s_set s) false) ->
      forall st', length st' = S R -> (forall k, k < R -> nth k st' false = nth k st false) -> nth R st' false = false ->
      done f (Search (R - 1) (s_cols s) st' (s_used s) (s_changes s) (s_copy s) (s_iso s) (s_needle s) (s_haystack s))).
    { intros st L1 Q1 st' L2 Q2 Q3. split; [exact Q3|]. destruct f as [|c0 f0] eqn:EF; [congruence|]. rewrite <- EF in *.
      rewrite LF. split; [reflexivity|]. repeat (split; [first [reflexivity|assumption]|]). split.
      - intros k K. cbn [s_set s_cols s_changes s_copy]. rewrite Q2, Q1 by lia. apply H13. exact K.
      - intros k K. lia. }
    destruct (is_match R C (now f) P G) eqn:EM.
    + set (s1 := Search (s_row s) (s_cols s) (upd (s_set s) R true) (s_used s) (s_changes s) (s_copy s) (s_iso s) (s_needle s) (s_haystack s)).
      assert (ST : step R C s = Found (now f) s1).
      { unfold step. rewrite H1, LF, Nat.eqb_refl, HR, H2, H4, H5, EM. cbn [negb andb].
        unfold s1. rewrite H1, LF, H2, H4, H5. reflexivity. }
      assert (S1R : nth R (s_set s1) false = true) by (cbn [s1 s_set]; rewrite nth_upd, Nat.eqb_refl by lia; reflexivity).
      eexists. apply fin_run; [exact NE| |].
      * cbn [map]. eapply run_found; [exact ST|]. eapply run_go; [|apply run_refl].
        unfold step. cbn [s1 s_row]. rewrite H1, LF, Nat.eqb_refl. rewrite S1R. cbn [negb andb]. reflexivity.
      * cbn [s1 s_set s_cols s_used s_changes s_copy s_iso s_needle s_haystack].
        eapply (FIN (upd (s_set s) R true)).
        -- rewrite upd_length. exact H7.
        -- intros k K. rewrite nth_upd by lia. destruct (Nat.eqb_spec k R); [lia|reflexivity].
        -- rewrite !upd_length. exact H7.
        -- intros k K. rewrite nth_upd by (rewrite upd_length; lia). destruct (Nat.eqb_spec k R); [lia|reflexivity].
        -- rewrite nth_upd, Nat.eqb_refl by (rewrite upd_length; lia). reflexivity.
    + eexists. apply fin_run; [exact NE| |].
      * cbn [map]. eapply run_go; [|apply run_refl].
        unfold step. rewrite H1, LF, Nat.eqb_refl, HR. cbn [negb andb]. rewrite H2, H4, H5, EM. rewrite <- H2, <- H4, <- H5. reflexivity.
      * eapply (FIN (s_set s)); try exact H7; try reflexivity.
        -- rewrite upd_length. exact H7.
        -- intros k K. rewrite nth_upd by lia. destruct (Nat.eqb_spec k R); [lia|reflexivity].
        -- rewrite nth_upd, Nat.eqb_refl by lia. reflexivity.
  - (* a row *)
    assert (L : length f < R) by lia.
    assert (COL : forall n start s, C - start <= n -> start <= C -> holds f (length f) s -> nth R (s_set s) false = false ->
      forall s0, step R C s0 = advance R C s start -> exists s', finishes f s0 (from k f start) s').
    { clear s H HR. induction n as [|n IHn]; intros start s N SC H HR s0 ST.
      - assert (A := advance_ok f s start H HR L SC). replace (C - start) with 0 in A by lia. cbn [next_col] in A.
        rewrite from_none by (intros d D; lia). destruct f as [|c0 f0] eqn:EF.
        + exists s. eapply fin_top; [apply run_refl|rewrite ST; exact A|]. split; [exact HR|exact H].
        + rewrite <- EF in *. destruct A as [s' [A1 [A2 A3]]]. exists s'. apply fin_run; [subst; discriminate| |].
          * eapply run_go; [rewrite ST; exact A1|apply run_refl].
          * split; [exact A3|]. subst f. exact A2.
      - assert (A := advance_ok f s start H HR L SC). assert (NC := next_col_spec f (C - start) start L ltac:(lia)).
        destruct (next_col (taken f) (nth (length f) (now f) []) start (C - start)) as [c|].
        + destruct NC as [[C1 C2] [C3 C4]]. destruct A as [s1 [A1 [A2 A3]]].
          rewrite (from_skip k f start c) by (try assumption; lia).
          destruct (IH (f ++ [c]) s1) as [s2 F2]; [rewrite app_length; cbn; lia|exact RP|exact A2|exact A3|].
          inversion F2 as [f' s1' L' s2' NE RUN D|]; subst; [|destruct f; discriminate].
          assert (DD : nth R (s_set s2) false = false /\ holds (f ++ [c]) (length f) s2).
          { destruct D as [D1 D2]. split; [exact D1|]. destruct (f ++ [c]) as [|x y] eqn:EA; [destruct f; discriminate|].
            rewrite <- EA in *. replace (length f) with (length (f ++ [c]) - 1) by (rewrite app_length; cbn; lia). exact D2. }
          destruct DD as [D1 D2]. destruct (redo_ok f c s2 D2 D1) as [s3 [R1 [R2 [R3 _]]]].
          destruct (IHn (S c) s3 ltac:(lia) ltac:(lia) R1 R2 s2 R3) as [s4 F4].
          exists s4. eapply fin_after; [|exact F4]. eapply run_go; [rewrite ST; exact A1|exact RUN].
        + rewrite from_none by exact NC. destruct f as [|c0 f0] eqn:EF.
          * exists s. eapply fin_top; [apply run_refl|rewrite ST; exact A|]. split; [exact HR|exact H].
          * rewrite <- EF in *. destruct A as [s' [A1 [A2 A3]]]. exists s'. apply fin_run; [subst; discriminate| |].
            -- eapply run_go; [rewrite ST; exact A1|apply run_refl].
            -- split; [exact A3|]. subst f. exact A2. }
    assert (E : found (S k) f = from k f 0) by (unfold from; rewrite Nat.sub_0_r; reflexivity). rewrite E.
    apply (COL C 0 s); try assumption; try lia.
    unfold step. destruct H as [H1 [_ [_ [_ [_ [_ [_ [_ [_ [_ [_ [_ [_ H14]]]]]]]]]]]]].
    rewrite H1. destruct (Nat.eqb_spec (length f) R); [lia|]. rewrite H14 by lia. reflexivity.
Qed.

(* --- what is found ----------------------------------------------------------------------------- *)

Lemma found_nodup : forall k f, NoDup (found k f) /\ forall g, In g (found k f) -> exists t, g = f ++ t.
Proof.
  induction k as [|k IH]; intros f; cbn [found].
  - destruct (is_match R C (now f) P G); (split; [repeat constructor; auto|]); intros g H; [|destruct H].
    destruct H as [<-|[]]. exists []. rewrite app_nil_r. reflexivity.
  - split.
    + generalize (seq_NoDup C 0). generalize (seq 0 C). induction l as [|c l IHl]; intros N; cbn [flat_map]; [constructor|].
      inversion N as [|? ? N1 N2]; subst. specialize (IHl N2). destruct (candidate f c); [|exact IHl].
      destruct (IH (f ++ [c])) as [A B]. revert A B. generalize (found k (f ++ [c])).
      induction l0 as [|x l0 IHx]; intros A B; cbn [app]; [exact IHl|]. inversion A as [|? ? A1 A2]; subst. constructor.
      * rewrite in_app_iff. intros [I|I]; [contradiction|]. apply in_flat_map in I as [d [D1 D2]].
        destruct (candidate f d); [|destruct D2]. destruct (IH (f ++ [d])) as [_ B'].
        destruct (B' x D2) as [t E1]. destruct (B x (or_introl eq_refl)) as [t' E2]. rewrite E1 in E2.
        rewrite <- !app_assoc in E2. apply app_inv_head in E2. injection E2 as E2 _. subst. contradiction.
      * apply IHx; [exact A2|]. intros g Q. apply B. right. exact Q.
    + intros g H. apply in_flat_map in H as [c [_ H]]. destruct (candidate f c); [|destruct H].
      destruct (IH (f ++ [c])) as [_ B]. destruct (B g H) as [t ->]. exists (c :: t). rewrite <- app_assoc. reflexivity.
Qed.

Hypothesis PS : forall i j, i < R -> j < R -> get P i j = get P j i.

Definition emb (f : list nat) : Prop :=
  embedding R C (fun i j => get M0 i j = true) (fun i j => get P i j = true) (fun i j => get G i j = true) f.

Lemma now_full : forall f i j, length f = R -> i < R -> j < C -> get (now f) i j = Nat.eqb j (nth i f 0).
Proof.
  intros f i j L I J. unfold now. rewrite get_tab by assumption. unfold cut.
  rewrite (proj2 (Nat.ltb_lt _ _)) by lia. reflexivity.
Qed.

Lemma iso_full : forall f, length f = R -> (forall i, i < R -> nth i f 0 < C) ->
  is_isomorphism R C (now f) P G = true <->
  (forall i j, i < R -> j < R -> get P i j = true -> get G (nth j f 0) (nth i f 0) = true).
Proof.
  intros f L B. unfold is_isomorphism. rewrite forallb_forall. split.
  - intros H i j I J E. assert (HI := H i ltac:(apply in_seq; lia)). rewrite forallb_forall in HI.
    assert (HJ := HI j ltac:(apply in_seq; lia)). cbv zeta in HJ. rewrite E in HJ. cbn [andb] in HJ.
    rewrite negb_involutive in HJ. apply existsb_exists in HJ as [k [K HJ]]. apply in_seq in K.
    apply andb_true_iff in HJ as [HK HJ]. rewrite now_full in HK by (try assumption; lia). apply Nat.eqb_eq in HK.
    apply existsb_exists in HJ as [l [LL HJ]]. apply in_seq in LL. apply andb_true_iff in HJ as [HL HJ].
    rewrite now_full in HL by (try assumption; lia). apply Nat.eqb_eq in HL. subst. exact HJ.
  - intros H i I. apply in_seq in I. apply forallb_forall. intros j J. apply in_seq in J. cbv zeta.
    destruct (get P i j) eqn:E; [|reflexivity]. cbn [andb]. rewrite negb_involutive. apply existsb_exists.
    exists (nth i f 0). split; [apply in_seq; specialize (B i ltac:(lia)); lia|].
    rewrite now_full, Nat.eqb_refl by (try assumption; try lia; apply B; lia). cbn [andb]. apply existsb_exists.
    exists (nth j f 0). split; [apply in_seq; specialize (B j ltac:(lia)); lia|].
    rewrite now_full, Nat.eqb_refl by (try assumption; try lia; apply B; lia). cbn [andb]. apply H; try lia. exact E.
Qed.

(* is_single says yes to a matrix with one entry in each row, in different columns. *)
Lemma scan_unit : forall n c j seen used, seen = false ->
  scan_row (map (fun x => Nat.eqb x c) (seq j n)) j seen used
  = if Nat.leb j c && Nat.ltb c (j + n) then if nth c used false then None else Some (upd used c true) else Some used.
Proof.
  assert (T : forall n c j used, c < j -> scan_row (map (fun x => Nat.eqb x c) (seq j n)) j true used = Some used).
  { induction n as [|n IH]; intros c j used H; [reflexivity|]. cbn [seq map scan_row].
    destruct (Nat.eqb_spec j c); [lia|]. apply IH. lia. }
  induction n as [|n IH]; intros c j seen used ->; cbn [seq map scan_row].
  - destruct (Nat.leb_spec j c), (Nat.ltb_spec c (j + 0)); cbn [andb]; try lia; reflexivity.
  - destruct (Nat.eqb_spec j c) as [->|NE].
    + rewrite Nat.leb_refl. destruct (Nat.ltb_spec c (c + S n)); [|lia]. cbn [andb orb].
      destruct (nth c used false); [reflexivity|]. apply T. lia.
    + rewrite IH by reflexivity. destruct (Nat.leb_spec j c), (Nat.leb_spec (S j) c), (Nat.ltb_spec c (j + S n)),
        (Nat.ltb_spec c (S j + n)); cbn [andb]; try lia; reflexivity.
Qed.

Lemma single_rows : forall cs used, (forall c, In c cs -> c < C) -> NoDup cs -> length used = C ->
  (forall c, In c cs -> nth c used false = false) ->
  scan_rows (map (fun c => map (fun x => Nat.eqb x c) (seq 0 C)) cs) used = true.
Proof.
  induction cs as [|c cs IH]; intros used B N L U; [reflexivity|]. cbn [map scan_rows].
  inversion N as [|? ? N1 N2]; subst. rewrite scan_unit by reflexivity. cbn [Nat.leb andb plus].
  rewrite (proj2 (Nat.ltb_lt _ _)) by (apply B; left; reflexivity). rewrite (U c (or_introl eq_refl)).
  apply IH; try assumption.
  - intros d D. apply B. right. exact D.
  - rewrite upd_length. reflexivity.
  - intros d D. rewrite nth_upd by (apply B; left; reflexivity). destruct (Nat.eqb_spec d c); [subst; contradiction|].
    apply U. right. exact D.
Qed.

Lemma single_full : forall f, length f = R -> (forall c, In c f -> c < C) -> NoDup f -> is_single C (now f) = true.
Proof.
  intros f L B N. unfold is_single.
  assert (E : now f = map (fun c => map (fun x => Nat.eqb x c) (seq 0 C)) f).
  { unfold now, tab. transitivity (map (fun i => map (fun x => Nat.eqb x (nth i f 0)) (seq 0 C)) (seq 0 R)).
    - apply map_ext_in. intros i I. apply in_seq in I. apply map_ext_in. intros j J. unfold cut.
      rewrite (proj2 (Nat.ltb_lt _ _)) by lia. reflexivity.
    - rewrite <- (map_map (fun i => nth i f 0) (fun c => map (fun x => Nat.eqb x c) (seq 0 C))). f_equal.
      rewrite <- L. clear. apply (list_ext _ 0); [rewrite map_length, seq_length; reflexivity|].
      intros i I. rewrite map_length, seq_length in I. rewrite nth_map_seq by exact I. reflexivity. }
  rewrite E. apply single_rows; try assumption.
  - apply repeat_length.
  - intros c _. apply nth_repeat.
Qed.

Lemma allow_ok : forall f c t, emb (f ++ c :: t) -> candidate f c = true.
Proof.
  intros f c t [L [N [B E]]]. rewrite app_length in L. cbn [length] in L.
  assert (Q : nth (length f) (f ++ c :: t) 0 = c) by (rewrite app_nth2, Nat.sub_diag by lia; reflexivity).
  destruct (B (length f) ltac:(lia)) as [B1 B2]. rewrite Q in B1, B2.
  unfold candidate, cut. rewrite Nat.ltb_irrefl, B2. cbn [andb]. apply andb_true_iff. split.
  - unfold allow. apply forallb_forall. intros k K. apply in_seq in K. destruct (get P k (length f)) eqn:EP; [|reflexivity].
    assert (X := E k (length f) ltac:(lia) ltac:(lia) EP). cbv beta in X. rewrite Q, app_nth1 in X by lia. rewrite X. reflexivity.
  - apply negb_true_iff. destruct (existsb (Nat.eqb c) f) eqn:EX; [|reflexivity]. exfalso.
    apply existsb_exists in EX as [x [X1 X2]]. apply Nat.eqb_eq in X2. subst x.
    apply NoDup_remove_2 in N. apply N. apply in_or_app. left. exact X1.
Qed.

Lemma found_complete : forall k f t, length f + k = R -> length t = k -> emb (f ++ t) -> In (f ++ t) (found k f).
Proof.
  induction k as [|k IH]; intros f t L T E.
  - destruct t; [|discriminate]. rewrite app_nil_r in *. cbn [found]. destruct E as [E1 [E2 [E3 E4]]].
    assert (M : is_match R C (now f) P G = true).
    { unfold is_match. rewrite single_full; [|exact E1| |exact E2].
      - cbn [andb]. apply iso_full; [exact E1|intros i I; apply E3; exact I|]. intros i j I J H.
        apply E4; try assumption. rewrite PS by assumption. exact H.
      - intros c H. apply In_nth with (d := 0) in H as [i [I <-]]. rewrite E1 in I. apply E3. exact I. }
    rewrite M. left. reflexivity.
  - destruct t as [|c t]; [discriminate|]. cbn [found]. apply in_flat_map. exists c.
    assert (CC : c < C).
    { destruct E as [E1 [_ [E3 _]]]. destruct (E3 (length f) ltac:(lia)) as [X _].
      rewrite app_nth2, Nat.sub_diag in X by lia. exact X. }
    split; [apply in_seq; lia|]. rewrite (allow_ok f c t E).
    replace (f ++ c :: t) with ((f ++ [c]) ++ t) in * by (rewrite <- app_assoc; reflexivity).
    apply IH; [rewrite app_length; cbn; lia|cbn in T; lia|exact E].
Qed.

Lemma found_sound : forall k f, length f + k = R -> NoDup f -> (forall i, i < length f -> nth i f 0 < C /\ get M0 i (nth i f 0) = true) ->
  forall g, In g (found k f) -> emb g.
Proof.
  induction k as [|k IH]; intros f L N B g H; cbn [found] in H.
  - destruct (is_match R C (now f) P G) eqn:M; [|destruct H]. destruct H as [<-|[]].
    assert (LF : length f = R) by lia. rewrite LF in B.
    unfold is_match in M. apply andb_true_iff in M as [_ M].
    assert (M' := proj1 (iso_full f LF (fun i I => proj1 (B i I))) M). clear M. rename M' into M.
    split; [exact LF|]. split; [exact N|]. split; [exact B|]. intros i j I J E. apply M; try assumption.
    rewrite PS by assumption. exact E.
  - apply in_flat_map in H as [c [C1 H]]. apply in_seq in C1. destruct (candidate f c) eqn:EC; [|destruct H].
    apply (IH (f ++ [c])); [rewrite app_length; cbn; lia| | |exact H].
    + apply nodup_snoc; [exact N|]. apply candidate_spec. exact EC.
    + intros i I. rewrite app_length in I. cbn [length] in I. destruct (Nat.eq_dec i (length f)) as [->|NE].
      * rewrite app_nth2, Nat.sub_diag by lia. cbn [nth]. split; [lia|].
        unfold candidate, cut in EC. rewrite Nat.ltb_irrefl in EC. apply andb_true_iff in EC as [EC _].
        apply andb_true_iff in EC. tauto.
      * rewrite app_nth1 by lia. apply B. lia.
Qed.

(* --- calls ------------------------------------------------------------------------------------- *)

Lemma lazy_more : forall a b s r, lazy_search a R C s = Some r -> a <= b -> lazy_search b R C s = Some r.
Proof.
  induction a as [|a IH]; intros [|b] s r E L; cbn [lazy_search] in *; try discriminate; try lia.
  destruct (step R C s); try exact E. apply IH; [exact E|lia].
Qed.

Lemma step_more : forall a b s r, search_step a R C s = Some r -> a <= b -> search_step b R C s = Some r.
Proof.
  intros a b s r E L. unfold search_step in *. destruct (lazy_search a R C s) as [x|] eqn:EL; [|discriminate].
  rewrite (lazy_more a b s x EL L). exact E.
Qed.

Lemma steps_more : forall n a b s r, search_steps a R C n s = Some r -> a <= b -> search_steps b R C n s = Some r.
Proof.
  induction n as [|n IH]; intros a b s r E L; cbn [search_steps] in *; [exact E|].
  destruct (search_step a R C s) as [[x s']|] eqn:ES; [|discriminate]. rewrite (step_more a b s _ ES L).
  destruct (search_steps a R C n s') as [l|] eqn:EN; [|discriminate]. rewrite (IH a b s' l EN L). exact E.
Qed.

Lemma lazy_go : forall s s1 k, step R C s = Go s1 -> lazy_search (S k) R C s = lazy_search k R C s1.
Proof. intros s s1 k E. cbn [lazy_search]. rewrite E. reflexivity. Qed.

(* A run that ends in a state without further matches, followed by n calls from there. *)
Lemma steps_run : forall s l s1, run s l s1 -> forall s2 n rest, step R C s1 = Exhausted s2 ->
  (exists fuel, search_steps fuel R C n s2 = Some rest) ->
  exists fuel, search_steps fuel R C (length l + S n) s = Some (map answer l ++ [] :: rest).
Proof.
  intros s l s1 H. induction H as [s|s s1 l s2 E H IH|s m s1 l s2 E H IH]; intros s3 n rest EX ER.
  - destruct ER as [fuel F]. exists (S fuel). cbn [length plus search_steps map app].
    unfold search_step. cbn [lazy_search]. rewrite EX. rewrite (steps_more n fuel (S fuel) s3 rest F) by lia. reflexivity.
  - destruct (IH s3 n rest EX ER) as [fuel F]. exists (S fuel).
    rewrite Nat.add_succ_r in F |- *. cbn [search_steps] in F |- *. unfold search_step in F |- *. rewrite (lazy_go s s1 fuel E).
    destruct (lazy_search fuel R C s1) as [[[m|] s4]|]; try discriminate.
    + destruct (search_steps fuel R C (length l + n) s4) eqn:EN; [|discriminate].
      rewrite (steps_more _ fuel (S fuel) s4 _ EN) by lia. exact F.
    + destruct (search_steps fuel R C (length l + n) s4) eqn:EN; [|discriminate].
      rewrite (steps_more _ fuel (S fuel) s4 _ EN) by lia. exact F.
  - destruct (IH s3 n rest EX ER) as [fuel F]. exists (S fuel). cbn [length plus search_steps map app].
    unfold search_step. cbn [lazy_search]. rewrite E. rewrite (steps_more _ fuel (S fuel) s1 _ F) by lia. reflexivity.
Qed.

Lemma answer_now : forall f, length f = R -> (forall i, i < R -> nth i f 0 < C) -> answer (now f) = pairs f.
Proof.
  intros f L B. unfold answer, pairs.
  assert (LN : length (now f) = R) by apply (tab_wf R C (cut f)). rewrite LN, L.
  apply (list_ext _ (0, 0)).
  - rewrite map_length, combine_length, seq_length. lia.
  - intros i I. rewrite map_length, seq_length in I. rewrite nth_map_seq by exact I.
    rewrite combine_nth by (rewrite seq_length; lia). rewrite seq_nth by exact I. f_equal. cbn [plus].
    assert (BI := B i I). unfold now, tab. rewrite nth_map_seq by exact I.
    assert (E : map (cut f i) (seq 0 C) = map (fun x => Nat.eqb x (nth i f 0)) (seq 0 C)).
    { apply map_ext. intros j. unfold cut. rewrite (proj2 (Nat.ltb_lt _ _)) by lia. reflexivity. }
    rewrite E. clear - BI. revert BI. generalize (nth i f 0) as c. intros c.
    assert (A : forall n j, j <= c < j + n -> first_true (map (fun x => Nat.eqb x c) (seq j n)) = c - j).
    { induction n as [|n IH]; intros j H; [lia|]. cbn [seq map first_true]. destruct (Nat.eqb_spec j c); [lia|].
      rewrite IH by lia. lia. }
    intros H. rewrite A by lia. lia.
Qed.

Lemma holds_init : wfm R C M0 -> holds [] 0 (init_search R C M0 P G).
Proof.
  intros _. split; [reflexivity|]. split.
  { cbn [init_search s_iso]. rewrite (tab_get R C M0 W0) at 1. apply tab_ext. intros i j _ _. unfold cut, allow.
    cbn. rewrite andb_true_r. reflexivity. }
  split.
  { cbn [init_search s_used]. unfold taken. apply (list_ext _ false).
    - rewrite repeat_length, map_length, seq_length. reflexivity.
    - intros j J. rewrite repeat_length in J. rewrite nth_repeat, nth_map_seq by exact J. reflexivity. }
  cbn [init_search s_needle s_haystack s_cols s_set s_changes s_copy].
  rewrite !repeat_length. unfold allocate_matrix. rewrite repeat_length. cbn [length].
  repeat (split; [first [reflexivity|lia|constructor|intros c []|intros k K; lia]|]).
  intros k K. apply nth_repeat.
Qed.

Definition all : list (list nat) := found R [].

Lemma all_ok : NoDup all /\ forall f, In f all <-> emb f.
Proof.
  split; [apply found_nodup|]. intros f. split.
  - apply found_sound; [reflexivity|constructor|]. intros i I. cbn in I. lia.
  - intros E. apply (found_complete R [] f); [reflexivity|apply E|exact E].
Qed.

Lemma rounds : 0 < R -> forall n s, holds [] 0 s -> nth R (s_set s) false = false ->
  exists fuel, search_steps fuel R C (n * S (length all)) s = Some (concat (repeat (map pairs all ++ [[]]) n)).
Proof.
  intros RP. induction n as [|n IH]; intros s H HR; [exists 0; reflexivity|].
  destruct (search_below R [] s eq_refl RP H HR) as [s' F].
  inversion F as [? ? ? ? NE|s0 L0 s1 s2 RUN EX D]; subst; [congruence|]. destruct D as [D1 D2].
  destruct (steps_run s _ s1 RUN s' (n * S (length all)) _ EX (IH s' D2 D1)) as [fuel Q].
  exists fuel. rewrite map_length in Q. replace (S n * S (length all)) with (length (found R []) + S (n * S (length all))).
  - rewrite Q. f_equal. cbn [repeat concat]. rewrite map_map, <- app_assoc. f_equal.
    apply map_ext_in. intros f I. apply all_ok in I. destruct I as [I1 [_ [I2 _]]]. apply answer_now; [exact I1|].
    intros i J. apply I2. exact J.
  - fold all. cbn [mult]. lia.
Qed.
End Search.
