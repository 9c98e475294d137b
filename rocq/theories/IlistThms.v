(* Proofs about index lists and vector names. *)
From Coq Require Import ZArith List Bool Ascii String Lia.
From Verif Require Import IlistModel IlistSpec.
Import ListNotations.
Open Scope Z_scope.

Local Notation length := List.length.

(* --- runs ----------------------------------------------------------------- *)

Lemma count_up_length : forall n a, length (count_up n a) = n.
Proof. induction n; intros a; cbn; [|rewrite IHn]; reflexivity. Qed.

Lemma count_down_length : forall n a, length (count_down n a) = n.
Proof. induction n; intros a; cbn; [|rewrite IHn]; reflexivity. Qed.

Lemma count_up_app : forall n m a, count_up (n + m) a = count_up n a ++ count_up m (a + Z.of_nat n).
Proof.
  induction n; intros m a; cbn [count_up plus app].
  - f_equal. lia.
  - rewrite IHn. do 3 f_equal. lia.
Qed.

Lemma count_down_app : forall n m a,
  count_down (n + m) a = count_down n a ++ count_down m (a - Z.of_nat n).
Proof.
  induction n; intros m a; cbn [count_down plus app].
  - f_equal. lia.
  - rewrite IHn. do 3 f_equal. lia.
Qed.

Lemma count_up_nth : forall n a k d, (k < n)%nat -> nth k (count_up n a) d = a + Z.of_nat k.
Proof.
  induction n; intros a k d H; [lia|]. destruct k; cbn [count_up nth]; [lia|].
  rewrite IHn by lia. lia.
Qed.

Lemma count_down_nth : forall n a k d, (k < n)%nat -> nth k (count_down n a) d = a - Z.of_nat k.
Proof.
  induction n; intros a k d H; [lia|]. destruct k; cbn [count_down nth]; [lia|].
  rewrite IHn by lia. lia.
Qed.

Lemma seq_up : forall n a k,
  map (fun i => a + Z.of_nat i) (seq k n) = count_up n (a + Z.of_nat k).
Proof.
  induction n; intros a k; [reflexivity|]. cbn [seq map count_up]. f_equal.
  rewrite IHn. f_equal. lia.
Qed.

Lemma seq_down : forall n a k,
  map (fun i => a - Z.of_nat i) (seq k n) = count_down n (a - Z.of_nat k).
Proof.
  induction n; intros a k; [reflexivity|]. cbn [seq map count_down]. f_equal.
  rewrite IHn. f_equal. lia.
Qed.

Lemma run_length : forall a b, length (run a b) = Z.to_nat (Z.abs (b - a) + 1).
Proof.
  intros a b. unfold run. destruct (Z.ltb_spec b a).
  - rewrite count_down_length. lia.
  - rewrite count_up_length. lia.
Qed.

Lemma run_up : forall a b, a <= b -> run a b = count_up (Z.to_nat (b - a + 1)) a.
Proof. intros a b H. unfold run. destruct (Z.ltb_spec b a); [lia|reflexivity]. Qed.

Lemma run_down : forall a b, b <= a -> run a b = count_down (Z.to_nat (a - b + 1)) a.
Proof.
  intros a b H. unfold run. destruct (Z.ltb_spec b a); [reflexivity|].
  assert (a = b) by lia. subst. rewrite Z.sub_diag. reflexivity.
Qed.

Lemma run_app_up : forall a b c, a <= b -> b + 1 <= c -> run a b ++ run (b + 1) c = run a c.
Proof.
  intros a b c H1 H2. rewrite !run_up by lia.
  replace (Z.to_nat (c - a + 1)) with (Z.to_nat (b - a + 1) + Z.to_nat (c - (b + 1) + 1))%nat by lia.
  rewrite count_up_app. do 2 f_equal. lia.
Qed.

Lemma run_app_down : forall a b c, b <= a -> c <= b - 1 -> run a b ++ run (b - 1) c = run a c.
Proof.
  intros a b c H1 H2. rewrite !run_down by lia.
  replace (Z.to_nat (a - c + 1)) with (Z.to_nat (a - b + 1) + Z.to_nat (b - 1 - c + 1))%nat by lia.
  rewrite count_down_app. do 2 f_equal. lia.
Qed.

Lemma run_single : forall a, run a a = [a].
Proof. intros a. rewrite run_up by lia. rewrite Z.sub_diag. reflexivity. Qed.

Lemma run_nth : forall a b k d, 0 <= k <= Z.abs (b - a) ->
  nth (Z.to_nat k) (run a b) d = if a >? b then a - k else a + k.
Proof.
  intros a b k d H. destruct (a >? b) eqn:E.
  - rewrite run_down by lia. rewrite count_down_nth by lia. lia.
  - rewrite run_up by lia. rewrite count_up_nth by lia. lia.
Qed.

Lemma count_up_in : forall n a x, In x (count_up n a) <-> a <= x < a + Z.of_nat n.
Proof.
  induction n; intros a x; cbn [count_up In]; [lia|]. rewrite IHn. lia.
Qed.

Lemma count_down_in : forall n a x, In x (count_down n a) <-> a - Z.of_nat n < x <= a.
Proof.
  induction n; intros a x; cbn [count_down In]; [lia|]. rewrite IHn. lia.
Qed.

Lemma run_in : forall a b x, In x (run a b) <-> (a <= x <= b \/ b <= x <= a).
Proof.
  intros a b x. unfold run. destruct (Z.ltb_spec b a).
  - rewrite count_down_in. lia.
  - rewrite count_up_in. lia.
Qed.

Lemma range_ints_run : forall p, range_ints p = run (fst p) (snd p).
Proof.
  intros [u l]. cbn [range_ints fst snd]. destruct (u >=? l) eqn:E.
  - rewrite seq_down. rewrite run_down by lia. f_equal. lia.
  - rewrite seq_up. rewrite run_up by lia. f_equal; lia.
Qed.

(* --- index lists ------------------------------------------------------------ *)

Lemma seg_nodes_run : forall s, i_size s = Z.abs (i_to s - i_from s) + 1 ->
  seg_nodes s = run (i_from s) (i_to s).
Proof.
  intros [f t z]; cbn [i_from i_to i_size]. intros ->. unfold seg_nodes. cbn [i_from i_to i_size].
  destruct (f >? t) eqn:E.
  - rewrite seq_down. rewrite run_down by lia. f_equal; lia.
  - rewrite seq_up. rewrite run_up by lia. f_equal; lia.
Qed.

Lemma new_seg_nodes : forall a b, seg_nodes (new_seg a b) = run a b.
Proof. intros a b. apply (seg_nodes_run (new_seg a b)). reflexivity. Qed.

Lemma nodes_app : forall a b, nodes (a ++ b) = nodes a ++ nodes b.
Proof. intros a b. apply flat_map_app. Qed.

Lemma nodes_cons : forall s l, nodes (s :: l) = seg_nodes s ++ nodes l.
Proof. reflexivity. Qed.

Lemma nodes_length : forall l, good l -> Z.of_nat (length (nodes l)) = ilist_length l.
Proof.
  induction l as [|s l IH]; intros G; [reflexivity|].
  inversion G as [|? ? H1 H2]; subst. rewrite nodes_cons, app_length, Nat2Z.inj_add, IH by exact H2.
  rewrite seg_nodes_run, run_length by exact H1. cbn [ilist_length]. lia.
Qed.

Lemma good_single : forall a b, good [new_seg a b].
Proof. intros a b. repeat constructor. Qed.

Lemma append_range_cons2 : forall s t r a b,
  append_range (s :: t :: r) a b = s :: append_range (t :: r) a b.
Proof. reflexivity. Qed.

Lemma append_range_ok : forall l a b, good l ->
  good (append_range l a b) /\ nodes (append_range l a b) = nodes l ++ run a b.
Proof.
  induction l as [|s l IH]; intros a b G.
  - split; [apply good_single|]. cbn [append_range]. unfold nodes; cbn [flat_map].
    rewrite new_seg_nodes, app_nil_r. reflexivity.
  - inversion G as [|? ? H1 H2]; subst. destruct l as [|t l].
    + clear IH H2. cbn [append_range].
      match goal with |- context [if ?c then _ else _] => destruct c eqn:C1 end.
      * apply andb_true_iff in C1 as [C1 C3]. apply andb_true_iff in C1 as [C1 C2].
        apply orb_true_iff in C1. apply orb_true_iff in C3. split; [apply good_single|].
        unfold nodes; cbn [flat_map]. rewrite !app_nil_r, new_seg_nodes, seg_nodes_run by exact H1.
        apply Z.eqb_eq in C2. subst a. symmetry. apply run_app_up.
        -- destruct C1 as [C|C]; [apply Z.eqb_eq in C|apply Z.ltb_lt in C]; lia.
        -- destruct C3 as [C|C]; [apply Z.ltb_lt in C|apply Z.eqb_eq in C]; lia.
      * match goal with |- context [if ?c then _ else _] => destruct c eqn:C4 end.
        -- apply andb_true_iff in C4 as [C4 C3]. apply andb_true_iff in C4 as [C4 C2].
           apply orb_true_iff in C4. apply orb_true_iff in C3. split; [apply good_single|].
           unfold nodes; cbn [flat_map].
           rewrite !app_nil_r, new_seg_nodes, seg_nodes_run by exact H1.
           apply Z.eqb_eq in C2. subst a. symmetry. apply run_app_down.
           ++ destruct C4 as [C|C]; [apply Z.eqb_eq in C|apply Z.gtb_lt in C]; lia.
           ++ destruct C3 as [C|C]; [apply Z.gtb_lt in C|apply Z.eqb_eq in C]; lia.
        -- split; [constructor; [exact H1|apply good_single]|].
           unfold nodes; cbn [flat_map]. rewrite new_seg_nodes, !app_nil_r. reflexivity.
    + rewrite append_range_cons2. destruct (IH a b H2) as [G' N']. split.
      * constructor; assumption.
      * rewrite nodes_cons, N', (nodes_cons s), app_assoc. reflexivity.
Qed.

Lemma add_node_cons2 : forall s t r a, add_node (s :: t :: r) a = s :: add_node (t :: r) a.
Proof. reflexivity. Qed.

Lemma add_node_append : forall l n, good l -> add_node l n = append_range l n n.
Proof.
  induction l as [|s l IH]; intros n G.
  - cbn. unfold new_seg. rewrite Z.sub_diag. reflexivity.
  - inversion G as [|? ? H1 H2]; subst. destruct l as [|t l].
    + clear IH H2. destruct s as [f t z]; cbn in H1. subst z.
      cbn [add_node append_range i_from i_to i_size]. unfold new_seg.
      rewrite Z.eqb_refl, !orb_true_r, !andb_true_r, Z.sub_diag.
      destruct (Z.eqb_spec n (t - 1)); destruct (Z.eqb_spec n (t + 1));
      destruct (Z.eqb_spec (t + 1) n); destruct (Z.eqb_spec (t - 1) n); try lia;
      rewrite ?andb_false_r, ?andb_true_r;
      destruct (f >=? t) eqn:E1; destruct (f <=? t) eqn:E2; destruct (f =? t) eqn:E3;
      destruct (f <? t) eqn:E4; destruct (f >? t) eqn:E5; try lia; cbn; try reflexivity;
      repeat f_equal; lia.
    + rewrite add_node_cons2, append_range_cons2, IH by exact H2. reflexivity.
Qed.

Lemma add_node_ok : forall l n, good l ->
  good (add_node l n) /\ nodes (add_node l n) = nodes l ++ [n].
Proof.
  intros l n G. rewrite add_node_append by exact G.
  destruct (append_range_ok l n n G) as [A B]. rewrite run_single in B. split; assumption.
Qed.

Lemma add_node_nonempty : forall l n, add_node l n <> [].
Proof.
  intros [|s [|t r]] n; cbn; try discriminate.
  repeat match goal with |- context [if ?c then _ else _] => destruct c end; discriminate.
Qed.

Lemma ilist_sel_ok : forall l k, good l -> 0 <= k < ilist_length l ->
  ilist_sel l k = Some (nth (Z.to_nat k) (nodes l) 0).
Proof.
  induction l as [|s l IH]; intros k G H; [cbn in H; lia|].
  inversion G as [|? ? H1 H2]; subst. cbn [ilist_sel ilist_length] in *.
  rewrite nodes_cons, seg_nodes_run by exact H1.
  destruct (Z.leb_spec (i_size s) k).
  - rewrite IH by (try exact H2; lia). rewrite app_nth2; rewrite run_length; [|lia].
    do 2 f_equal. lia.
  - rewrite app_nth1 by (rewrite run_length; lia). rewrite run_nth by lia. f_equal.
    destruct (i_from s >=? i_to s) eqn:E1; destruct (i_from s >? i_to s) eqn:E2; lia.
Qed.

Lemma ilist_sel_none : forall l k, good l -> ilist_length l <= k -> ilist_sel l k = None.
Proof.
  induction l as [|s l IH]; intros k G H; [reflexivity|].
  inversion G as [|? ? H1 H2]; subst. cbn [ilist_sel ilist_length] in *.
  assert (P : 0 <= ilist_length l) by (rewrite <- nodes_length by exact H2; lia).
  destruct (Z.leb_spec (i_size s) k); [|lia]. apply IH; [exact H2|lia].
Qed.

(* --- translate_range ---------------------------------------------------------- *)

Lemma run_firstn : forall a b k, 1 <= k <= Z.abs (b - a) + 1 ->
  firstn (Z.to_nat k) (run a b) = run a (a + (k - 1) * (if a >? b then -1 else 1)).
Proof.
  intros a b k H. destruct (a >? b) eqn:E.
  - rewrite !run_down by lia.
    replace (Z.to_nat (a - b + 1)) with (Z.to_nat k + (Z.to_nat (a - b + 1) - Z.to_nat k))%nat by lia.
    rewrite count_down_app, firstn_app, count_down_length, Nat.sub_diag.
    rewrite firstn_all2 by (rewrite count_down_length; lia). cbn [firstn]. rewrite app_nil_r.
    f_equal. lia.
  - rewrite !run_up by lia.
    replace (Z.to_nat (b - a + 1)) with (Z.to_nat k + (Z.to_nat (b - a + 1) - Z.to_nat k))%nat by lia.
    rewrite count_up_app, firstn_app, count_up_length, Nat.sub_diag.
    rewrite firstn_all2 by (rewrite count_up_length; lia). cbn [firstn]. rewrite app_nil_r.
    f_equal. lia.
Qed.

Lemma run_skipn : forall a b k, 0 <= k <= Z.abs (b - a) ->
  skipn (Z.to_nat k) (run a b) = run (a + k * (if a >? b then -1 else 1)) b.
Proof.
  intros a b k H. destruct (a >? b) eqn:E.
  - rewrite !run_down by lia.
    replace (Z.to_nat (a - b + 1)) with (Z.to_nat k + Z.to_nat (a - b + 1 - k))%nat by lia.
    rewrite count_down_app, skipn_app, count_down_length, Nat.sub_diag.
    rewrite skipn_all2 by (rewrite count_down_length; lia). cbn [skipn app].
    f_equal; lia.
  - rewrite !run_up by lia.
    replace (Z.to_nat (b - a + 1)) with (Z.to_nat k + Z.to_nat (b - a + 1 - k))%nat by lia.
    rewrite count_up_app, skipn_app, count_up_length, Nat.sub_diag.
    rewrite skipn_all2 by (rewrite count_up_length; lia). cbn [skipn app].
    f_equal; lia.
Qed.

Lemma tr_take_ok : forall mp res from cur size, good mp -> good res ->
  cur <= from -> 1 <= size -> from - cur + size <= ilist_length mp ->
  (match mp with [] => True | s :: _ => from - cur < i_size s end) ->
  exists r, tr_take mp res from cur size = Some r /\ good r
            /\ nodes r = nodes res ++
                         firstn (Z.to_nat size) (skipn (Z.to_nat (from - cur)) (nodes mp)).
Proof.
  induction mp as [|s mp IH]; intros res from cur size G R H1 H2 H3 H4; [cbn in H3; lia|].
  inversion G as [|? ? S1 S2]; subst. cbn [tr_take].
  set (dir := if i_from s >? i_to s then -1 else 1).
  assert (D : dir = -1 /\ i_from s > i_to s \/ dir = 1 /\ i_from s <= i_to s).
  { unfold dir. destruct (i_from s >? i_to s) eqn:E; lia. }
  set (k := from - cur) in *.
  assert (K : Z.abs (i_from s + k * dir - i_from s) = k) by (destruct D as [[-> _]|[-> _]]; lia).
  rewrite K, nodes_cons, seg_nodes_run by exact S1.
  assert (SK : skipn (Z.to_nat k) (run (i_from s) (i_to s) ++ nodes mp)
               = run (i_from s + k * dir) (i_to s) ++ nodes mp).
  { rewrite skipn_app, run_length.
    replace (Z.to_nat k - _)%nat with 0%nat by lia. cbn [skipn].
    rewrite run_skipn by lia. reflexivity. }
  rewrite SK. clear SK.
  set (start := i_from s + k * dir) in *.
  assert (LEN : Z.abs (i_to s - start) + 1 = i_size s - k).
  { unfold start. destruct D as [[-> D]|[-> D]]; lia. }
  assert (DIR : start > i_to s -> dir = -1). { unfold start. destruct D as [[-> D]|[-> D]]; lia. }
  assert (DIR2 : start < i_to s -> dir = 1). { unfold start. destruct D as [[-> D]|[-> D]]; lia. }
  destruct (i_size s - k >=? size) eqn:E.
  - eexists. split; [reflexivity|]. destruct (append_range_ok res start (start + (size - 1) * dir) R) as [A B].
    split; [exact A|]. rewrite B. f_equal.
    rewrite firstn_app, run_length. replace (Z.to_nat size - _)%nat with 0%nat by lia.
    cbn [firstn]. rewrite app_nil_r, run_firstn by lia. f_equal. f_equal.
    destruct (start >? i_to s) eqn:E2.
    + rewrite DIR by lia. reflexivity.
    + destruct (Z.eq_dec start (i_to s)) as [Q|Q].
      * assert (size = 1) by lia. subst size. lia.
      * rewrite DIR2 by lia. reflexivity.
  - rewrite LEN. cbn [ilist_length] in H3.
    assert (GE : good (append_range res start (i_to s))) by (apply append_range_ok; exact R).
    destruct (IH (append_range res start (i_to s)) (from + (i_size s - k)) (cur + i_size s)
                 (size - (i_size s - k)) S2 GE) as [r [Q1 [Q2 Q3]]]; try lia.
    { destruct mp as [|s2 mp]; [exact I|]. inversion S2 as [|? ? S3 S4]; subst. lia. }
    exists r. split; [exact Q1|]. split; [exact Q2|]. rewrite Q3.
    destruct (append_range_ok res start (i_to s) R) as [_ B]. rewrite B, <- app_assoc. f_equal.
    rewrite firstn_app, run_length, LEN.
    rewrite (@firstn_all2 Z (Z.to_nat size) (run start (i_to s))) by (rewrite run_length; lia).
    f_equal. replace (Z.to_nat (from + (i_size s - k) - (cur + i_size s))) with 0%nat by lia.
    cbn [skipn]. f_equal. lia.
Qed.

Lemma tr_skip_ok : forall mp from cur size, good mp ->
  cur <= from -> 1 <= size -> from - cur + size <= ilist_length mp ->
  exists r, tr_skip mp from cur size = Some r /\ good r
            /\ nodes r = firstn (Z.to_nat size) (skipn (Z.to_nat (from - cur)) (nodes mp)).
Proof.
  induction mp as [|s mp IH]; intros from cur size G H1 H2 H3; [cbn in H3; lia|].
  cbn [tr_skip]. destruct (cur + i_size s >? from) eqn:E.
  - apply (tr_take_ok (s :: mp) []); try assumption; [constructor|lia].
  - inversion G as [|? ? S1 S2]; subst. cbn [ilist_length] in H3.
    destruct (IH from (cur + i_size s) size S2) as [r [Q1 [Q2 Q3]]]; try lia.
    exists r. split; [exact Q1|]. split; [exact Q2|]. rewrite Q3, nodes_cons.
    rewrite skipn_app, seg_nodes_run, run_length by exact S1.
    rewrite (@skipn_all2 Z _ (run _ _)) by (rewrite run_length; lia). cbn [app]. do 2 f_equal. lia.
Qed.

Theorem translate_range_ok : forall mp from to, good mp ->
  0 <= from -> from <= to -> to < Z.of_nat (length (nodes mp)) ->
  exists r, translate_range mp from to = Some r /\ good r
            /\ nodes r = firstn (Z.to_nat (to - from + 1)) (skipn (Z.to_nat from) (nodes mp)).
Proof.
  intros mp from to G H1 H2 H3. rewrite nodes_length in H3 by exact G.
  unfold translate_range. destruct (Z.leb_spec from to); [|lia].
  destruct (tr_skip_ok mp from 0 (to - from + 1) G) as [r R]; try lia.
  rewrite Z.sub_0_r in R. exists r. exact R.
Qed.

(* --- positions --------------------------------------------------------------- *)

Lemma position_lt : forall A eq (c : A) l, In c l -> (position eq c l < length l)%nat.
Proof.
  induction l as [|x l IH]; intros H; [destruct H|]. cbn. destruct (eq x c); [lia|].
  destruct H as [->|H]; [congruence|]. specialize (IH H). lia.
Qed.

Lemma position_nth : forall A eq (c d : A) l, In c l -> nth (position eq c l) l d = c.
Proof.
  induction l as [|x l IH]; intros H; [destruct H|]. cbn. destruct (eq x c); [assumption|].
  destruct H as [->|H]; [congruence|]. apply IH; exact H.
Qed.

Lemma position_app1 : forall A eq (c : A) l r, In c l -> position eq c (l ++ r) = position eq c l.
Proof.
  induction l as [|x l IH]; intros r H; [destruct H|]. cbn. destruct (eq x c); [reflexivity|].
  destruct H as [->|H]; [congruence|]. f_equal. apply IH; exact H.
Qed.

Lemma position_app2 : forall A eq (c : A) l r, ~ In c l ->
  position eq c (l ++ r) = (length l + position eq c r)%nat.
Proof.
  induction l as [|x l IH]; intros r H; [reflexivity|]. cbn. destruct (eq x c) as [->|].
  - destruct H; left; reflexivity.
  - f_equal. apply IH. intros Q; apply H; right; exact Q.
Qed.

Lemma position_nodup : forall A eq (l : list A) k d, NoDup l -> (k < length l)%nat ->
  position eq (nth k l d) l = k.
Proof.
  intros A eq l. induction l as [|x l IH]; intros k d N H; [cbn in H; lia|].
  inversion N as [|? ? N1 N2]; subst. destruct k; cbn.
  - destruct (eq x x); congruence.
  - cbn in H. destruct (eq x (nth k l d)) as [E|E].
    + exfalso. apply N1. rewrite E. apply nth_In. lia.
    + f_equal. apply IH; [exact N2|lia].
Qed.

Lemma position_cons_map : forall i (c : list Z) l, In c l ->
  position coord_eq (i :: c) (map (cons i) l) = position coord_eq c l.
Proof.
  induction l as [|x l IH]; intros H; [destruct H|]. cbn [position map].
  destruct (coord_eq (i :: x) (i :: c)) as [E|E]; destruct (coord_eq x c) as [F|F]; try congruence.
  f_equal. apply IH. destruct H; [congruence|assumption].
Qed.

Lemma position_product : forall i c is l, In i is -> In c l ->
  position coord_eq (i :: c) (flat_map (fun j => map (cons j) l) is)
  = (position Z.eq_dec i is * length l + position coord_eq c l)%nat.
Proof.
  induction is as [|j is IH]; intros l H C; [destruct H|]. cbn [flat_map position].
  destruct (Z.eq_dec j i) as [->|N].
  - rewrite position_app1 by (apply in_map; exact C). rewrite position_cons_map by exact C.
    reflexivity.
  - rewrite position_app2.
    + assert (H' : In i is) by (destruct H; [congruence|assumption]).
      rewrite map_length, IH by assumption. lia.
    + intros Q. apply in_map_iff in Q as [x [Q _]]. congruence.
Qed.

Lemma in_product : forall c is (l : list (list Z)),
  In c (flat_map (fun j => map (cons j) l) is)
  <-> exists i c', c = i :: c' /\ In i is /\ In c' l.
Proof.
  intros c is l. rewrite in_flat_map. split.
  - intros [i [H1 H2]]. apply in_map_iff in H2 as [c' [<- H2]]. exists i, c'. auto.
  - intros [i [c' [-> [H1 H2]]]]. exists i. split; [exact H1|]. apply in_map. exact H2.
Qed.

Lemma product_length : forall is (l : list (list Z)),
  length (flat_map (fun j => map (cons j) l) is) = (length is * length l)%nat.
Proof.
  induction is as [|i is IH]; intros l; [reflexivity|].
  cbn [flat_map length Nat.mul]. rewrite app_length, map_length, IH. reflexivity.
Qed.

(* --- sizes and strides -------------------------------------------------------- *)

Definition ints (rs : list (Z * Z)) : list Z := flat_map (fun p => run (fst p) (snd p)) rs.

Lemma coords_idx : forall rs v,
  coords (Idx rs :: v) = flat_map (fun i => map (cons i) (coords v)) (ints rs).
Proof. reflexivity. Qed.

Lemma flat_range_ints : forall rs, flat_map range_ints rs = ints rs.
Proof. intros rs. apply flat_map_ext. exact range_ints_run. Qed.

Lemma ints_cons : forall p rs, ints (p :: rs) = run (fst p) (snd p) ++ ints rs.
Proof. reflexivity. Qed.

Lemma fold_sum : forall (f : Z * Z -> Z) rs a,
  fold_left (fun s p => s + f p) rs a = a + fold_left (fun s p => s + f p) rs 0.
Proof.
  intros f. induction rs as [|p rs IH]; intros a; cbn [fold_left]; [lia|].
  rewrite IH. rewrite (IH (0 + f p)). lia.
Qed.

Lemma ints_length : forall rs,
  Z.of_nat (length (ints rs)) = fold_left (fun s p => s + (Z.abs (fst p - snd p) + 1)) rs 0.
Proof.
  induction rs as [|p rs IH]; [reflexivity|].
  rewrite ints_cons, app_length, Nat2Z.inj_add, IH, run_length. cbn [fold_left].
  rewrite (fold_sum (fun p => Z.abs (fst p - snd p) + 1) rs (0 + _)). lia.
Qed.

Lemma vec_size_ok : forall v, vec_size v = Z.of_nat (length (coords v)).
Proof.
  induction v as [|[n|rs] v IH]; [reflexivity|exact IH|].
  rewrite coords_idx, product_length, Nat2Z.inj_mul, ints_length. cbn [vec_size].
  rewrite IH. clear IH. set (n := Z.of_nat (length (coords v))).
  induction rs as [|p rs IH]; [reflexivity|]. cbn [fold_left].
  rewrite (fold_sum (fun p => (Z.abs (fst p - snd p) + 1) * n)).
  rewrite (fold_sum (fun p => (Z.abs (fst p - snd p) + 1))). rewrite IH. lia.
Qed.

Lemma stride_acc : forall v a,
  fold_left (fun res e => match e with
                          | Txt _ => res
                          | Idx rs =>
                              res * fold_left (fun s p => s + Z.abs (fst p - snd p + 1)) rs 0
                          end) v a = a * get_stride v.
Proof.
  unfold get_stride. induction v as [|[n|rs] v IH]; intros a; cbn [fold_left]; [lia|apply IH|].
  rewrite IH, (IH (1 * _)). lia.
Qed.

Lemma desc_sum : forall rs, Forall (fun p => snd p <= fst p) rs ->
  fold_left (fun s p => s + Z.abs (fst p - snd p + 1)) rs 0 = Z.of_nat (length (ints rs)).
Proof.
  intros rs H. rewrite ints_length. induction H as [|p rs H1 H2 IH]; [reflexivity|]. cbn [fold_left].
  rewrite (fold_sum (fun p => Z.abs (fst p - snd p + 1))).
  rewrite (fold_sum (fun p => (Z.abs (fst p - snd p) + 1))). rewrite IH. lia.
Qed.

Lemma stride_ok : forall v, descending v -> get_stride v = Z.of_nat (length (coords v)).
Proof.
  induction v as [|[n|rs] v IH]; intros D; [reflexivity| |]; inversion D as [|? ? D1 D2]; subst.
  - apply IH. exact D2.
  - unfold get_stride. cbn [fold_left]. rewrite stride_acc, IH by exact D2.
    rewrite coords_idx, product_length, desc_sum by exact D1. lia.
Qed.

Lemma descending_inner : forall v, descending v -> inner_descending v.
Proof.
  induction v as [|[n|rs] v IH]; intros D; [exact I| |]; inversion D; subst; cbn; auto.
Qed.

(* --- searching an index --------------------------------------------------------- *)

Lemma inside_run : forall i u l, inside i u l = true <-> In i (run u l).
Proof.
  intros i u l. rewrite run_in. unfold inside.
  destruct (u <? l) eqn:E1; destruct (u <=? i) eqn:E2; destruct (i <=? l) eqn:E3;
  destruct (u >=? l) eqn:E4; destruct (u >=? i) eqn:E5; destruct (i >=? l) eqn:E6;
  cbn; split; intros H; try discriminate; try reflexivity; lia.
Qed.

Lemma position_run : forall i u l, In i (run u l) ->
  Z.of_nat (position Z.eq_dec i (run u l)) = Z.abs (i - u).
Proof.
  intros i u l H. assert (R := proj1 (run_in u l i) H).
  assert (P := position_lt _ Z.eq_dec _ _ H). rewrite run_length in P.
  assert (Q := position_nth _ Z.eq_dec i 0 _ H).
  rewrite <- (Nat2Z.id (position Z.eq_dec i (run u l))) in Q.
  rewrite run_nth in Q by lia. destruct (u >? l) eqn:E; lia.
Qed.

Lemma find_index_some : forall i rs k, In i (ints rs) ->
  find_index i rs k = Some (k + Z.of_nat (position Z.eq_dec i (ints rs))).
Proof.
  induction rs as [|[u l] rs IH]; intros k H; [destruct H|]. cbn [find_index].
  rewrite ints_cons in H |- *. cbn [fst snd] in *. destruct (inside i u l) eqn:E.
  - apply inside_run in E. rewrite position_app1 by exact E. rewrite position_run by exact E.
    reflexivity.
  - assert (N : ~ In i (run u l)) by (intros Q; apply inside_run in Q; congruence).
    rewrite position_app2 by exact N. apply in_app_or in H as [H|H]; [contradiction|].
    rewrite IH by exact H. rewrite run_length. f_equal. lia.
Qed.

Lemma find_index_none : forall i rs k, ~ In i (ints rs) -> find_index i rs k = None.
Proof.
  induction rs as [|[u l] rs IH]; intros k H; [reflexivity|]. cbn [find_index].
  rewrite ints_cons in H. cbn [fst snd] in H. destruct (inside i u l) eqn:E.
  - apply inside_run in E. destruct H. apply in_or_app. left. exact E.
  - apply IH. intros Q. apply H. apply in_or_app. right. exact Q.
Qed.

(* --- map_node -------------------------------------------------------------------- *)

Lemma coords_in_same : forall d v c, same_shape d v -> In c (coords v) ->
  length c = length (filter (fun e => match e with Idx _ => true | _ => false end) d).
Proof.
  induction d as [|[a|ds] d IH]; intros [|[b|rs] v] c S C; cbn [same_shape] in S; try contradiction.
  - cbn in C. destruct C as [<-|[]]. reflexivity.
  - destruct S as [_ S]. apply (IH v); assumption.
  - rewrite coords_idx in C. apply in_product in C as [i [c' [-> [_ C]]]].
    cbn [filter length]. f_equal. apply (IH v); assumption.
Qed.

Lemma ints_nonempty : forall rs, rs <> [] -> exists i, In i (ints rs).
Proof.
  intros [|[u l] rs] H; [congruence|]. exists u. rewrite ints_cons. apply in_or_app. left.
  apply run_in. cbn. lia.
Qed.

Lemma coords_nonempty : forall v, indexed v -> exists c, In c (coords v).
Proof.
  induction v as [|[n|rs] v IH]; intros D.
  - exists []. left. reflexivity.
  - inversion D; subst. apply IH. assumption.
  - inversion D as [|? ? D1 D2]; subst. destruct (IH D2) as [c C].
    destruct (ints_nonempty rs) as [i I]; [intros ->; exact D1|].
    exists (i :: c). rewrite coords_idx. apply in_product. exists i, c. auto.
Qed.

Lemma incl_split : forall rs v ds d, indexed (Idx rs :: v) ->
  (forall c, In c (coords (Idx rs :: v)) -> In c (coords (Idx ds :: d))) ->
  (forall i, In i (ints rs) -> In i (ints ds)) /\ (forall c, In c (coords v) -> In c (coords d)).
Proof.
  intros rs v ds d D H. inversion D as [|? ? D1 D2]; subst.
  assert (E : forall i c, In i (ints rs) -> In c (coords v) -> In i (ints ds) /\ In c (coords d)).
  { intros i c I C. specialize (H (i :: c)). rewrite !coords_idx, !in_product in H.
    destruct H as [i' [c' [Q [H1 H2]]]]; [exists i, c; auto|]. injection Q as <- <-. auto. }
  destruct (coords_nonempty v D2) as [c C].
  destruct (ints_nonempty rs) as [i I]; [intros ->; exact D1|]. split.
  - intros j J. apply (E j c); assumption.
  - intros e X. apply (E i e); assumption.
Qed.

Definition base_node (mp : ilist) (d : vec) (cur : Z) (c : list Z) : Z :=
  nth (Z.to_nat cur + position coord_eq c (coords d)) (nodes mp) 0.

(* The loop over one index. *)
Lemma index_loop_ok : forall mp ds d (f : Z -> ilist -> option ilist) cur cv,
  descending d -> 0 <= cur ->
  (forall c, In c cv -> In c (coords d)) ->
  cur + Z.of_nat (length (coords (Idx ds :: d))) <= ilist_length mp ->
  (forall cur' acc, 0 <= cur' -> good acc ->
     cur' + Z.of_nat (length (coords d)) <= ilist_length mp ->
     exists r, f cur' acc = Some r /\ good r /\ nodes r = nodes acc ++ map (base_node mp d cur') cv) ->
  forall is acc, (forall i, In i is -> In i (ints ds)) -> good acc ->
  exists r,
    fold_left
      (fun o i => match o with
         | None => None
         | Some acc' =>
             match find_index i ds 0 with
             | Some idx => f (cur + get_stride d * idx) acc'
             | None => None
             end
         end) is (Some acc) = Some r /\ good r
    /\ nodes r = nodes acc ++
         map (base_node mp (Idx ds :: d) cur) (flat_map (fun i => map (cons i) cv) is).
Proof.
  intros mp ds d f cur cv DE P SUB L F. rewrite stride_ok by exact DE.
  rewrite coords_idx, product_length in L.
  induction is as [|i is IH]; intros acc IN G.
  - exists acc. cbn. rewrite app_nil_r. auto.
  - cbn [fold_left]. assert (Q : In i (ints ds)) by (apply IN; left; reflexivity).
    rewrite find_index_some by exact Q. rewrite Z.add_0_l.
    assert (PL := position_lt _ Z.eq_dec _ _ Q).
    set (p := position Z.eq_dec i (ints ds)) in *.
    destruct (F (cur + Z.of_nat (length (coords d)) * Z.of_nat p) acc) as [r [R1 [R2 R3]]];
      try assumption; try nia.
    rewrite R1. destruct (IH r) as [r' [S1 [S2 S3]]]; [intros j J; apply IN; right; exact J|exact R2|].
    exists r'. split; [exact S1|]. split; [exact S2|]. rewrite S3, R3, <- app_assoc. f_equal.
    cbn [flat_map]. rewrite map_app. f_equal. rewrite map_map. apply map_ext_in. intros c C.
    unfold base_node. rewrite coords_idx, position_product by (try exact Q; apply SUB; exact C).
    f_equal. fold p. nia.
Qed.

Lemma map_node_ok : forall v d mp cur acc,
  good mp -> good acc -> same_shape d v -> indexed v -> descending d -> 0 <= cur ->
  cur + Z.of_nat (length (coords d)) <= ilist_length mp ->
  (forall c, In c (coords v) -> In c (coords d)) ->
  exists r, map_node d v mp cur acc = Some r /\ good r
    /\ nodes r = nodes acc ++ map (base_node mp d cur) (coords v).
Proof.
  induction v as [|[b|rs] v IH]; intros [|[a|ds] d] mp cur acc GM GA SH IX DE P L IN;
    cbn [same_shape] in SH; try contradiction.
  - cbn [map_node]. cbn in L. rewrite ilist_sel_ok by (try exact GM; lia).
    eexists. split; [reflexivity|]. destruct (add_node_ok acc (nth (Z.to_nat cur) (nodes mp) 0) GA) as [A B].
    split; [exact A|]. rewrite B. unfold base_node. cbn. rewrite Nat.add_0_r. reflexivity.
  - destruct SH as [-> SH]. cbn [map_node]. rewrite String.eqb_refl.
    inversion DE as [|? ? _ DE2]; subst. inversion IX; subst. apply (IH d); assumption.
  - inversion DE as [|? ? DE1 DE2]; subst. destruct (incl_split _ _ _ _ IX IN) as [I1 I2].
    inversion IX as [|? ? _ IX2]; subst.
    cbn [map_node]. rewrite flat_range_ints, (coords_idx rs).
    apply (index_loop_ok mp ds d (fun cur' acc' => map_node d v mp cur' acc')); try assumption.
    intros cur' acc' P' G' L'. apply (IH d); assumption.
Qed.

Theorem map_node_top : forall v d mp,
  good mp -> length (nodes mp) = length (coords d) -> same_shape d v -> indexed v ->
  inner_descending d ->
  (forall c, In c (coords v) -> In c (coords d)) ->
  exists r, map_node d v mp 0 [] = Some r /\ good r /\ nodes r = map (node_of d mp) (coords v).
Proof.
  induction v as [|[b|rs] v IH]; intros [|[a|ds] d] mp GM L SH IX DE IN;
    cbn [same_shape] in SH; try contradiction.
  - apply (map_node_ok [] []); try assumption; try constructor; [lia|].
    rewrite <- nodes_length by exact GM. rewrite L. cbn. lia.
  - destruct SH as [-> SH]. cbn [map_node]. rewrite String.eqb_refl. inversion IX; subst.
    apply (IH d); assumption.
  - cbn [inner_descending] in DE. destruct (incl_split _ _ _ _ IX IN) as [I1 I2].
    inversion IX as [|? ? _ IX2]; subst.
    cbn [map_node]. rewrite flat_range_ints, (coords_idx rs).
    apply (index_loop_ok mp ds d (fun cur' acc' => map_node d v mp cur' acc') 0 (coords v)); try assumption.
    + lia.
    + rewrite <- nodes_length by exact GM. rewrite L. lia.
    + intros cur' acc' P' G' L'. apply (map_node_ok v d); assumption.
    + constructor.
Qed.

(* A scalar outside the declaration makes the mapping fail. *)
Lemma map_node_out : forall v d mp cur acc, same_shape d v -> indexed v ->
  (exists c, In c (coords v) /\ ~ In c (coords d)) -> map_node d v mp cur acc = None.
Proof.
  induction v as [|[b|rs] v IH]; intros [|[a|ds] d] mp cur acc SH IX [c [C N]];
    cbn [same_shape] in SH; try contradiction.
  - destruct SH as [-> SH]. cbn [map_node]. rewrite String.eqb_refl. inversion IX; subst.
    apply IH; [assumption|assumption|]. exists c. auto.
  - inversion IX as [|? ? IX1 IX2]; subst. cbn [map_node]. rewrite flat_range_ints.
    rewrite coords_idx in C, N. apply in_product in C as [i [c' [-> [I C]]]].
    rewrite in_product in N.
    match goal with |- fold_left ?F _ _ = _ => set (g := F) end.
    assert (NN : forall is, fold_left g is None = None) by (induction is; [reflexivity|exact IHis]).
    destruct (in_dec coord_eq c' (coords d)) as [Q|Q].
    + assert (NI : ~ In i (ints ds)) by (intros X; apply N; exists i, c'; auto).
      revert I acc. generalize (ints rs). induction l as [|j l IHl]; intros I acc; [destruct I|].
      cbn [fold_left]. destruct I as [->|I].
      * unfold g at 2. rewrite find_index_none by exact NI. apply NN.
      * destruct (g (Some acc) j) as [acc'|]; [apply IHl; exact I|apply NN].
    + destruct (ints rs) as [|j l]; [destruct I|]. cbn [fold_left]. unfold g at 2.
      destruct (find_index j ds 0) as [k|]; [|apply NN].
      rewrite IH; [apply NN|exact SH|exact IX2|]. exists c'. auto.
Qed.

(* --- is_full_range, map_vector ------------------------------------------------------ *)

Lemma list_eqb_eq : forall a b, list_eqb a b = true -> a = b.
Proof.
  induction a as [|[x y] a IH]; intros [|[z w] b] H; cbn in H; try discriminate; [reflexivity|].
  apply andb_true_iff in H as [H H2]. unfold pair_eqb in H. cbn in H.
  apply andb_true_iff in H as [H1 H3]. apply Z.eqb_eq in H1, H3. subst. f_equal. apply IH; exact H2.
Qed.

Lemma full_range_eq : forall d v, is_full_range d v = Some true -> d = v.
Proof.
  induction d as [|[a|ds] d IH]; intros [|[b|rs] v] H; cbn in H; try discriminate; [reflexivity| |].
  - destruct (String.eqb_spec a b); [|discriminate]. subst. f_equal. apply IH; exact H.
  - destruct (list_eqb ds rs) eqn:E; [|discriminate]. apply list_eqb_eq in E. subst.
    f_equal. apply IH; exact H.
Qed.

Lemma full_range_shape : forall d v, same_shape d v -> is_full_range d v <> None.
Proof.
  induction d as [|[a|ds] d IH]; intros [|[b|rs] v] H; cbn in H; try contradiction; cbn; try discriminate.
  - destruct H as [-> H]. rewrite String.eqb_refl. apply IH; exact H.
  - destruct (list_eqb ds rs); [apply IH; exact H|discriminate].
Qed.

Lemma nodes_all : forall d mp, NoDup (coords d) -> length (nodes mp) = length (coords d) ->
  nodes mp = map (node_of d mp) (coords d).
Proof.
  intros d mp N L. apply (nth_ext _ _ 0 0); [rewrite map_length; exact L|].
  intros k K. rewrite L in K. rewrite (nth_indep (map _ _) 0 (node_of d mp [])) by (rewrite map_length; exact K).
  rewrite map_nth. unfold node_of. rewrite position_nodup by assumption. reflexivity.
Qed.

Lemma try_decl_ok : forall v d, declared d -> same_shape (fst d) v -> indexed v ->
  (forall c, In c (coords v) -> In c (coords (fst d))) ->
  exists r, try_decl v d = Some r /\ good r
            /\ nodes r = map (node_of (fst d) (snd d)) (coords v).
Proof.
  intros v [d mp] [G [L [D N]]] SH IX IN. cbn [fst snd] in *. unfold try_decl. cbn [fst snd].
  destruct (is_full_range d v) as [[|]|] eqn:E.
  - apply full_range_eq in E. subst v. exists mp. split; [reflexivity|]. split; [exact G|].
    apply nodes_all; assumption.
  - apply map_node_top; assumption.
  - exfalso. exact (full_range_shape _ _ SH E).
Qed.

Lemma try_decl_out : forall v d, same_shape (fst d) v -> indexed v ->
  (exists c, In c (coords v) /\ ~ In c (coords (fst d))) -> try_decl v d = None.
Proof.
  intros v [d mp] SH IX X. cbn [fst snd] in *. unfold try_decl. cbn [fst snd].
  destruct (is_full_range d v) as [[|]|] eqn:E; [|apply map_node_out; assumption|reflexivity].
  apply full_range_eq in E. subst v. destruct X as [c [X Y]]. contradiction.
Qed.

Lemma incl_or_not : forall v d : vec,
  (forall c, In c (coords v) -> In c (coords d)) \/ (exists c, In c (coords v) /\ ~ In c (coords d)).
Proof.
  intros v d. generalize (coords v). induction l as [|c l IH].
  - left. intros c [].
  - destruct (in_dec coord_eq c (coords d)) as [Q|Q].
    + destruct IH as [IH|[e [E1 E2]]].
      * left. intros e [<-|E]; auto.
      * right. exists e. split; [right; exact E1|exact E2].
    + right. exists c. split; [left; reflexivity|exact Q].
Qed.

Lemma lookup_in : forall ds c n, lookup ds c = Some n ->
  exists d, In d ds /\ In c (coords (fst d)) /\ n = node_of (fst d) (snd d) c.
Proof.
  induction ds as [|d ds IH]; intros c n H; cbn in H; [discriminate|].
  destruct (in_dec coord_eq c (coords (fst d))) as [Q|Q].
  - injection H as <-. exists d. cbn. auto.
  - destruct (IH c n H) as [e [E1 E2]]. exists e. cbn. auto.
Qed.

Lemma lookup_disjoint : forall ds d c, disjoint ds -> In d ds -> In c (coords (fst d)) ->
  lookup ds c = Some (node_of (fst d) (snd d) c).
Proof.
  induction ds as [|e ds IH]; intros d c D I C; [destruct I|]. destruct D as [D1 D2]. cbn [lookup].
  destruct (in_dec coord_eq c (coords (fst e))) as [Q|Q].
  - destruct I as [->|I]; [reflexivity|]. exfalso. exact (D1 c d Q I C).
  - destruct I as [->|I]; [contradiction|]. apply IH; assumption.
Qed.

Lemma first_decl_ok : forall ds v r, Forall declared ds ->
  Forall (fun d => same_shape (fst d) v) ds -> indexed v -> first_decl v ds = Some r ->
  exists d, In d ds /\ (forall c, In c (coords v) -> In c (coords (fst d))) /\ good r
            /\ nodes r = map (node_of (fst d) (snd d)) (coords v).
Proof.
  induction ds as [|d ds IH]; intros v r D SH IX H; cbn in H; [discriminate|].
  inversion D as [|? ? D1 D2]; subst. inversion SH as [|? ? SH1 SH2]; subst.
  destruct (incl_or_not v (fst d)) as [Q|Q].
  - destruct (try_decl_ok v d D1 SH1 IX Q) as [r' [R1 [R2 R3]]]. rewrite R1 in H.
    injection H as <-. exists d. cbn. auto.
  - rewrite try_decl_out in H by assumption. destruct (IH v r D2 SH2 IX H) as [e [E1 E2]].
    exists e. cbn. auto.
Qed.

Lemma single_node : forall r n, good r -> nodes r = [n] -> r = [Seg n n 1].
Proof.
  intros [|s r] n G N; [discriminate|]. inversion G as [|? ? G1 G2]; subst.
  rewrite nodes_cons, seg_nodes_run in N by exact G1.
  assert (LN := f_equal (@length Z) N). rewrite app_length, run_length in LN. cbn in LN.
  destruct r as [|s2 r].
  - destruct s as [f t z]. cbn in *. assert (f = t) by lia. subst t.
    rewrite run_single in N. injection N as ->. subst z. rewrite Z.sub_diag. reflexivity.
  - inversion G2 as [|? ? G3 G4]; subst. rewrite nodes_cons, seg_nodes_run, app_length, run_length in LN by exact G3.
    lia.
Qed.

Lemma coords_scalar : forall v c, In c (coords v) -> coords (scalar v c) = [c].
Proof.
  induction v as [|[n|rs] v IH]; intros c C.
  - cbn in C. destruct C as [<-|[]]. reflexivity.
  - cbn [scalar coords]. apply IH. exact C.
  - rewrite coords_idx in C. apply in_product in C as [i [c' [-> [I C]]]].
    cbn [scalar]. rewrite coords_idx. unfold ints. cbn [flat_map fst snd]. rewrite run_single.
    cbn. rewrite IH by exact C. reflexivity.
Qed.

Lemma expand_scalars : forall v, expand_vector v = map (scalar v) (coords v).
Proof.
  induction v as [|[n|rs] v IH].
  - reflexivity.
  - cbn [expand_vector coords]. rewrite IH, map_map. reflexivity.
  - cbn [expand_vector]. rewrite flat_range_ints, coords_idx, IH.
    generalize (ints rs). induction l as [|i l IHl]; [reflexivity|].
    cbn [flat_map]. rewrite map_app, IHl. f_equal. rewrite !map_map. reflexivity.
Qed.

Lemma scalar_shape : forall d v c, same_shape d v -> In c (coords v) -> same_shape d (scalar v c).
Proof.
  induction d as [|[a|ds] d IH]; intros [|[b|rs] v] c S C; cbn [same_shape] in S; try contradiction.
  - exact I.
  - cbn [scalar same_shape]. destruct S as [-> S]. split; [reflexivity|]. apply IH; assumption.
  - rewrite coords_idx in C. apply in_product in C as [i [c' [-> [_ C]]]]. cbn. apply IH; assumption.
Qed.

Lemma scalar_indexed : forall v c, indexed v -> In c (coords v) -> indexed (scalar v c).
Proof.
  induction v as [|[b|rs] v IH]; intros c D C.
  - constructor.
  - inversion D; subst. cbn [scalar]. constructor; [exact I|]. apply IH; assumption.
  - inversion D; subst.
    rewrite coords_idx in C. apply in_product in C as [i [c' [-> [_ C]]]]. cbn [scalar].
    constructor; [exact I|]. apply IH; assumption.
Qed.

Lemma first_nonempty_ok : forall ds v c, Forall declared ds ->
  Forall (fun d => same_shape (fst d) v) ds -> indexed v -> coords v = [c] ->
  first_nonempty v ds = match lookup ds c with Some n => Some [Seg n n 1] | None => None end.
Proof.
  induction ds as [|d ds IH]; intros v c D SH IX CV; [reflexivity|]. cbn [first_nonempty lookup].
  inversion D as [|? ? D1 D2]; subst. inversion SH as [|? ? SH1 SH2]; subst.
  destruct (in_dec coord_eq c (coords (fst d))) as [Q|Q].
  - destruct (try_decl_ok v d D1 SH1 IX) as [r [R1 [R2 R3]]].
    { rewrite CV. intros e [<-|[]]. exact Q. }
    rewrite CV in R3. cbn in R3. apply single_node in R3; [|exact R2]. subst r. rewrite R1. reflexivity.
  - rewrite try_decl_out; try assumption; [apply IH; assumption|].
    exists c. rewrite CV. split; [left; reflexivity|exact Q].
Qed.

Fixpoint all_some {A} (l : list (option A)) : option (list A) :=
  match l with
  | [] => Some []
  | None :: _ => None
  | Some x :: r => match all_some r with Some y => Some (x :: y) | None => None end
  end.

Lemma chain_ok : forall ds v, Forall declared ds ->
  Forall (fun d => same_shape (fst d) v) ds -> indexed v ->
  forall cs last, (forall c, In c cs -> In c (coords v)) ->
  (last = [] \/ exists n, last = [Seg n n 1]) ->
  chain_scalars (map (scalar v) cs) ds last =
  match all_some (map (lookup ds) cs) with
  | Some ns => Some (last ++ map (fun n => Seg n n 1) ns)
  | None => None
  end.
Proof.
  intros ds v D SH IX. induction cs as [|c cs IH]; intros last IN LA.
  - cbn. rewrite app_nil_r. reflexivity.
  - cbn [map chain_scalars all_some].
    assert (C : In c (coords v)) by (apply IN; left; reflexivity).
    rewrite (first_nonempty_ok ds (scalar v c) c D); cycle 1.
    { eapply Forall_impl; [|exact SH]. intros d S. apply scalar_shape; assumption. }
    { apply scalar_indexed; assumption. }
    { apply coords_scalar; exact C. }
    destruct (lookup ds c) as [n|]; [|reflexivity].
    rewrite IH; [|intros e E; apply IN; right; exact E|right; exists n; reflexivity].
    destruct (all_some (map (lookup ds) cs)) as [ns|]; [|reflexivity].
    destruct LA as [->|[m ->]]; reflexivity.
Qed.

Lemma all_some_ok : forall A (l : list (option A)) r, all_some l = Some r -> map Some r = l.
Proof.
  induction l as [|[x|] l IH]; intros r H; cbn in H; try discriminate.
  - injection H as <-. reflexivity.
  - destruct (all_some l) as [y|]; [|discriminate]. injection H as <-. cbn. f_equal. apply IH. reflexivity.
Qed.

Lemma all_some_none : forall A (l : list (option A)), all_some l = None -> In None l.
Proof.
  induction l as [|[x|] l IH]; intros H; cbn in H; try discriminate.
  - destruct (all_some l) as [y|]; [discriminate|]. right. apply IH. reflexivity.
  - left. reflexivity.
Qed.

Lemma singles_good : forall ns, good (map (fun n => Seg n n 1) ns).
Proof. induction ns as [|n ns IH]; constructor; [cbn; lia|exact IH]. Qed.

Lemma singles_nodes : forall ns, nodes (map (fun n => Seg n n 1) ns) = ns.
Proof.
  induction ns as [|n ns IH]; [reflexivity|]. cbn [map]. rewrite nodes_cons, IH, seg_nodes_run by (cbn; lia).
  cbn. rewrite run_single. reflexivity.
Qed.

Theorem map_vector_ok : forall ds v, Forall declared ds -> disjoint ds ->
  Forall (fun d => same_shape (fst d) v) ds -> indexed v ->
  match map_vector ds v with
  | Some r => good r /\ map Some (nodes r) = map (lookup ds) (coords v)
  | None => exists c, In c (coords v) /\ lookup ds c = None
  end.
Proof.
  intros ds v D DJ SH IX. unfold map_vector. destruct (first_decl v ds) as [r|] eqn:F.
  - destruct (first_decl_ok ds v r D SH IX F) as [d [I [IN [G N]]]]. split; [exact G|].
    rewrite N, map_map. apply map_ext_in. intros c C. symmetry. apply lookup_disjoint; auto.
  - rewrite expand_scalars, (chain_ok ds v D SH IX) by (try (left; reflexivity); auto).
    destruct (all_some (map (lookup ds) (coords v))) as [ns|] eqn:E.
    + cbn [app]. split; [apply singles_good|]. rewrite singles_nodes. apply all_some_ok; exact E.
    + apply all_some_none in E. apply in_map_iff in E as [c [E1 E2]]. exists c. auto.
Qed.

(* --- find_node_index and get_real_name ------------------------------------------------ *)

Lemma node_offset_some : forall i rs st res, In i (ints rs) ->
  node_offset i rs st res = Some (res + Z.of_nat (position Z.eq_dec i (ints rs)) * st).
Proof.
  induction rs as [|[u l] rs IH]; intros st res H; [destruct H|]. cbn [node_offset].
  rewrite ints_cons in H |- *. cbn [fst snd] in *. destruct (inside i u l) eqn:E.
  - apply inside_run in E. rewrite position_app1 by exact E. rewrite position_run by exact E.
    f_equal. f_equal. f_equal. lia.
  - assert (N : ~ In i (run u l)) by (intros Q; apply inside_run in Q; congruence).
    rewrite position_app2 by exact N. apply in_app_or in H as [H|H]; [contradiction|].
    rewrite IH by exact H. rewrite run_length, Nat2Z.inj_add, Z2Nat.id by lia.
    replace (Z.abs (l - u)) with (Z.abs (u - l)) by lia. f_equal. ring.
Qed.

Lemma node_offset_none : forall i rs st res, ~ In i (ints rs) -> node_offset i rs st res = None.
Proof.
  induction rs as [|[u l] rs IH]; intros st res H; [reflexivity|]. cbn [node_offset].
  rewrite ints_cons in H. cbn [fst snd] in H. destruct (inside i u l) eqn:E.
  - apply inside_run in E. destruct H. apply in_or_app. left. exact E.
  - apply IH. intros Q. apply H. apply in_or_app. right. exact Q.
Qed.

Lemma find_node_index_in : forall d c res, descending d -> In c (coords d) ->
  find_node_index d (scalar d c) res = Some (res + Z.of_nat (position coord_eq c (coords d))).
Proof.
  induction d as [|[n|rs] d IH]; intros c res D C.
  - cbn in C. destruct C as [<-|[]]. cbn. f_equal. lia.
  - inversion D; subst. cbn [scalar find_node_index coords]. apply IH; assumption.
  - inversion D as [|? ? D1 D2]; subst.
    rewrite coords_idx in C |- *. apply in_product in C as [i [c' [-> [I C]]]].
    cbn [scalar find_node_index]. rewrite node_offset_some by exact I.
    rewrite IH by assumption. rewrite position_product, stride_ok by assumption.
    f_equal. lia.
Qed.

Theorem find_node_index_ok : forall d c res, inner_descending d -> In c (coords d) ->
  find_node_index d (scalar d c) res = Some (res + Z.of_nat (position coord_eq c (coords d))).
Proof.
  induction d as [|[n|rs] d IH]; intros c res D C.
  - apply find_node_index_in; [constructor|exact C].
  - cbn [scalar find_node_index coords]. apply IH; assumption.
  - cbn [inner_descending] in D.
    rewrite coords_idx in C |- *. apply in_product in C as [i [c' [-> [I C]]]].
    cbn [scalar find_node_index]. rewrite node_offset_some by exact I.
    rewrite find_node_index_in by assumption. rewrite position_product, stride_ok by assumption.
    f_equal. lia.
Qed.

Theorem find_node_index_out : forall d v c res, same_shape d v -> In c (coords v) ->
  ~ In c (coords d) -> find_node_index d (scalar v c) res = None.
Proof.
  induction d as [|[a|ds] d IH]; intros [|[b|rs] v] c res S C N; cbn [same_shape] in S; try contradiction.
  - destruct S as [_ S]. cbn [scalar find_node_index]. apply IH; assumption.
  - rewrite coords_idx in C, N. apply in_product in C as [i [c' [-> [I C]]]]. rewrite in_product in N.
    cbn [scalar find_node_index]. destruct (in_dec Z.eq_dec i (ints ds)) as [Q|Q].
    + rewrite node_offset_some by exact Q. apply IH; [assumption|assumption|].
      intros X. apply N. exists i, c'. auto.
    + rewrite node_offset_none by exact Q. reflexivity.
Qed.

Lemma real_chunk_ok : forall rs st idx, 0 < st -> 0 <= idx -> idx < Z.of_nat (length (ints rs)) * st ->
  exists i k, real_chunk rs st idx = Some (i, k) /\ 0 <= k < st
  /\ i = nth (Z.to_nat (idx / st)) (ints rs) 0 /\ k = idx mod st.
Proof.
  induction rs as [|[u l] rs IH]; intros st idx S P L; [cbn in L; lia|].
  rewrite ints_cons in L |- *. cbn [fst snd] in *. rewrite app_length, run_length in L.
  cbn [real_chunk]. set (w := Z.abs (u - l) + 1) in *.
  assert (W : Z.abs (l - u) + 1 = w) by (unfold w; lia). rewrite W in L.
  destruct (idx >=? w * st) eqn:E.
  - rewrite Nat2Z.inj_add, Z2Nat.id in L by (unfold w; lia).
    destruct (IH st (idx - w * st)) as [i [k [R1 [R2 [R3 R4]]]]]; try nia.
    exists i, k. split; [exact R1|]. split; [exact R2|].
    replace (idx - w * st) with (idx + (- w) * st) in R3, R4 by lia.
    rewrite Z.div_add in R3 by lia. rewrite Z.mod_add in R4 by lia. split; [|exact R4].
    assert (w <= idx / st) by (apply Z.div_le_lower_bound; lia).
    rewrite app_nth2; rewrite run_length, W; [|lia]. rewrite R3. f_equal. lia.
  - destruct (Z.eqb_spec st 0); [lia|]. rewrite Z.quot_div_nonneg by lia.
    assert (DM := Z.div_mod idx st ltac:(lia)). assert (MB := Z.mod_pos_bound idx st S).
    assert (idx / st < w) by (apply Z.div_lt_upper_bound; lia).
    assert (0 <= idx / st) by (apply Z.div_pos; lia).
    eexists _, _. split; [reflexivity|]. split; [lia|]. split; [|lia].
    rewrite app_nth1 by (rewrite run_length, W; lia). rewrite run_nth by (unfold w in *; lia). reflexivity.
Qed.

Lemma product_nth : forall is (l : list (list Z)) q r d0 c0, (q < length is)%nat -> (r < length l)%nat ->
  nth (q * length l + r) (flat_map (fun j => map (cons j) l) is) c0 = nth q is d0 :: nth r l c0.
Proof.
  induction is as [|i is IH]; intros l q r d0 c0 Q R; [cbn in Q; lia|]. cbn [flat_map].
  destruct q.
  - cbn [Nat.mul plus nth]. rewrite app_nth1 by (rewrite map_length; exact R).
    rewrite (nth_indep _ c0 (i :: c0)) by (rewrite map_length; exact R). rewrite map_nth. reflexivity.
  - rewrite app_nth2; rewrite map_length; [|nia].
    replace (S q * length l + r - length l)%nat with (q * length l + r)%nat by nia.
    cbn [nth]. cbn [length] in Q. rewrite (IH l q r d0) by lia. reflexivity.
Qed.

Lemma product_nth_Z : forall is (l : list (list Z)) k d0 c0, (0 < length l)%nat ->
  0 <= k < Z.of_nat (length is) * Z.of_nat (length l) ->
  nth (Z.to_nat k) (flat_map (fun j => map (cons j) l) is) c0
  = nth (Z.to_nat (k / Z.of_nat (length l))) is d0 :: nth (Z.to_nat (k mod Z.of_nat (length l))) l c0.
Proof.
  intros is l k d0 c0 L K. set (n := Z.of_nat (length l)) in *.
  assert (DM := Z.div_mod k n ltac:(lia)). assert (MB := Z.mod_pos_bound k n ltac:(lia)).
  assert (0 <= k / n) by (apply Z.div_pos; lia).
  assert (k / n < Z.of_nat (length is)) by (apply Z.div_lt_upper_bound; lia).
  rewrite <- (product_nth is l) by lia. f_equal. nia.
Qed.

Lemma real_name_step : forall rs d idx,
  descending d -> indexed d ->
  (forall idx, 0 <= idx < Z.of_nat (length (coords d)) ->
     real_name d idx = Some (scalar d (nth (Z.to_nat idx) (coords d) []))) ->
  0 <= idx < Z.of_nat (length (coords (Idx rs :: d))) ->
  real_name (Idx rs :: d) idx
  = Some (scalar (Idx rs :: d) (nth (Z.to_nat idx) (coords (Idx rs :: d)) [])).
Proof.
  intros rs d idx D IX IH K. rewrite coords_idx in K |- *. rewrite product_length in K.
  cbn [real_name]. rewrite stride_ok by exact D.
  destruct (coords_nonempty d IX) as [c0 C0].
  assert (P : (0 < length (coords d))%nat) by (destruct (coords d); [destruct C0|cbn; lia]).
  destruct (real_chunk_ok rs (Z.of_nat (length (coords d))) idx) as [i [k [R1 [R2 [R3 R4]]]]]; try lia.
  rewrite R1, IH by lia. rewrite (product_nth_Z _ _ _ 0 []) by lia. cbn [scalar].
  rewrite <- R3, <- R4. reflexivity.
Qed.

Lemma real_name_in : forall d idx, descending d -> indexed d ->
  0 <= idx < Z.of_nat (length (coords d)) ->
  real_name d idx = Some (scalar d (nth (Z.to_nat idx) (coords d) [])).
Proof.
  induction d as [|[n|rs] d IH]; intros idx D IX K.
  - reflexivity.
  - inversion D; subst. inversion IX; subst. cbn [real_name coords scalar]. rewrite IH by assumption.
    reflexivity.
  - inversion D; subst. inversion IX; subst. apply real_name_step; try assumption.
    intros k. apply IH; assumption.
Qed.

Theorem real_name_ok : forall d idx, inner_descending d -> indexed d ->
  0 <= idx < Z.of_nat (length (coords d)) ->
  real_name d idx = Some (scalar d (nth (Z.to_nat idx) (coords d) [])).
Proof.
  induction d as [|[n|rs] d IH]; intros idx D IX K.
  - reflexivity.
  - inversion IX; subst. cbn [real_name coords scalar]. rewrite IH by assumption.
    reflexivity.
  - cbn [inner_descending] in D. inversion IX; subst. apply real_name_step; try assumption.
    intros k. apply real_name_in; assumption.
Qed.

(* Names and positions are inverse to each other. *)
Theorem name_roundtrip : forall d idx start, inner_descending d -> indexed d ->
  NoDup (coords d) -> 0 <= idx < Z.of_nat (length (coords d)) ->
  exists v, real_name d idx = Some v /\ find_node_index d v start = Some (start + idx).
Proof.
  intros d idx start D IX N K. eexists. split; [apply real_name_ok; assumption|].
  rewrite find_node_index_ok; [|exact D|apply nth_In; lia].
  rewrite position_nodup by (try exact N; lia). f_equal. lia.
Qed.

(* --- declare_vector and name2idx -------------------------------------------------------- *)

Theorem fresh_declared : forall d n, indexed d -> inner_descending d -> NoDup (coords d) ->
  declared (d, fresh_map d n).
Proof.
  intros d n IX D N. assert (V := vec_size_ok d).
  destruct (coords_nonempty d IX) as [c C].
  assert (P : (0 < length (coords d))%nat) by (destruct (coords d); [destruct C|cbn; lia]).
  assert (G : good (fresh_map d n)) by (repeat constructor; cbn; lia).
  split; [exact G|]. split; [|split; assumption]. cbn [fst snd].
  apply Nat2Z.inj. rewrite nodes_length by exact G. cbn. lia.
Qed.

Lemma position_in_nodes : forall d n c, In c (coords d) ->
  node_of d (fresh_map d n) c = n + Z.of_nat (position coord_eq c (coords d)).
Proof.
  intros d n c C. assert (P := position_lt _ coord_eq _ _ C). assert (V := vec_size_ok d).
  unfold node_of, fresh_map. unfold nodes. cbn [flat_map].
  rewrite app_nil_r, seg_nodes_run by (cbn; lia). cbn [i_from i_to].
  rewrite <- (Nat2Z.id (position coord_eq c (coords d))) at 1.
  rewrite run_nth by lia. destruct (n >? n + vec_size d - 1) eqn:E; lia.
Qed.

Theorem name2idx_ok : forall ds v c, Forall (fun d => inner_descending (fst d)
    /\ exists n, 0 <= n /\ snd d = fresh_map (fst d) n) ds ->
  Forall (fun d => same_shape (fst d) v) ds -> In c (coords v) ->
  name2idx ds (scalar v c) = lookup ds c.
Proof.
  induction ds as [|[d mp] ds IH]; intros v c D SH C; [reflexivity|].
  inversion D as [|? ? [D1 [n [Hn D2]]] D3]; subst. inversion SH as [|? ? SH1 SH2]; subst.
  cbn [fst snd] in *. subst mp. cbn [name2idx lookup fst snd]. unfold fresh_map at 1. cbn [i_from].
  destruct (in_dec coord_eq c (coords d)) as [Q|Q].
  - assert (E : scalar v c = scalar d c).
    { clear - SH1 C. revert v c SH1 C.
      induction d as [|[a|da] d IHd]; intros [|[b|rs] v] c S C; cbn [same_shape] in S; try contradiction.
      - reflexivity.
      - destruct S as [-> S]. cbn [scalar]. f_equal. apply IHd; assumption.
      - rewrite coords_idx in C. apply in_product in C as [i [c' [-> [_ C]]]]. cbn [scalar].
        f_equal. apply IHd; assumption. }
    rewrite E, find_node_index_ok by assumption.
    destruct (n + Z.of_nat (position coord_eq c (coords d)) >=? 0) eqn:NN; [|exfalso; rewrite Z.geb_leb in NN; apply Z.leb_gt in NN; lia].
    rewrite position_in_nodes by exact Q. reflexivity.
  - rewrite find_node_index_out by assumption. apply IH; assumption.
Qed.
