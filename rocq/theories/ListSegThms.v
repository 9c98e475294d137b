(* Proofs about the segment functions and the comparison of ListModel.v. *)
From Coq Require Import List Arith NArith ZArith Bool Lia.
From Verif Require Import HashModel ListModel ListThms.
Import ListNotations.
Local Open Scope Z_scope.

Lemma get_int_ok z : int_ok z = true -> get_int z = Ok z.
Proof.
  unfold int_ok, get_int, wrap32. intros H. apply andb_true_iff in H.
  destruct H as [A B]. apply Z.leb_le in A, B.
  destruct (_ && _) eqn:C.
  - f_equal. rewrite Z.mod_small by lia. lia.
  - apply andb_false_iff in C. rewrite !Z.leb_gt in C. lia.
Qed.

Lemma firstn_loop_spec l : forall i cnt r, r <> LFail -> 0 <= i -> cnt - i <= Z.of_nat (length l) ->
  firstn_loop i cnt (lapp l r) = Ok (firstn (Z.to_nat (cnt - i)) l).
Proof.
  induction l as [|e l IH]; intros i cnt r D I L; cbn [lapp].
  - cbn in L. assert (i <? cnt = false) as E by (apply Z.ltb_ge; lia).
    assert (X : firstn_loop i cnt r = Ok []) by (destruct r; cbn; now rewrite E).
    rewrite X, firstn_nil. reflexivity.
  - cbn [firstn_loop]. destruct (i <? cnt) eqn:E.
    + apply Z.ltb_lt in E. replace (Z.to_nat (cnt - i)) with (S (Z.to_nat (cnt - (i + 1)))) by lia.
      cbn [length] in L. assert (Q : lapp l r <> LFail) by (destruct l; cbn; congruence).
      specialize (IH (i + 1) cnt r D ltac:(lia) ltac:(lia)).
      destruct (lapp l r); [| congruence |]; rewrite IH; reflexivity.
    + apply Z.ltb_ge in E. now replace (Z.to_nat (cnt - i)) with O by lia.
Qed.
Lemma firstn_loop_fail l : forall i cnt, Z.of_nat (length l) < cnt - i ->
  firstn_loop i cnt (lof l) = Fail.
Proof.
  induction l as [|e l IH]; intros i cnt L; cbn [lof firstn_loop].
  - cbn in L. assert (i <? cnt = true) as -> by (apply Z.ltb_lt; lia). reflexivity.
  - cbn [length] in L. assert (i <? cnt = true) as -> by (apply Z.ltb_lt; lia).
    rewrite (IH (i + 1) cnt) by lia. now destruct (lof l).
Qed.
Lemma butfirstn_loop_spec l : forall i cnt r, r <> LFail -> 0 <= i -> cnt - i <= Z.of_nat (length l) ->
  butfirstn_loop i cnt (lapp l r) = Ok (lapp (skipn (Z.to_nat (cnt - i)) l) r).
Proof.
  induction l as [|e l IH]; intros i cnt r D I L; cbn [lapp].
  - cbn in L. assert (i <? cnt = false) as E by (apply Z.ltb_ge; lia).
    assert (X : butfirstn_loop i cnt r = Ok r) by (destruct r; cbn; now rewrite E).
    rewrite X, skipn_nil. reflexivity.
  - cbn [butfirstn_loop]. destruct (i <? cnt) eqn:E.
    + apply Z.ltb_lt in E. replace (Z.to_nat (cnt - i)) with (S (Z.to_nat (cnt - (i + 1)))) by lia.
      cbn [length] in L. assert (Q : lapp l r <> LFail) by (destruct l; cbn; congruence).
      specialize (IH (i + 1) cnt r D ltac:(lia) ltac:(lia)).
      destruct (lapp l r); [| congruence |]; rewrite IH; reflexivity.
    + apply Z.ltb_ge in E. now replace (Z.to_nat (cnt - i)) with O by lia.
Qed.
Lemma butfirstn_loop_fail l : forall i cnt, Z.of_nat (length l) < cnt - i ->
  butfirstn_loop i cnt (lof l) = Fail.
Proof.
  induction l as [|e l IH]; intros i cnt L; cbn [lof butfirstn_loop].
  - cbn in L. assert (i <? cnt = true) as -> by (apply Z.ltb_lt; lia). reflexivity.
  - cbn [length] in L. assert (i <? cnt = true) as -> by (apply Z.ltb_lt; lia).
    rewrite (IH (i + 1) cnt) by lia. now destruct (lof l).
Qed.
Lemma drop_loop_spec l : forall i cnt, 0 <= i -> cnt - i <= Z.of_nat (length l) ->
  drop_loop i cnt l = Ok (skipn (Z.to_nat (cnt - i)) l).
Proof.
  induction l as [|e l IH]; intros i cnt I L; cbn [drop_loop length] in *.
  - assert (i <? cnt = false) as -> by (apply Z.ltb_ge; lia). now rewrite skipn_nil.
  - destruct (i <? cnt) eqn:E.
    + apply Z.ltb_lt in E. replace (Z.to_nat (cnt - i)) with (S (Z.to_nat (cnt - (i + 1)))) by lia.
      apply IH; lia.
    + apply Z.ltb_ge in E. now replace (Z.to_nat (cnt - i)) with O by lia.
Qed.
Lemma take_loop_spec l : forall i cnt, 0 <= i -> cnt - i <= Z.of_nat (length l) ->
  take_loop i cnt l = Ok (firstn (Z.to_nat (cnt - i)) l).
Proof.
  induction l as [|e l IH]; intros i cnt I L; cbn [take_loop length] in *.
  - assert (i <? cnt = false) as -> by (apply Z.ltb_ge; lia). now rewrite firstn_nil.
  - destruct (i <? cnt) eqn:E.
    + apply Z.ltb_lt in E. replace (Z.to_nat (cnt - i)) with (S (Z.to_nat (cnt - (i + 1)))) by lia.
      rewrite IH by lia. reflexivity.
    + apply Z.ltb_ge in E. now replace (Z.to_nat (cnt - i)) with O by lia.
Qed.

Lemma butlast_spec l e : c_butlast (l ++ [e]) = Ok l.
Proof.
  destruct l as [|x l]; [reflexivity|]. cbn. f_equal.
  revert x. induction l as [|y l IH]; intros x; cbn; auto. now rewrite IH.
Qed.
Lemma last_spec l e : c_last (l ++ [e]) = Ok e.
Proof.
  destruct l as [|x l]; [reflexivity|]. cbn. f_equal.
  revert x. induction l as [|y l IH]; intros x; cbn; auto.
Qed.
Lemma rev_spec l : c_rev l = rev l.
Proof.
  unfold c_rev. assert (H : forall i, (i <= length l)%nat -> buf_down l i = rev (firstn i l)).
  { induction i as [|i IH]; intros L; auto. cbn [buf_down].
    destruct (nth_error l i) as [e|] eqn:E; [|apply nth_error_None in E; lia].
    rewrite IH by lia. assert (X : firstn (S i) l = firstn i l ++ [e]).
    { clear -E. revert i E. induction l as [|x l IH]; intros [|i] E; cbn in *; try congruence.
      f_equal. now apply IH. }
    now rewrite X, rev_app_distr. }
  rewrite H by lia. now rewrite firstn_all.
Qed.
Lemma length_spec l : c_length l = Z.of_nat (length l).
Proof.
  unfold c_length. enough (H : forall c, length_loop c l = c + Z.of_nat (length l)) by (rewrite H; lia).
  induction l as [|e l IH]; intros c; cbn [length_loop length]; [lia|]. rewrite IH. lia.
Qed.
Lemma append_spec l1 l2 : c_append l1 l2 = l1 ++ l2.
Proof.
  destruct l1 as [|x l]; [reflexivity|]. unfold c_append.
  revert x. induction l as [|y l IH]; intros x; [reflexivity|]. cbn [app].
  f_equal. apply IH.
Qed.
Lemma flat_spec l : c_flat l = concat l.
Proof.
  unfold c_flat. enough (H : forall d, flat_loop d l = d ++ concat l) by (now rewrite H).
  induction l as [|x l IH]; intros d; cbn; [now rewrite app_nil_r|]. now rewrite IH, <- app_assoc.
Qed.

(* gather, separate *)
Definition idx_ok (l : list N) (i : Z) : bool := (1 <=? i) && (i <=? Z.of_nat (length l)).
Definition at_ (l : list N) (i : Z) : N := nth (Z.to_nat (i - 1)) l 0%N.

Lemma idx_guard l i : int_ok i = true -> Z.of_nat (length l) <= 2147483647 ->
  ((to_ui i <? 1) || (Z.of_nat (length l) <? to_ui i)) = negb (idx_ok l i) /\
  (idx_ok l i = true -> to_ui i = i).
Proof.
  unfold int_ok, to_ui, idx_ok. rewrite !andb_true_iff, !Z.leb_le. intros [A B] L.
  split.
  - destruct (i <? 0) eqn:E; [apply Z.ltb_lt in E|apply Z.ltb_ge in E].
    + assert (1 <=? i = false) as -> by (apply Z.leb_gt; lia). cbn.
      apply orb_true_iff. right. apply Z.ltb_lt. lia.
    + rewrite !Z.ltb_antisym, negb_andb. reflexivity.
  - intros [C D]. assert (i <? 0 = false) as -> by (apply Z.ltb_ge; lia). reflexivity.
Qed.
Lemma gather_spec l is : forallb int_ok is = true -> Z.of_nat (length l) <= 2147483647 ->
  c_gather l is = if forallb (idx_ok l) is then Ok (map (at_ l) is) else Fail.
Proof.
  intros H L. induction is as [|i is IH]; [reflexivity|]. cbn [forallb c_gather map] in *.
  apply andb_true_iff in H. destruct H as [Hi H]. specialize (IH H).
  rewrite (get_int_ok i Hi). destruct (idx_guard l i Hi L) as [-> U].
  destruct (idx_ok l i) eqn:E; cbn [negb andb]; [|reflexivity]. rewrite (U eq_refl).
  unfold idx_ok in E. rewrite andb_true_iff, !Z.leb_le in E.
  assert (X : nth_error l (Z.to_nat (i - 1)) = Some (at_ l i)).
  { unfold at_. apply nth_error_nth'. lia. }
  rewrite X, IH. now destruct (forallb (idx_ok l) is).
Qed.

(* the indices, first occurrences only *)
Fixpoint firsts (is : list Z) : list Z :=
  match is with
  | [] => []
  | i :: is => i :: filter (fun j => negb (i =? j)) (firsts is)
  end.
Fixpoint firstsx (seen is : list Z) : list Z :=
  match is with
  | [] => []
  | i :: is => if existsb (Z.eqb i) seen then firstsx seen is else i :: firstsx (i :: seen) is
  end.
Lemma ffilter {A} (f g : A -> bool) l : filter f (filter g l) = filter (fun x => g x && f x) l.
Proof.
  induction l as [|x l IH]; cbn; auto. destruct (g x); cbn; [|auto].
  destruct (f x); now rewrite IH.
Qed.
Lemma firstsx_spec is : forall seen,
  firstsx seen is = filter (fun j => negb (existsb (Z.eqb j) seen)) (firsts is).
Proof.
  induction is as [|i is IH]; intros seen; [reflexivity|]. cbn [firstsx firsts filter].
  rewrite ffilter. destruct (existsb (Z.eqb i) seen) eqn:Q; cbn [negb]; rewrite IH.
  - apply filter_ext. intros j. destruct (i =? j) eqn:E; auto. apply Z.eqb_eq in E. subst j.
    cbn. now rewrite Q.
  - f_equal. apply filter_ext. intros j. cbn. rewrite (Z.eqb_sym j i).
    destruct (i =? j); cbn; auto.
Qed.
Lemma nth_error_ext {A} (l : list A) : forall l', (forall j, nth_error l j = nth_error l' j) -> l = l'.
Proof.
  induction l as [|x l IH]; intros [|y l'] E; auto; try (specialize (E O); discriminate).
  f_equal; [specialize (E O); cbn in E; congruence|]. apply IH. intros j. apply (E (S j)).
Qed.
(* the buffer of separate *)
Definition blank (l : list N) (seen : list Z) : list (option N) :=
  map (fun k => if existsb (Z.eqb (Z.of_nat k + 1)) seen then None else nth_error l k) (seq 0 (length l)).
Lemma nth_seq_map {A} (f : nat -> A) n k : (k < n)%nat -> nth_error (map f (seq 0 n)) k = Some (f k).
Proof.
  intros L. rewrite nth_error_map.
  rewrite (nth_error_nth' (seq 0 n) O) by (rewrite seq_length; lia). cbn.
  rewrite seq_nth by lia. reflexivity.
Qed.
Lemma blank_set l seen i : 1 <= i <= Z.of_nat (length l) ->
  let k := Z.to_nat (i - 1) in
  firstn k (blank l seen) ++ None :: skipn (S k) (blank l seen) = blank l (i :: seen).
Proof.
  intros L k. assert (Lk : (k < length l)%nat) by lia.
  assert (Lb : length (blank l seen) = length l) by (unfold blank; now rewrite map_length, seq_length).
  apply nth_error_ext. intros j.
  destruct (Nat.lt_ge_cases j (length l)) as [Lj|Lj].
  - unfold blank at 3. rewrite nth_seq_map by assumption. cbn [existsb].
    destruct (Nat.lt_trichotomy j k) as [A|[A|A]].
    + rewrite nth_error_app1 by (rewrite firstn_length; lia).
      assert (X : nth_error (firstn k (blank l seen)) j = nth_error (blank l seen) j).
      { assert (Lb' := Lb). revert A. clear. generalize (blank l seen) as b. revert j.
        induction k as [|k IH]; intros j b A; [lia|]. destruct b, j; cbn; auto. apply IH. lia. }
      rewrite X. unfold blank. rewrite nth_seq_map by assumption.
      assert (Z.of_nat j + 1 =? i = false) as -> by (apply Z.eqb_neq; lia). reflexivity.
    + subst j. rewrite nth_error_app2 by (rewrite firstn_length; lia).
      rewrite firstn_length, Lb. replace (k - Nat.min k (length l))%nat with O by lia. cbn.
      assert (Z.of_nat k + 1 =? i = true) as -> by (apply Z.eqb_eq; lia). reflexivity.
    + rewrite nth_error_app2 by (rewrite firstn_length; lia).
      rewrite firstn_length, Lb. replace (j - Nat.min k (length l))%nat with (S (j - S k)) by lia.
      cbn [nth_error].
      assert (X : forall (b : list (option N)) n m, nth_error (skipn n b) m = nth_error b (n + m)).
      { clear. intros b n. revert b. induction n as [|n IH]; intros b m; [reflexivity|].
        destruct b; cbn; [now destruct m|]. apply IH. }
      rewrite X. replace (S k + (j - S k))%nat with j by lia.
      unfold blank. rewrite nth_seq_map by assumption.
      assert (Z.of_nat j + 1 =? i = false) as -> by (apply Z.eqb_neq; lia). reflexivity.
  - transitivity (@None (option N)); [|symmetry]; apply nth_error_None.
    + rewrite app_length, firstn_length. cbn [length]. rewrite skipn_length. lia.
    + unfold blank. rewrite map_length, seq_length. lia.
Qed.
Lemma sep_loop_spec l is : forall seen,
  forallb int_ok is = true -> Z.of_nat (length l) <= 2147483647 ->
  sep_loop (blank l seen) is =
  if forallb (idx_ok l) is then Ok (map (at_ l) (firstsx seen is), blank l (rev is ++ seen)) else Fail.
Proof.
  induction is as [|i is IH]; intros seen H L; [reflexivity|].
  cbn [forallb sep_loop firstsx rev] in *. apply andb_true_iff in H. destruct H as [Hi H].
  rewrite (get_int_ok i Hi).
  assert (Lb : length (blank l seen) = length l) by (unfold blank; now rewrite map_length, seq_length).
  rewrite Lb. destruct (idx_guard l i Hi L) as [-> U].
  destruct (idx_ok l i) eqn:E; cbn [negb andb]; [|reflexivity]. rewrite (U eq_refl).
  unfold idx_ok in E. rewrite andb_true_iff, !Z.leb_le in E.
  assert (X : nth_error (blank l seen) (Z.to_nat (i - 1)) =
    Some (if existsb (Z.eqb i) seen then None else Some (at_ l i))).
  { unfold blank. rewrite nth_seq_map by lia. replace (Z.of_nat (Z.to_nat (i - 1)) + 1) with i by lia.
    f_equal. destruct (existsb (Z.eqb i) seen); auto. unfold at_. apply nth_error_nth'. lia. }
  rewrite X. destruct (existsb (Z.eqb i) seen) eqn:Q.
  - rewrite IH by assumption. destruct (forallb (idx_ok l) is); auto. f_equal. f_equal.
    unfold blank. apply map_ext. intros k. rewrite !existsb_app. cbn.
    rewrite orb_false_r. destruct (Z.of_nat k + 1 =? i) eqn:A; [|now rewrite orb_false_r].
    apply Z.eqb_eq in A. rewrite A, Q, !orb_true_r. reflexivity.
  - rewrite blank_set by lia. rewrite IH by assumption.
    destruct (forallb (idx_ok l) is); auto. rewrite <- app_assoc. reflexivity.
Qed.
Lemma somes_map {A} (f : A -> bool) (g : A -> option N) (h : A -> N) l :
  (forall x, In x l -> g x = Some (h x)) ->
  somes (map (fun x => if f x then None else g x) l) = map h (filter (fun x => negb (f x)) l).
Proof.
  induction l as [|x l IH]; intros Hg; cbn; auto. destruct (f x); cbn.
  - apply IH. intros y I. apply Hg. now right.
  - rewrite Hg by (now left). cbn. f_equal. apply IH. intros y I. apply Hg. now right.
Qed.
Definition positions (l : list N) : list Z := map (fun k => Z.of_nat k + 1) (seq 0 (length l)).
Lemma separate_spec l is : forallb int_ok is = true -> Z.of_nat (length l) <= 2147483647 ->
  c_separate l is =
  if forallb (idx_ok l) is
  then Ok (map (at_ l) (firsts is),
           map (at_ l) (filter (fun i => negb (existsb (Z.eqb i) is)) (positions l)))
  else Fail.
Proof.
  intros H L. unfold c_separate.
  assert (B : map Some l = blank l []).
  { unfold blank. cbn. apply nth_error_ext. intros j.
    destruct (Nat.lt_ge_cases j (length l)) as [Lj|Lj].
    - rewrite nth_seq_map by assumption. rewrite nth_error_map.
      destruct (nth_error l j) eqn:E; auto. apply nth_error_None in E. lia.
    - transitivity (@None (option N)); [|symmetry]; apply nth_error_None;
        rewrite map_length, ?seq_length; lia. }
  rewrite B, sep_loop_spec by assumption. destruct (forallb (idx_ok l) is); auto.
  f_equal. rewrite app_nil_r. f_equal.
  - rewrite firstsx_spec. cbn. induction (firsts is); cbn; congruence.
  - unfold blank, positions.
    rewrite (somes_map (fun k => existsb (Z.eqb (Z.of_nat k + 1)) (rev is)) (nth_error l) (fun k => at_ l (Z.of_nat k + 1))).
    + assert (Hf : forall ks, map (fun k => at_ l (Z.of_nat k + 1))
          (filter (fun x => negb (existsb (Z.eqb (Z.of_nat x + 1)) (rev is))) ks) =
        map (at_ l) (filter (fun i => negb (existsb (Z.eqb i) is)) (map (fun k => Z.of_nat k + 1) ks))).
      { induction ks as [|k ks IHk]; cbn; auto.
        assert (Er : existsb (Z.eqb (Z.of_nat k + 1)) (rev is) = existsb (Z.eqb (Z.of_nat k + 1)) is).
        { generalize (Z.of_nat k + 1) as z. intros z. clear. induction is as [|x r IH]; cbn; auto.
          rewrite existsb_app, IH. cbn. now rewrite orb_false_r, orb_comm. }
        rewrite Er. destruct (existsb _ is); cbn; congruence. }
      apply Hf.
    + intros k I. apply in_seq in I. unfold at_.
      replace (Z.to_nat (Z.of_nat k + 1 - 1)) with k by lia. apply nth_error_nth'. lia.
Qed.

(* ---------------------------------------------------------------------- *)
Fixpoint plain (v : gval) : Prop :=
  match v with
  | GApply a b | GCons a b => plain a /\ plain b
  | GBool f => (f < 2147483648)%N
  | _ => True
  end.

Lemma strcmp_eq s : forall t, strcmp s t = 0 <-> s = t.
Proof.
  induction s as [|a s IH]; intros [|b t]; cbn; split; try congruence; try discriminate.
  - destruct (N.eqb a b) eqn:E.
    + apply N.eqb_eq in E. rewrite IH. congruence.
    + destruct (N.ltb a b); discriminate.
  - intros [= -> ->]. rewrite N.eqb_refl. now apply IH.
Qed.
Lemma strcmp_anti s : forall t, strcmp t s = - strcmp s t.
Proof.
  induction s as [|a s IH]; intros [|b t]; cbn; auto.
  rewrite (N.eqb_sym b a). destruct (N.eqb a b) eqn:E; auto. apply N.eqb_neq in E.
  destruct (N.ltb a b) eqn:A, (N.ltb b a) eqn:B; auto.
  - apply N.ltb_lt in A, B. lia.
  - apply N.ltb_ge in A, B. lia.
Qed.
Lemma strcmp_trans s : forall t u, strcmp s t < 0 -> strcmp t u < 0 -> strcmp s u < 0.
Proof.
  induction s as [|a s IH]; intros [|b t] [|c u]; cbn; try lia.
  destruct (N.eqb a b) eqn:E, (N.eqb b c) eqn:F.
  - apply N.eqb_eq in E, F. subst. rewrite N.eqb_refl. apply IH.
  - apply N.eqb_eq in E. subst. rewrite F. auto.
  - apply N.eqb_eq in F. subst. rewrite E. auto.
  - destruct (N.ltb a b) eqn:A; [|lia]. destruct (N.ltb b c) eqn:B; [|lia].
    apply N.ltb_lt in A, B. intros _ _.
    assert (N.eqb a c = false) as -> by (apply N.eqb_neq; lia).
    assert (N.ltb a c = true) as -> by (apply N.ltb_lt; lia). lia.
Qed.
Lemma as_int_pos f : (f < 2147483648)%N -> as_int f = Z.of_N f.
Proof. intros L. unfold as_int, wrap32. rewrite Z.mod_small by lia. lia. Qed.
Lemma int_sub_pos f g : (f < 2147483648)%N -> (g < 2147483648)%N ->
  int_sub (as_int f) (as_int g) = Some (Z.of_N f - Z.of_N g).
Proof.
  intros F G. rewrite !as_int_pos by assumption. unfold int_sub, int_ok.
  destruct (_ && _) eqn:E; auto. apply andb_false_iff in E. rewrite !Z.leb_gt in E. lia.
Qed.
Lemma arbi_cmp_eq x y : arbi_cmp x y = 0 <-> x = y.
Proof.
  unfold arbi_cmp. destruct (x <? y) eqn:A; [apply Z.ltb_lt in A|apply Z.ltb_ge in A; destruct (x =? y) eqn:B].
  - lia.
  - apply Z.eqb_eq in B. lia.
  - apply Z.eqb_neq in B. lia.
Qed.
Lemma arbi_cmp_anti x y : arbi_cmp y x = - arbi_cmp x y.
Proof.
  unfold arbi_cmp. destruct (x <? y) eqn:A, (y <? x) eqn:B, (x =? y) eqn:C, (y =? x) eqn:D; auto;
   rewrite ?Z.ltb_lt, ?Z.ltb_ge, ?Z.eqb_eq, ?Z.eqb_neq in *; lia.
Qed.
Lemma arbi_cmp_trans x y z : arbi_cmp x y < 0 -> arbi_cmp y z < 0 -> arbi_cmp x z < 0.
Proof.
  unfold arbi_cmp. destruct (x <? y) eqn:A, (y <? z) eqn:B, (x <? z) eqn:C, (x =? y), (y =? z), (x =? z);
   rewrite ?Z.ltb_lt, ?Z.ltb_ge in *; lia.
Qed.

Definition lex (o k : option Z) : option Z :=
  match o with None => None | Some x => if negb (x =? 0) then Some x else k end.
Definition kind (v : gval) : Z :=
  match v with
  | GNull => 0 | GApply _ _ => 1 | GCons _ _ => 2 | GInt _ => 3 | GStr _ => 4
  | GBool _ => 5 | GPrim _ => 6 | GVar _ => 7
  end.
Definition leafcmp (a b : gval) : option Z :=
  match a, b with
  | GNull, GNull => Some 0
  | GInt x, GInt y => Some (arbi_cmp x y)
  | GStr s, GStr t => Some (strcmp s t)
  | GBool f, GBool g => int_sub (as_int f) (as_int g)
  | GPrim p, GPrim q => Some (Z.of_N p - Z.of_N q)
  | GVar s, GVar t => Some (strcmp s t)
  | _, _ => None
  end.
Definition kdiff (a b : gval) : Z :=
  match a, b with
  | GNull, _ => -1
  | _, GNull => 1
  | _, _ => if gtype a =? gtype b then gleaf a - gleaf b else gtype a - gtype b
  end.
Lemma gcmp_unfold a b : gcmp a b =
  if kind a =? kind b then
    match a, b with
    | GApply a1 a2, GApply b1 b2 | GCons a1 a2, GCons b1 b2 => lex (gcmp a1 b1) (gcmp a2 b2)
    | _, _ => leafcmp a b
    end
  else Some (kdiff a b).
Proof. destruct a, b; reflexivity. Qed.
Lemma kdiff_neg a b : kind a <> kind b -> (kdiff a b < 0 <-> kind a < kind b) /\ kdiff b a = - kdiff a b /\ kdiff a b <> 0.
Proof.
  intros D. destruct a, b; try (exfalso; apply D; reflexivity); clear D;
  vm_compute; intuition congruence.
Qed.
Lemma leafcmp_some a b r : plain a -> plain b -> leafcmp a b = Some r ->
  leafcmp b a = Some (- r) /\ (r = 0 <-> a = b).
Proof.
  intros A B E. destruct a, b; try discriminate; cbn [leafcmp plain] in *.
  - injection E as <-. split; [reflexivity|]. split; reflexivity.
  - injection E as <-. rewrite arbi_cmp_anti. split; [reflexivity|].
    rewrite arbi_cmp_eq. split; congruence.
  - injection E as <-. rewrite strcmp_anti. split; [reflexivity|].
    rewrite strcmp_eq. split; congruence.
  - rewrite int_sub_pos in * by assumption. injection E as <-. split; [f_equal; lia|].
    split; [intros H; f_equal; lia|intros [= <-]; lia].
  - injection E as <-. split; [f_equal; lia|].
    split; [intros H; f_equal; lia|intros [= <-]; lia].
  - injection E as <-. rewrite strcmp_anti. split; [reflexivity|].
    rewrite strcmp_eq. split; congruence.
Qed.
Lemma leafcmp_trans a b c r q : plain a -> plain b -> plain c ->
  leafcmp a b = Some r -> leafcmp b c = Some q -> r < 0 -> q < 0 ->
  exists p, leafcmp a c = Some p /\ p < 0.
Proof.
  intros A B C E F Rn Qn. destruct a, b; try discriminate; destruct c; try discriminate; cbn [leafcmp plain] in *.
  - injection E as <-. lia.
  - injection E as <-. injection F as <-. eexists. split; [reflexivity|]. eapply arbi_cmp_trans; eauto.
  - injection E as <-. injection F as <-. eexists. split; [reflexivity|]. eapply strcmp_trans; eauto.
  - rewrite int_sub_pos in * by assumption. injection E as <-. injection F as <-.
    eexists. split; [reflexivity|]. lia.
  - injection E as <-. injection F as <-. eexists. split; [reflexivity|]. lia.
  - injection E as <-. injection F as <-. eexists. split; [reflexivity|]. eapply strcmp_trans; eauto.
Qed.
Lemma leafcmp_total a b : plain a -> plain b -> kind a = kind b ->
  (kind a <> 1 -> kind a <> 2 -> exists r, leafcmp a b = Some r).
Proof.
  intros A B K N1 N2. destruct a, b; try discriminate; try (exfalso; cbn in N1, N2; congruence);
    cbn [leafcmp plain] in *; rewrite ?int_sub_pos by assumption; eexists; reflexivity.
Qed.

Lemma lex_total o k : (exists x, o = Some x) -> (exists x, k = Some x) -> exists r, lex o k = Some r.
Proof. intros (x & ->) (y & ->). cbn. destruct (negb (x =? 0)); eexists; reflexivity. Qed.
Lemma gcmp_total a : forall b, plain a -> plain b -> exists r, gcmp a b = Some r.
Proof.
  induction a as [|a1 IH1 a2 IH2|a1 IH1 a2 IH2|z|s|f|p|s]; intros b A B; rewrite gcmp_unfold;
  (destruct (kind _ =? kind b) eqn:K; [apply Z.eqb_eq in K|eexists; reflexivity]);
  destruct b; try discriminate K; try (apply leafcmp_total; auto; discriminate).
  - destruct A, B. apply lex_total; auto.
  - destruct A, B. apply lex_total; auto.
Qed.
Lemma lex_anti o k o' k' r : lex o k = Some r ->
  (forall x, o = Some x -> o' = Some (- x)) -> (forall x, k = Some x -> k' = Some (- x)) ->
  lex o' k' = Some (- r).
Proof.
  intros E H1 H2. destruct o as [x|]; [|discriminate]. rewrite (H1 x eq_refl). cbn in *.
  assert (Q : (- x =? 0) = (x =? 0)).
  { destruct (x =? 0) eqn:X; [apply Z.eqb_eq in X; now subst|]. apply Z.eqb_neq in X.
    apply Z.eqb_neq. lia. }
  rewrite Q. destruct (x =? 0); cbn in *; auto. congruence.
Qed.
Lemma gcmp_anti a : forall b, plain a -> plain b ->
  forall r, gcmp a b = Some r -> gcmp b a = Some (- r).
Proof.
  induction a as [|a1 IH1 a2 IH2|a1 IH1 a2 IH2|z|s|f|p|s]; intros b A B r E; rewrite gcmp_unfold in E |- *;
  rewrite (Z.eqb_sym (kind b));
  (destruct (kind _ =? kind b) eqn:K; [apply Z.eqb_eq in K|
    apply Z.eqb_neq in K; apply kdiff_neg in K; destruct K as (_ & -> & _); congruence]);
  destruct b; try discriminate K; try (now apply leafcmp_some).
  - destruct A, B. eapply lex_anti; eauto.
  - destruct A, B. eapply lex_anti; eauto.
Qed.
Lemma lex_0 o k : lex o k = Some 0 <-> o = Some 0 /\ k = Some 0.
Proof.
  destruct o as [x|]; [|split; [discriminate|intros [? _]; discriminate]]. cbn.
  destruct (x =? 0) eqn:X; cbn.
  - apply Z.eqb_eq in X. subst. tauto.
  - apply Z.eqb_neq in X. split; [congruence|intros [? _]; congruence].
Qed.
Lemma leaf_0 a b : plain a -> plain b -> kind a = kind b -> kind a <> 1 -> kind a <> 2 ->
  (leafcmp a b = Some 0 <-> a = b).
Proof.
  intros A B K N1 N2. destruct (leafcmp_total a b A B K N1 N2) as (r & E).
  destruct (leafcmp_some a b r A B E) as [_ W]. rewrite E, <- W. split; congruence.
Qed.
Lemma gcmp_eq a : forall b, plain a -> plain b -> (gcmp a b = Some 0 <-> a = b).
Proof.
  induction a as [|a1 IH1 a2 IH2|a1 IH1 a2 IH2|z|s|f|p|s]; intros b A B; rewrite gcmp_unfold;
  (destruct (kind _ =? kind b) eqn:K; [apply Z.eqb_eq in K|
    apply Z.eqb_neq in K; split; [intros E; apply kdiff_neg in K; destruct K as (_ & _ & K); congruence|
                                  intros <-; congruence]]);
  destruct b; try discriminate K; try (apply leaf_0; auto; discriminate).
  - destruct A, B. rewrite lex_0, IH1, IH2 by assumption. split; [intros [-> ->]; auto|intros [= -> ->]; auto].
  - destruct A, B. rewrite lex_0, IH1, IH2 by assumption. split; [intros [-> ->]; auto|intros [= -> ->]; auto].
Qed.
Lemma lex_neg (o k : option Z) r : lex o k = Some r -> r < 0 ->
  (exists x, o = Some x /\ x < 0) \/ (o = Some 0 /\ k = Some r).
Proof.
  unfold lex. destruct o as [x|]; [|discriminate]. destruct (x =? 0) eqn:X; cbn [negb]; intros E N.
  - apply Z.eqb_eq in X. subst. auto.
  - injection E as ->. eauto.
Qed.
Definition tr_at (a : gval) : Prop := forall b c, plain a -> plain b -> plain c ->
  forall r q, gcmp a b = Some r -> gcmp b c = Some q -> r < 0 -> q < 0 ->
  exists p, gcmp a c = Some p /\ p < 0.
Lemma lex_trans a1 a2 b1 b2 c1 c2 r q :
  tr_at a1 -> tr_at a2 -> plain a1 -> plain a2 -> plain b1 -> plain b2 -> plain c1 -> plain c2 ->
  lex (gcmp a1 b1) (gcmp a2 b2) = Some r -> lex (gcmp b1 c1) (gcmp b2 c2) = Some q ->
  r < 0 -> q < 0 ->
  exists p, lex (gcmp a1 c1) (gcmp a2 c2) = Some p /\ p < 0.
Proof.
  intros T1 T2 A1 A2 B1 B2 C1 C2 E F Rn Qn. apply lex_neg in E; auto. apply lex_neg in F; auto.
  assert (K : forall x, gcmp a1 c1 = Some x -> x < 0 ->
    exists p, lex (gcmp a1 c1) (gcmp a2 c2) = Some p /\ p < 0).
  { intros x -> N. unfold lex. assert (x =? 0 = false) as -> by (apply Z.eqb_neq; lia). cbn. eauto. }
  destruct E as [(x & E & X)|[E E2]], F as [(y & F & Y)|[F F2]].
  - destruct (T1 b1 c1 A1 B1 C1 x y E F X Y) as (p & P & N). eauto.
  - apply gcmp_eq in F; auto. subst. eauto.
  - apply gcmp_eq in E; auto. subst. eauto.
  - apply gcmp_eq in E; auto. apply gcmp_eq in F; auto. subst.
    rewrite (proj2 (gcmp_eq c1 c1 C1 C1) eq_refl). cbn. eauto.
Qed.
Lemma gcmp_trans a : tr_at a.
Proof.
  unfold tr_at. induction a as [|a1 IH1 a2 IH2|a1 IH1 a2 IH2|z|s|f|p|s]; intros b c A B C r q E F Rn Qn;
  rewrite gcmp_unfold in E, F |- *;
  (match type of E with (if kind ?a =? _ then _ else _) = _ =>
     destruct (kind a =? kind b) eqn:K1; destruct (kind b =? kind c) eqn:K2;
     (apply Z.eqb_eq in K1 || apply Z.eqb_neq in K1); (apply Z.eqb_eq in K2 || apply Z.eqb_neq in K2);
     [|injection F as <-; apply kdiff_neg in K2 as K3; assert (kind a <> kind c) as K4 by (rewrite K1; exact K2);
       apply Z.eqb_neq in K4 as K5; rewrite K5; eexists; split; [reflexivity|]; apply kdiff_neg; [exact K4|];
       rewrite K1; now apply K3
      |injection E as <-; apply kdiff_neg in K1 as K3; assert (kind a <> kind c) as K4 by (rewrite <- K2; exact K1);
       apply Z.eqb_neq in K4 as K5; rewrite K5; eexists; split; [reflexivity|]; apply kdiff_neg; [exact K4|];
       rewrite <- K2; now apply K3
      |injection E as <-; injection F as <-; apply kdiff_neg in K1 as K3; apply kdiff_neg in K2 as K6;
       destruct K3 as (K3 & _); destruct K6 as (K6 & _); apply K3 in Rn; apply K6 in Qn;
       assert (kind a <> kind c) as K4 by lia;
       apply Z.eqb_neq in K4 as K5; rewrite K5; eexists; split; [reflexivity|]; apply kdiff_neg; [exact K4|lia]] end;
   rewrite (proj2 (Z.eqb_eq _ _) (eq_trans K1 K2));
   destruct b; try discriminate K1; destruct c; try discriminate K2;
   try (now apply (leafcmp_trans _ _ _ r q A B C E F))).
  - destruct A as [A1 A2], B as [B1 B2], C as [C1 C2].
    exact (lex_trans _ _ _ _ _ _ r q IH1 IH2 A1 A2 B1 B2 C1 C2 E F Rn Qn).
  - destruct A as [A1 A2], B as [B1 B2], C as [C1 C2].
    exact (lex_trans _ _ _ _ _ _ r q IH1 IH2 A1 A2 B1 B2 C1 C2 E F Rn Qn).
Qed.
