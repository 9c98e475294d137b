(* The operators of FsmOps.v on Boolean inputs. *)
From Coq Require Import List Arith NArith ZArith Bool Lia.
From Verif Require Import FsmOps FsmRel.
Import ListNotations.

(* ---------------------------------------------------------------------- *)
(* Specification: dual-rail encoding, numbers of bit vectors (MSB first). *)
Definition enc (b : bool) : bool * bool := (b, negb b).
Definition encv (l : list bool) : list (bool * bool) := map enc l.
Fixpoint uval (l : list bool) : Z :=
  match l with
  | [] => 0
  | b :: l => (if b then 2 ^ Z.of_nat (length l) else 0) + uval l
  end%Z.
Definition sval (l : list bool) : Z :=
  match l with
  | [] => 0
  | b :: t => uval l - (if b then 2 ^ Z.of_nat (length l) else 0)
  end%Z.
(* the operators over the rails 0, 1 *)
Definition bop := eval_op bool andb orb false true.
Local Notation binp := (inp bool true).

(* ---------------------------------------------------------------------- *)
Local Open Scope Z_scope.
Definition two (n : nat) : Z := 2 ^ Z.of_nat n.
Lemma two_pos n : 0 < two n. Proof. unfold two. apply Z.pow_pos_nonneg; lia. Qed.
Lemma two_S n : two (S n) = 2 * two n.
Proof. unfold two. rewrite Nat2Z.inj_succ, Z.pow_succ_r by lia. reflexivity. Qed.
Lemma two_add a b : two (a + b) = two a * two b.
Proof. unfold two. rewrite Nat2Z.inj_add, Z.pow_add_r by lia. reflexivity. Qed.
Lemma uval_cons b l : uval (b :: l) = (if b then two (length l) else 0) + uval l.
Proof. reflexivity. Qed.
Lemma uval_range l : 0 <= uval l < two (length l).
Proof.
  induction l as [|b l IH]; [cbn; lia|]. rewrite uval_cons. cbn [length]. rewrite two_S.
  destruct b; lia.
Qed.
Lemma uval_app l m : uval (l ++ m) = uval l * two (length m) + uval m.
Proof.
  induction l as [|b l IH]; [reflexivity|]. cbn [app]. rewrite !uval_cons, IH, app_length, two_add.
  destruct b; ring.
Qed.
Lemma uval_snoc l b : uval (l ++ [b]) = 2 * uval l + (if b then 1 else 0).
Proof. rewrite uval_app. cbn [length]. change (two 1) with 2. cbn [uval length]. change (2 ^ Z.of_nat 0) with 1. destruct b; lia. Qed.
Lemma uval_repeat0 n : uval (repeat false n) = 0.
Proof. induction n; [reflexivity|]. cbn [repeat]. rewrite uval_cons. exact IHn. Qed.
Lemma uval_repeat1 n : uval (repeat true n) = two n - 1.
Proof. induction n; [reflexivity|]. cbn [repeat]. rewrite uval_cons, repeat_length, IHn, two_S. lia. Qed.
Lemma uval_negb l : uval (map negb l) = two (length l) - 1 - uval l.
Proof.
  induction l as [|b l IH]; [reflexivity|]. cbn [map]. rewrite !uval_cons, map_length, IH. cbn [length].
  rewrite two_S. destruct b; cbn [negb]; lia.
Qed.
Lemma uval_inj l : forall m, length l = length m -> uval l = uval m -> l = m.
Proof.
  induction l as [|b l IH]; intros [|c m] L E; try discriminate; auto.
  injection L as L. rewrite !uval_cons in E. pose proof (uval_range l). pose proof (uval_range m).
  rewrite L in *. assert (b = c) by (destruct b, c; auto; lia). subst c. f_equal. apply IH; auto. lia.
Qed.

(* lists by index *)
Lemma tab_length {A} n (f : nat -> A) : length (tab n f) = n.
Proof. unfold tab. now rewrite map_length, seq_length. Qed.
Lemma tab_nth {A} n (f : nat -> A) i d : (i < n)%nat -> nth i (tab n f) d = f i.
Proof.
  intros L. rewrite (nth_indep _ d (f 0%nat)) by now rewrite tab_length.
  unfold tab. rewrite map_nth, seq_nth; auto.
Qed.
Lemma tab_is {A} n (f : nat -> A) (l : list A) (d : A) : length l = n ->
  (forall i, (i < n)%nat -> nth i l d = f i) -> tab n f = l.
Proof.
  intros L H. apply (nth_ext _ _ d d); rewrite tab_length; auto.
  intros i Li. rewrite tab_nth by assumption. symmetry. now apply H.
Qed.
Lemma tab_ext {A} n (f g : nat -> A) : (forall i, (i < n)%nat -> f i = g i) -> tab n f = tab n g.
Proof. intros H. apply map_ext_in. intros i Hi. apply H. apply in_seq in Hi. lia. Qed.
Lemma tab_map {A B} n (f : nat -> A) (g : A -> B) : tab n (fun i => g (f i)) = map g (tab n f).
Proof. unfold tab. now rewrite map_map. Qed.
Lemma encv_length l : length (encv l) = length l. Proof. apply map_length. Qed.
Lemma encv_app l m : encv (l ++ m) = encv l ++ encv m. Proof. apply map_app. Qed.
Lemma inp_enc l i : (i < length l)%nat -> binp (encv l) i = enc (nth i l false).
Proof.
  intros L. unfold inp, encv. rewrite (nth_indep _ _ (enc false)) by now rewrite map_length.
  apply map_nth.
Qed.
Definition encp (p : bool * bool) := (enc (fst p), enc (snd p)).
Lemma combine_enc a b : combine (encv a) (encv b) = map encp (combine a b).
Proof. revert b. induction a as [|x a IH]; intros [|y b]; cbn; auto. now rewrite IH. Qed.
Lemma inp_app1 a b i : (i < length a)%nat -> binp (encv (a ++ b)) i = enc (nth i a false).
Proof. intros L. rewrite inp_enc by (rewrite app_length; lia). now rewrite app_nth1. Qed.
Lemma inp_app2 a b i : (i < length b)%nat -> binp (encv (a ++ b)) (i + length a) = enc (nth i b false).
Proof.
  intros L. rewrite inp_enc by (rewrite app_length; lia). rewrite app_nth2 by lia. do 2 f_equal. lia.
Qed.
Lemma tab_inp a b n : length a = n -> tab n (binp (encv (a ++ b))) = encv a.
Proof.
  intros L. apply (tab_is n _ _ (enc false)); [now rewrite encv_length|].
  intros i Li. rewrite inp_app1 by lia. unfold encv. now rewrite map_nth.
Qed.
Lemma tab_inp0 a n : length a = n -> tab n (binp (encv a)) = encv a.
Proof. intros L. rewrite <- (app_nil_r a) at 1. now apply tab_inp. Qed.
Lemma tab_inp2 a b n : length a = n -> length b = n ->
  tab n (fun i => binp (encv (a ++ b)) (i + n)) = encv b.
Proof.
  intros La Lb. apply (tab_is n _ _ (enc false)); [now rewrite encv_length|].
  intros i Li. rewrite <- La. rewrite inp_app2 by lia. unfold encv. now rewrite map_nth.
Qed.
Lemma pairs_enc a b n : length a = n -> length b = n ->
  pairs bool true n (encv (a ++ b)) = map encp (combine a b).
Proof.
  intros La Lb. rewrite <- combine_enc. unfold pairs.
  rewrite <- (tab_inp a b n La). rewrite <- (tab_inp2 a b n La Lb).
  unfold tab. generalize (seq 0 n). induction l; cbn; auto. now f_equal.
Qed.
Lemma combine_fst {A B} (a : list A) (b : list B) : length a = length b -> map fst (combine a b) = a.
Proof. revert b. induction a; intros [|y b] L; cbn in *; try discriminate; auto. f_equal; auto. Qed.
Lemma combine_snd {A B} (a : list A) (b : list B) : length a = length b -> map snd (combine a b) = b.
Proof. revert b. induction a; intros [|y b] L; cbn in *; try discriminate; auto. f_equal; auto. Qed.

(* comparison *)
Lemma ge_enc g l : ge_from bool andb orb (enc g) (map encp l) =
  enc (if g then uval (map snd l) <=? uval (map fst l) else uval (map snd l) <? uval (map fst l)).
Proof.
  induction l as [|[a b] l IH]; [destruct g; reflexivity|].
  unfold ge_from in *. cbn [map fold_right]. rewrite IH. clear IH. cbn [fst snd]. rewrite !uval_cons, !map_length.
  pose proof (uval_range (map fst l)) as A. pose proof (uval_range (map snd l)) as B.
  rewrite map_length in A, B.
  set (x := uval (map fst l)) in *. set (y := uval (map snd l)) in *. set (t := two (length l)) in *.
  assert (K : forall p q : Z, 0 <= p < t -> 0 <= q < t ->
    (t + p <=? 0 + q) = false /\ (0 + p <=? t + q) = true /\ (t + p <? 0 + q) = false /\ (0 + p <? t + q) = true
    /\ (t + p <=? t + q) = (p <=? q) /\ (t + p <? t + q) = (p <? q)).
  { intros p q P Q. rewrite !Z.leb_gt, !Z.leb_le, !Z.ltb_ge, !Z.ltb_lt. repeat split; lia. }
  destruct (K y x B A) as (K1 & K2 & K3 & K4 & K5 & K6).
  unfold ge_step, encp, enc. cbn [fst snd].
  destruct a, b, g; cbn [negb andb orb]; rewrite ?K1, ?K2, ?K3, ?K4, ?K5, ?K6, ?Z.add_0_l; auto;
    destruct (y <=? x), (y <? x); reflexivity.
Qed.
(* addition *)
Lemma add_enc c l : exists k s, fold_right (add_step bool andb orb) (enc c, []) (map encp l) = (enc k, encv s) /\
  length s = length l /\
  uval s + (if k then two (length l) else 0) =
  uval (map fst l) + uval (map snd l) + (if c then 1 else 0).
Proof.
  induction l as [|[a b] l IH].
  - exists c, []. split; [reflexivity|]. split; [reflexivity|]. cbn [map uval length]. change (two 0) with 1. destruct c; lia.
  - destruct IH as (k & s & E & L & U). cbn [map fold_right]. rewrite E.
    exists ((a && b) || (a && k) || (b && k)), (xorb (xorb a b) k :: s).
    split; [|split].
    + unfold add_step, encp, enc. cbn [fst snd map encv]. destruct a, b, k; reflexivity.
    + cbn. now rewrite L.
    + cbn [fst snd length]. rewrite !uval_cons, !map_length, L, two_S.
      destruct a, b, k, c; cbn [andb orb xorb]; lia.
Qed.
Lemma add_from_enc c l : exists s, add_from bool andb orb (enc c) (map encp l) = encv s /\
  length s = length l /\
  uval s = (uval (map fst l) + uval (map snd l) + (if c then 1 else 0)) mod two (length l).
Proof.
  destruct (add_enc c l) as (k & s & E & L & U). exists s. split; [exact (f_equal snd E)|]. split; auto.
  pose proof (uval_range s) as R. rewrite L in R.
  apply (Z.mod_unique_pos _ _ (if k then 1 else 0)); auto. rewrite <- U. destruct k; lia.
Qed.
Lemma sub_enc l : exists s, sub_list bool andb orb false true (map encp l) = encv s /\
  length s = length l /\ uval s = (uval (map fst l) - uval (map snd l)) mod two (length l).
Proof.
  unfold sub_list. rewrite map_map.
  assert (X : map (fun x => (fst (encp x), swap bool (snd (encp x)))) l =
              map encp (map (fun x => (fst x, negb (snd x))) l)).
  { rewrite map_map. apply map_ext. intros [a b]. unfold encp, swap, enc. cbn. now rewrite negb_involutive. }
  rewrite X. destruct (add_from_enc true (map (fun x => (fst x, negb (snd x))) l)) as (s & E & L & U).
  change (r1 bool false true) with (enc true). exists s. split; auto. rewrite map_length in L, U. split; auto.
  rewrite U, !map_map. cbn [fst snd].
  assert (Y : uval (map (fun x : bool * bool => negb (snd x)) l) = two (length l) - 1 - uval (map snd l)).
  { rewrite <- (map_map snd negb), uval_negb, map_length. reflexivity. }
  rewrite Y. replace (uval (map (fun x => fst x) l)) with (uval (map fst l)) by reflexivity.
  replace (uval (map fst l) + (two (length l) - 1 - uval (map snd l)) + 1)
    with (uval (map fst l) - uval (map snd l) + 1 * two (length l)) by ring.
  apply Z.mod_add. pose proof (two_pos (length l)). lia.
Qed.
(* multiplexers *)
Lemma ite1_enc c a b : ite1 bool andb orb (enc c) a b = if c then a else b.
Proof. destruct c, a as [[] []], b as [[] []]; reflexivity. Qed.
Lemma ite1p_enc c a b : ite1_plain bool andb orb (enc c) a b = if c then a else b.
Proof. destruct c, a as [[] []], b as [[] []]; reflexivity. Qed.
Lemma ite_enc c a : forall b, length a = length b ->
  ite_list bool andb orb (enc c) a b = if c then a else b.
Proof.
  unfold ite_list. induction a as [|x a IH]; intros [|y b] L; cbn in *; try discriminate.
  - now destruct c.
  - rewrite ite1_enc, IH by lia. now destruct c.
Qed.

(* the bit-level operators *)
Definition zipb (f : bool -> bool -> bool) (a b : list bool) : list bool :=
  map (fun p => f (fst p) (snd p)) (combine a b).
Lemma op_and_enc a b n : length a = n -> length b = n -> bop OAnd n (encv (a ++ b)) = encv (zipb andb a b).
Proof.
  intros La Lb. cbn [bop eval_op]. unfold bop. cbn [eval_op]. rewrite pairs_enc by assumption.
  unfold zipb, encv. rewrite !map_map. apply map_ext. intros [[] []]; reflexivity.
Qed.
Lemma op_or_enc a b n : length a = n -> length b = n -> bop OOr n (encv (a ++ b)) = encv (zipb orb a b).
Proof.
  intros La Lb. unfold bop. cbn [eval_op]. rewrite pairs_enc by assumption.
  unfold zipb, encv. rewrite !map_map. apply map_ext. intros [[] []]; reflexivity.
Qed.
Lemma op_not_enc a n : length a = n -> bop ONot n (encv a) = encv (map negb a).
Proof.
  intros La. unfold bop. cbn [eval_op]. rewrite (tab_map n (binp (encv a)) (swap bool)), tab_inp0 by assumption.
  unfold encv. rewrite !map_map. apply map_ext. intros []; reflexivity.
Qed.
Lemma op_var_enc a n : length a = n -> bop OVar n (encv a) = encv a /\ bop OWire n (encv a) = encv a.
Proof. intros La. unfold bop. cbn [eval_op]. split; now apply tab_inp0. Qed.
Lemma op_ite_enc acc c a b n : length a = n -> length b = n ->
  bop (OIte acc) n (encv (c :: a ++ b)) = encv (if c then a else b).
Proof.
  intros La Lb. unfold bop. cbn [eval_op].
  transitivity (if c then tab n (binp (encv (a ++ b))) else tab n (fun i => binp (encv (a ++ b)) (i + n))).
  - destruct c; apply tab_ext; intros i Li; cbn [Nat.add]; change (encv (?x :: ?l)) with (enc x :: encv l);
      unfold inp at 1; cbn [nth]; unfold inp; cbn [nth]; destruct acc;
      rewrite ?(ite1_enc true), ?(ite1_enc false), ?(ite1p_enc true), ?(ite1p_enc false); reflexivity.
  - destruct c; [now apply tab_inp|now apply tab_inp2].
Qed.
Lemma op_eq_enc a b n : length a = n -> length b = n ->
  bop (OEq n) 1 (encv (a ++ b)) = [enc (if list_eq_dec bool_dec a b then true else false)].
Proof.
  intros La Lb. unfold bop. cbn [eval_op]. unfold op_EQ. rewrite pairs_enc by assumption. f_equal.
  change (r1 bool false true) with (enc true).
  assert (X : forall a b e, length a = length b ->
    fold_left (eq_step bool andb orb) (map encp (combine a b)) (enc e) =
    enc (e && if list_eq_dec bool_dec a b then true else false)).
  { clear. induction a as [|x a IH]; intros [|y b] e L; try discriminate.
    - cbn. now rewrite andb_true_r.
    - cbn [combine map fold_left]. injection L as L.
      replace (eq_step bool andb orb (enc e) (encp (x, y))) with (enc (e && Bool.eqb x y))
        by (destruct x, y, e; reflexivity).
      rewrite IH by assumption. f_equal.
      destruct (list_eq_dec bool_dec a b) as [E|E], (list_eq_dec bool_dec (x :: a) (y :: b)) as [F|F].
      + injection F as -> _. now rewrite eqb_reflx, andb_true_r.
      + destruct (bool_dec x y) as [Q|Q]; [congruence|]. apply eqb_false_iff in Q. rewrite Q. now rewrite !andb_false_r.
      + congruence.
      + now rewrite !andb_false_r. }
  rewrite X by congruence. reflexivity.
Qed.
Lemma op_gr_enc a b n : length a = n -> length b = n ->
  bop (OGr n) 1 (encv (a ++ b)) = [enc (uval b <? uval a)].
Proof.
  intros La Lb. unfold bop. cbn [eval_op]. unfold op_GR. rewrite pairs_enc by assumption. f_equal.
  change (r0 bool false true) with (enc false). rewrite ge_enc, combine_fst, combine_snd by congruence.
  reflexivity.
Qed.

(* constants: the low n bits of v *)
Lemma op_const_enc v n : exists r, bop (OConst v) n [] = encv r /\ length r = n /\
  uval r = v mod two n.
Proof.
  unfold bop. cbn [eval_op]. unfold op_CONST.
  assert (X : forall (l : list nat), exists r,
    fold_right (fun (_ : nat) '(ptr, out) =>
        (ptr * 2, (if Z.land v ptr =? 0 then r0 bool false true else r1 bool false true) :: out))
      (1, []) l = (two (length l), encv r) /\ length r = length l /\ uval r = v mod two (length l)).
  { induction l as [|x l IH].
    - exists []. cbn. split; auto. split; auto. change (two 0) with 1. now rewrite Z.mod_1_r.
    - destruct IH as (r & E & L & U). cbn [fold_right]. rewrite E. clear E.
      set (k := length l) in *.
      exists (Z.testbit v (Z.of_nat k) :: r).
      assert (T : (Z.land v (two k) =? 0) = negb (Z.testbit v (Z.of_nat k))).
      { unfold two. destruct (Z.testbit v (Z.of_nat k)) eqn:B; cbn [negb].
        - apply Z.eqb_neq. intros C. assert (D : Z.testbit (Z.land v (2 ^ Z.of_nat k)) (Z.of_nat k) = false) by now rewrite C, Z.bits_0.
          rewrite Z.land_spec, B, Z.pow2_bits_true in D by lia. discriminate.
        - apply Z.eqb_eq. apply Z.bits_inj. intros i. rewrite Z.land_spec, Z.bits_0.
          destruct (Z.eq_dec i (Z.of_nat k)) as [->|Ne]; [now rewrite B|].
          rewrite Z.pow2_bits_false by lia. apply andb_false_r. }
      cbn [length]. fold k. split; [|split].
      + f_equal; [rewrite two_S; ring|]. unfold encv. cbn [map]. f_equal. rewrite T.
        destruct (Z.testbit v (Z.of_nat k)); reflexivity.
      + now rewrite L.
      + rewrite uval_cons, L, U, two_S, Z.mul_comm. fold k.
        pose proof (two_pos k) as P.
        rewrite Z.rem_mul_r by lia.
        pose proof (Z.testbit_spec' v (Z.of_nat k) ltac:(lia)) as S'. fold (two k) in S'.
        rewrite <- S'. destruct (Z.testbit v (Z.of_nat k)); cbn [Z.b2z]; lia. }
  destruct (X (seq 0 n)) as (r & E & L & U). rewrite seq_length in *. rewrite E. exists r. auto.
Qed.

(* arithmetic *)
Lemma op_add_enc a b n : length a = n -> length b = n ->
  exists r, bop OAdd n (encv (a ++ b)) = encv r /\ length r = n /\ uval r = (uval a + uval b) mod two n.
Proof.
  intros La Lb. unfold bop. cbn [eval_op]. unfold op_ADD. rewrite pairs_enc by assumption.
  change (r0 bool false true) with (enc false). destruct (add_from_enc false (combine a b)) as (s & E & L & U).
  rewrite combine_length, La, Lb, Nat.min_id in *. rewrite combine_fst, combine_snd in U by congruence.
  exists s. rewrite E, U. rewrite Z.add_0_r. auto.
Qed.
Lemma op_sub_enc a b n : length a = n -> length b = n ->
  exists r, bop OSub n (encv (a ++ b)) = encv r /\ length r = n /\ uval r = (uval a - uval b) mod two n.
Proof.
  intros La Lb. unfold bop. cbn [eval_op]. unfold op_SUB. rewrite pairs_enc by assumption.
  destruct (sub_enc (combine a b)) as (s & E & L & U).
  rewrite combine_length, La, Lb, Nat.min_id in *. rewrite combine_fst, combine_snd in U by congruence.
  exists s. rewrite E, U. auto.
Qed.
