(* Word-level operators of FsmOps.v on Boolean inputs: products, quotients,
   shifts, extensions, slices, memories. *)
From Coq Require Import List Arith NArith ZArith Bool Lia.
From Verif Require Import FsmOps FsmRel FsmBool.
Import ListNotations.
Local Open Scope Z_scope.
Local Notation binp := (inp bool true).

(* ---------------------------------------------------------------------- *)
(* pieces of vectors *)
Lemma nth_skipn {A} (l : list A) c d : forall i, nth i (skipn c l) d = nth (i + c) l d.
Proof.
  revert l. induction c as [|c IH]; intros l i; [now rewrite Nat.add_0_r|].
  destruct l as [|x l]; [destruct i; reflexivity|]. cbn [skipn]. rewrite IH.
  rewrite Nat.add_succ_r. reflexivity.
Qed.
Lemma nth_firstn {A} (l : list A) d : forall c i, (i < c)%nat -> nth i (firstn c l) d = nth i l d.
Proof.
  induction l as [|x l IH]; intros [|c] i L; cbn; try lia; auto. destruct i; auto. apply IH. lia.
Qed.
Lemma nth_rep {A} (x : A) n i d : (i < n)%nat -> nth i (repeat x n) d = x.
Proof. revert i. induction n; intros [|i] L; cbn; try lia; auto. apply IHn. lia. Qed.
Lemma skipn_S {A} (d : A) : forall i b, (i < length b)%nat -> skipn i b = nth i b d :: skipn (S i) b.
Proof.
  induction i as [|i IH]; intros [|x b] L; cbn [length] in L; try lia; [reflexivity|].
  cbn [skipn nth] in *. apply IH. lia.
Qed.
Lemma uval_split a c : (c <= length a)%nat ->
  uval a = uval (firstn c a) * two (length a - c) + uval (skipn c a).
Proof.
  intros L. rewrite <- (firstn_skipn c a) at 1. rewrite uval_app, skipn_length. reflexivity.
Qed.
Lemma uval_skipn a c : (c <= length a)%nat -> uval (skipn c a) = uval a mod two (length a - c).
Proof.
  intros L. pose proof (uval_range (skipn c a)) as R. rewrite skipn_length in R.
  symmetry. symmetry. apply (Z.mod_unique_pos _ _ (uval (firstn c a))); auto.
  rewrite (uval_split a c L). ring.
Qed.
Lemma uval_firstn a c : (c <= length a)%nat -> uval (firstn c a) = uval a / two (length a - c).
Proof.
  intros L. pose proof (uval_range (skipn c a)) as R. rewrite skipn_length in R.
  apply (Z.div_unique_pos _ _ _ (uval (skipn c a))); auto. rewrite (uval_split a c L). ring.
Qed.
Lemma mod_two_mul x n s : (s <= n)%nat -> (x * two s) mod two n = (x mod two (n - s)) * two s.
Proof.
  intros L. replace n with (n - s + s)%nat at 1 by lia. rewrite two_add.
  apply Z.mul_mod_distr_r; pose proof (two_pos (n - s)); pose proof (two_pos s); lia.
Qed.

(* ---------------------------------------------------------------------- *)
(* multiplication *)
Lemma pp_enc a b n i : length a = n -> length b = n -> (i < n)%nat ->
  mul_pp bool andb orb false true n (encv (a ++ b)) i =
  encv (map (andb (nth i b false)) (skipn (n - i - 1) a) ++ repeat false (n - i - 1)).
Proof.
  intros La Lb Li. unfold mul_pp. set (s := (n - i - 1)%nat).
  assert (Ls : (s < n)%nat) by lia.
  apply (tab_is n _ _ (enc false)).
  - rewrite encv_length, app_length, map_length, skipn_length, repeat_length. lia.
  - intros j Lj. unfold encv. rewrite map_nth. destruct (Nat.ltb_spec (n - j - 1) s) as [C|C].
    + rewrite app_nth2; rewrite map_length, skipn_length; [|lia]. rewrite nth_rep by lia. reflexivity.
    + rewrite app_nth1 by (rewrite map_length, skipn_length; lia).
      rewrite (nth_indep _ false (nth i b false && false)) by (rewrite map_length, skipn_length; lia).
      rewrite map_nth, nth_skipn. fold (encv (a ++ b)). rewrite <- La at 1. rewrite inp_app2 by lia.
      rewrite inp_app1 by lia. destruct (nth i b false), (nth (j + s) a false); reflexivity.
Qed.
Lemma uval_mask c l : uval (map (andb c) l) = if c then uval l else 0.
Proof.
  destruct c.
  - f_equal. rewrite <- map_id. apply map_ext. reflexivity.
  - induction l as [|x l IH]; [reflexivity|]. cbn [map]. rewrite uval_cons, IH. reflexivity.
Qed.
Lemma pp_val a b n i : length a = n -> (i < n)%nat ->
  uval (map (andb (nth i b false)) (skipn (n - i - 1) a) ++ repeat false (n - i - 1)) =
  (uval a * (if nth i b false then two (n - i - 1) else 0)) mod two n.
Proof.
  intros La Li. rewrite uval_app, uval_repeat0, repeat_length, uval_mask, Z.add_0_r.
  destruct (nth i b false); [|now rewrite Z.mul_0_r, Z.mod_0_l by (pose proof (two_pos n); lia)].
  rewrite mod_two_mul by lia. rewrite uval_skipn by lia. now rewrite La.
Qed.
Lemma op_mul_enc a b n : length a = n -> length b = n ->
  exists r, bop OMul n (encv (a ++ b)) = encv r /\ length r = n /\ uval r = (uval a * uval b) mod two n.
Proof.
  intros La Lb. unfold bop. cbn [eval_op]. unfold op_MUL.
  pose proof (two_pos n) as Pn.
  assert (X : forall k, (k <= n)%nat -> exists r,
    fold_right (fun i out => add_from bool andb orb (r0 bool false true)
        (combine (mul_pp bool andb orb false true n (encv (a ++ b)) i) out))
      (repeat (r0 bool false true) n) (seq (n - k) k) = encv r /\ length r = n /\
    uval r = (uval a * uval (skipn (n - k) b)) mod two n).
  { induction k as [|k IH]; intros Lk.
    - exists (repeat false n). cbn [seq fold_right]. rewrite repeat_length, uval_repeat0.
      split; [|split; auto].
      + clear. induction n; cbn; auto. now rewrite IHn.
      + rewrite skipn_all2 by lia. cbn [uval]. rewrite Z.mul_0_r. now rewrite Z.mod_0_l by lia.
    - destruct IH as (r & E & L & U); [lia|]. cbn [seq fold_right].
      replace (S (n - S k)) with (n - k)%nat by lia. rewrite E. clear E.
      set (i := (n - S k)%nat) in *. assert (Li : (i < n)%nat) by lia.
      rewrite (pp_enc a b n i La Lb Li).
      set (pp := map (andb (nth i b false)) (skipn (n - i - 1) a) ++ repeat false (n - i - 1)).
      assert (Lp : length pp = n).
      { unfold pp. rewrite app_length, map_length, skipn_length, repeat_length. lia. }
      rewrite combine_enc. destruct (add_from_enc false (combine pp r)) as (s & E & Ls & Us).
      change (r0 bool false true) with (enc false). rewrite E. exists s. split; auto.
      rewrite combine_length, Lp, L, Nat.min_id in Ls, Us.
      rewrite combine_fst, combine_snd in Us by congruence. split; auto.
      rewrite Us, Z.add_0_r, U. unfold pp. rewrite (pp_val a b n i La Li).
      rewrite <- Z.add_mod by lia. f_equal. rewrite <- Z.mul_add_distr_l. f_equal.
      assert (D : skipn i b = nth i b false :: skipn (n - k) b).
      { replace (n - k)%nat with (S i) by lia. apply skipn_S. lia. }
      rewrite D, uval_cons, skipn_length, Lb. replace (n - i - 1)%nat with (n - (n - k))%nat by lia. reflexivity. }
  destruct (X n (le_n n)) as (r & E & L & U). rewrite Nat.sub_diag in E, U. exists r. auto.
Qed.

(* ---------------------------------------------------------------------- *)
(* division: dividend bits MSB first *)
Lemma shl1_enc q c : (0 < length q)%nat -> uval q < two (length q - 1) ->
  exists q', shl1 bool (encv q) (enc c) = encv q' /\ length q' = length q /\
    uval q' = 2 * uval q + (if c then 1 else 0).
Proof.
  intros L U. destruct q as [|x q]; [cbn in L; lia|]. cbn [length] in *. rewrite Nat.sub_succ, Nat.sub_0_r in U.
  exists (q ++ [c]). split; [|split].
  - unfold shl1. cbn [encv map tl]. unfold encv. now rewrite map_app.
  - rewrite app_length. cbn. lia.
  - rewrite uval_snoc. rewrite uval_cons in *. pose proof (uval_range q). destruct x; lia.
Qed.
Lemma div_step_enc b q r c : let n := length b in
  length q = n -> length r = n -> (0 < n)%nat ->
  uval q < two (n - 1) -> uval r < two (n - 1) ->
  exists q' r', div_step bool andb orb false true (encv b) (encv q, encv r) (enc c) = (encv q', encv r') /\
    length q' = n /\ length r' = n /\
    let x := 2 * uval r + (if c then 1 else 0) in
    uval q' = 2 * uval q + (if uval b <=? x then 1 else 0) /\
    uval r' = if uval b <=? x then x - uval b else x.
Proof.
  intros n Lq Lr Pn Uq Ur. cbn zeta. unfold div_step.
  destruct (shl1_enc r c) as (r2 & E2 & L2 & U2); [lia|rewrite Lr; assumption|]. rewrite E2.
  rewrite combine_enc. change (r1 bool false true) with (enc true). rewrite ge_enc.
  assert (LL : length r2 = length b) by (rewrite L2, Lr; reflexivity).
  rewrite combine_fst, combine_snd by assumption. rewrite U2.
  set (x := 2 * uval r + (if c then 1 else 0)) in *. set (g := uval b <=? x).
  destruct (shl1_enc q g) as (q2 & Eq & Lq2 & Uq2); [lia|rewrite Lq; assumption|]. rewrite Eq.
  destruct (sub_enc (combine r2 b)) as (s & Es & Ls & Us). rewrite Es.
  rewrite combine_length, LL, Nat.min_id in Ls, Us. rewrite combine_fst, combine_snd in Us by assumption.
  rewrite ite_enc by (rewrite !encv_length; congruence).
  exists q2, (if g then s else r2). split; [now destruct g|]. split; [congruence|].
  split; [destruct g; subst n; congruence|]. split; [assumption|].
  subst g. destruct (Z.leb_spec (uval b) x) as [C|C].
  - rewrite Us. rewrite U2. apply Z.mod_small. pose proof (uval_range r2) as R. rewrite LL in R.
    pose proof (uval_range b). lia.
  - exact U2.
Qed.
Lemma div_loop_enc b n : length b = n -> forall a,  (length a <= n)%nat ->
  exists q r, fold_left (div_step bool andb orb false true (encv b)) (encv a)
      (repeat (r0 bool false true) n, repeat (r0 bool false true) n) = (encv q, encv r) /\
    length q = n /\ length r = n /\
    (uval b = 0 -> uval q = two (length a) - 1 /\ uval r = uval a) /\
    (uval b <> 0 -> uval q = uval a / uval b /\ uval r = uval a mod uval b).
Proof.
  intros Lb a. induction a as [|c a IH] using rev_ind; intros La.
  - exists (repeat false n), (repeat false n). cbn [encv map fold_left length]. rewrite repeat_length, uval_repeat0.
    split; [|split; [auto|split; [auto|split]]].
    + assert (Q : forall k, repeat (r0 bool false true) k = map enc (repeat false k)).
      { induction k; cbn; auto. now rewrite IHk. }
      now rewrite Q.
    + intros _. split; reflexivity.
    + intros Nz. cbn [uval]. rewrite Z.div_0_l, Z.mod_0_l by assumption. auto.
  - rewrite app_length in La. cbn [length] in La.
    destruct IH as (q & r & E & Lq & Lr & Z0 & NZ); [lia|].
    unfold encv at 2. rewrite map_app. fold (encv a). cbn [map]. rewrite fold_left_app. cbn [fold_left].
    rewrite E. clear E.
    pose proof (uval_range a) as Ra. pose proof (uval_range b) as Rb.
    assert (Mono : two (length a) <= two (n - 1)).
    { unfold two. apply Z.pow_le_mono_r; lia. }
    assert (Uq : uval q < two (n - 1)).
    { destruct (Z.eq_dec (uval b) 0) as [e|e]; [destruct (Z0 e); lia|]. destruct (NZ e) as [-> _].
      pose proof (Z.div_le_upper_bound (uval a) (uval b) (uval a)). nia. }
    assert (Ur : uval r < two (n - 1)).
    { destruct (Z.eq_dec (uval b) 0) as [e|e]; [destruct (Z0 e); lia|]. destruct (NZ e) as [_ ->].
      pose proof (Z.mod_le (uval a) (uval b)). lia. }
    destruct (div_step_enc b q r c) as (q' & r' & E & Lq' & Lr' & Vq & Vr); try congruence; try lia.
    exists q', r'. split; [assumption|]. split; [congruence|]. split; [congruence|].
    set (x := 2 * uval r + (if c then 1 else 0)) in *.
    rewrite app_length, uval_snoc. cbn [length]. rewrite Nat.add_1_r, two_S. split.
    + intros e. destruct (Z0 e) as [A B]. rewrite Vq, Vr, e. pose proof (uval_range r).
      assert (0 <= x) by (subst x; destruct c; lia).
      assert (Q : (0 <=? x) = true) by (apply Z.leb_le; lia). rewrite Q. subst x. lia.
    + intros e. destruct (NZ e) as [A B].
      assert (Pb : 0 < uval b) by lia. pose proof (Z.mod_pos_bound (uval a) (uval b) Pb) as Rm.
      pose proof (Z.div_mod (uval a) (uval b) e) as DM. rewrite <- A, <- B in DM. rewrite <- B in Rm.
      assert (W : forall Q R, 2 * uval a + (if c then 1 else 0) = uval b * Q + R -> 0 <= R < uval b ->
        Q = (2 * uval a + (if c then 1 else 0)) / uval b /\ R = (2 * uval a + (if c then 1 else 0)) mod uval b).
      { intros Q R H1 H2. split; [apply (Z.div_unique_pos _ _ _ R)|apply (Z.mod_unique_pos _ _ Q)]; assumption. }
      apply W; rewrite ?Vq, ?Vr; destruct (Z.leb_spec (uval b) x) as [C|C]; subst x; destruct c; lia.
Qed.
Lemma op_div_enc a b n : length a = n -> length b = n ->
  exists q r, bop ODiv n (encv (a ++ b)) = encv q /\ bop OMod n (encv (a ++ b)) = encv r /\
    length q = n /\ length r = n /\
    (uval b = 0 -> uval q = two n - 1 /\ uval r = uval a) /\
    (uval b <> 0 -> uval q = uval a / uval b /\ uval r = uval a mod uval b).
Proof.
  intros La Lb. unfold bop. cbn [eval_op]. unfold op_DIV, op_MOD, div_loop.
  rewrite tab_inp, tab_inp2 by assumption.
  destruct (div_loop_enc b n Lb a) as (q & r & E & Lq & Lr & Z0 & NZ); [lia|]. rewrite E.
  exists q, r. cbn [fst snd]. rewrite La in Z0. auto 8.
Qed.

(* ---------------------------------------------------------------------- *)
(* shifts: element i of the result is element i + d of the argument, or the fill *)
Definition shz (n : nat) (fill : bool) (a : list bool) (d : Z) : list bool :=
  tab n (fun i => if outside n (Z.of_nat i + d) then fill else nth (Z.to_nat (Z.of_nat i + d)) a false).
Lemma outside_spec n i : outside n i = false <-> 0 <= i < Z.of_nat n.
Proof. unfold outside. rewrite orb_false_iff, Z.ltb_ge, Z.leb_gt. lia. Qed.
Lemma shz_length n f a d : length (shz n f a d) = n. Proof. apply tab_length. Qed.
Lemma shz_nth n f a d i : (i < n)%nat -> nth i (shz n f a d) false =
  if outside n (Z.of_nat i + d) then f else nth (Z.to_nat (Z.of_nat i + d)) a false.
Proof. intros L. unfold shz. now rewrite tab_nth. Qed.
Lemma shz_add n f a d e : (0 <= d /\ 0 <= e) \/ (d <= 0 /\ e <= 0) ->
  shz n f (shz n f a d) e = shz n f a (d + e).
Proof.
  intros S. unfold shz at 1 3. apply tab_ext. intros i Li.
  destruct (outside n (Z.of_nat i + e)) eqn:O1.
  - destruct (outside n (Z.of_nat i + (d + e))) eqn:O2; auto.
    apply outside_spec in O2. assert (~ 0 <= Z.of_nat i + e < Z.of_nat n); [|lia].
    intros C. apply outside_spec in C. congruence.
  - apply outside_spec in O1. rewrite shz_nth by lia. rewrite Z2Nat.id by lia.
    replace (Z.of_nat i + e + d) with (Z.of_nat i + (d + e)) by ring. reflexivity.
Qed.
Lemma shz_0 n f a : length a = n -> shz n f a 0 = a.
Proof.
  intros L. apply (tab_is n _ _ false); auto. intros i Li. rewrite Z.add_0_r, Nat2Z.id.
  assert (O : outside n (Z.of_nat i) = false) by (apply outside_spec; lia). now rewrite O.
Qed.
Lemma shl_list n a c : length a = n -> (c <= n)%nat ->
  shz n false a (Z.of_nat c) = skipn c a ++ repeat false c.
Proof.
  intros La Lc. apply (tab_is n _ _ false).
  - rewrite app_length, skipn_length, repeat_length. lia.
  - intros i Li. destruct (outside n (Z.of_nat i + Z.of_nat c)) eqn:O.
    + assert (n <= i + c)%nat. { destruct (Nat.le_gt_cases n (i + c)); auto.
        assert (outside n (Z.of_nat i + Z.of_nat c) = false) by (apply outside_spec; lia). congruence. }
      rewrite app_nth2; rewrite skipn_length; [|lia]. now rewrite nth_rep by lia.
    + apply outside_spec in O. rewrite app_nth1 by (rewrite skipn_length; lia). rewrite nth_skipn. f_equal. lia.
Qed.
Lemma shr_list n f a c : length a = n -> (c <= n)%nat ->
  shz n f a (- Z.of_nat c) = repeat f c ++ firstn (n - c) a.
Proof.
  intros La Lc. apply (tab_is n _ _ false).
  - rewrite app_length, firstn_length, repeat_length. lia.
  - intros i Li. destruct (outside n (Z.of_nat i + - Z.of_nat c)) eqn:O.
    + assert (i < c)%nat. { destruct (Nat.lt_ge_cases i c); auto.
        assert (outside n (Z.of_nat i + - Z.of_nat c) = false) by (apply outside_spec; lia). congruence. }
      rewrite app_nth1 by now rewrite repeat_length. now rewrite nth_rep by lia.
    + apply outside_spec in O. rewrite app_nth2; rewrite repeat_length; [|lia].
      rewrite nth_firstn by lia. f_equal. lia.
Qed.
Lemma shz_far n f a d : (Z.of_nat n <= d \/ d <= - Z.of_nat n) -> shz n f a d = repeat f n.
Proof.
  intros D. apply (tab_is n _ _ false); [apply repeat_length|]. intros i Li. rewrite nth_rep by assumption.
  assert (O : outside n (Z.of_nat i + d) = true); [|now rewrite O].
  destruct (outside n (Z.of_nat i + d)) eqn:O; auto. apply outside_spec in O. lia.
Qed.
Lemma two_far n d : Z.of_nat n <= d -> 2 ^ d mod two n = 0.
Proof.
  intros L. unfold two. replace d with (d - Z.of_nat n + Z.of_nat n) by ring.
  rewrite Z.pow_add_r by lia. apply Z.mod_mul. pose proof (two_pos n). unfold two in *. lia.
Qed.
Lemma shl_val n a c : length a = n -> 0 <= c -> uval (shz n false a c) = (uval a * 2 ^ c) mod two n.
Proof.
  intros La Pc. destruct (Z.le_gt_cases (Z.of_nat n) c) as [L|L].
  - rewrite shz_far by auto. rewrite uval_repeat0, Z.mul_mod by (pose proof (two_pos n); lia).
    rewrite two_far by assumption. now rewrite Z.mul_0_r, Z.mod_0_l by (pose proof (two_pos n); lia).
  - rewrite <- (Z2Nat.id c Pc) in *. set (k := Z.to_nat c) in *. rewrite shl_list by lia.
    rewrite uval_app, uval_repeat0, repeat_length, Z.add_0_r. fold (two k). rewrite mod_two_mul by lia.
    rewrite uval_skipn by lia. now rewrite La.
Qed.
Lemma shr_val n a c : length a = n -> 0 <= c -> uval (shz n false a (- c)) = uval a / 2 ^ c.
Proof.
  intros La Pc. pose proof (uval_range a) as R. rewrite La in R.
  destruct (Z.le_gt_cases (Z.of_nat n) c) as [L|L].
  - rewrite shz_far by lia. rewrite uval_repeat0. symmetry. apply Z.div_small.
    assert (two n <= 2 ^ c) by (apply Z.pow_le_mono_r; lia). lia.
  - rewrite <- (Z2Nat.id c Pc) in *. set (k := Z.to_nat c) in *. rewrite shr_list by lia.
    rewrite uval_app, uval_repeat0, uval_firstn by lia. rewrite Z.mul_0_l, Z.add_0_l. fold (two k).
    do 2 f_equal. lia.
Qed.
Lemma sval_hd a : sval a = uval a - (if hd false a then two (length a) else 0).
Proof. destruct a; reflexivity. Qed.
Lemma hd_nth {A} (l : list A) d : hd d l = nth 0 l d.
Proof. now destruct l. Qed.
Lemma ashr_val n a c : length a = n -> 0 <= c ->
  sval (shz n (hd false a) a (- c)) = sval a / 2 ^ c.
Proof.
  intros La Pc. destruct n as [|n0]; [destruct a; [|discriminate]; reflexivity|]. set (n := S n0) in *.
  pose proof (uval_range a) as R. rewrite La in R.
  assert (Hd : hd false (shz n (hd false a) a (- c)) = hd false a).
  { rewrite hd_nth. rewrite shz_nth by (subst n; lia). destruct (outside n (Z.of_nat 0 + - c)) eqn:O; auto.
    apply outside_spec in O. rewrite hd_nth. f_equal. lia. }
  rewrite !sval_hd, Hd, shz_length, La. clear Hd.
  assert (HB : if hd false a then two n0 <= uval a else uval a < two n0).
  { destruct a as [|x a]; [discriminate|]. injection La as La. cbn [hd]. rewrite uval_cons, La.
    pose proof (uval_range a) as Q. rewrite La in Q. destruct x; lia. }
  assert (Pn : two n = 2 * two n0) by (subst n; apply two_S).
  pose proof (two_pos n0) as P0.
  destruct (Z.le_gt_cases (Z.of_nat n) c) as [L|L].
  - rewrite shz_far by lia. assert (B : two n <= 2 ^ c) by (apply Z.pow_le_mono_r; lia).
    destruct (hd false a).
    + rewrite uval_repeat1. replace (two n - 1 - two n) with (-1) by ring.
      apply (Z.div_unique_pos _ _ _ (uval a - two n + 2 ^ c)); lia.
    + rewrite uval_repeat0. rewrite !Z.sub_0_r. symmetry. apply Z.div_small. lia.
  - rewrite <- (Z2Nat.id c Pc) in *. set (k := Z.to_nat c) in *. rewrite shr_list by lia. fold (two k).
    rewrite uval_app, uval_firstn, firstn_length by lia. rewrite La.
    replace (Nat.min (n - k) n) with (n - k)%nat by lia. replace (n - (n - k))%nat with k by lia.
    pose proof (two_pos k) as Pk. pose proof (two_pos (n - k)) as Pnk.
    assert (T : two n = two (n - k) * two k) by (rewrite <- two_add; f_equal; lia).
    destruct (hd false a).
    + rewrite uval_repeat1. replace (uval a - two n) with (uval a + (- two (n - k)) * two k) by (rewrite T; ring).
      rewrite Z.div_add by lia. rewrite T. ring.
    + rewrite uval_repeat0. rewrite !Z.sub_0_r. ring.
Qed.

(* the loops; x is the shift amount modulo 2^32 *)
Lemma int32_small x : -2147483648 <= x < 2147483648 -> int32 x = x.
Proof. intros R. unfold int32. rewrite Z.mod_small by lia. ring. Qed.
Lemma int32_big x : 2147483648 <= x < 4294967296 -> int32 x = x - 4294967296.
Proof.
  intros R. unfold int32.
  replace (x + 2147483648) with (x - 2147483648 + 1 * 4294967296) by ring.
  rewrite Z.mod_add by lia. rewrite Z.mod_small by lia. ring.
Qed.
Lemma int32_wrap x k : int32 (x + k * 4294967296) = int32 x.
Proof. unfold int32. replace (x + k * 4294967296 + 2147483648) with (x + 2147483648 + k * 4294967296) by ring. now rewrite Z.mod_add by lia. Qed.
Lemma int32_add x y : int32 (x + int32 y) = int32 (x + y).
Proof.
  unfold int32 at 2. pose proof (Z.div_mod (y + 2147483648) 4294967296 ltac:(lia)) as D.
  replace (x + ((y + 2147483648) mod 4294967296 - 2147483648))
    with (x + y + (- ((y + 2147483648) / 4294967296)) * 4294967296) by lia.
  apply int32_wrap.
Qed.
Lemma int32_sub x y : int32 (x - int32 y) = int32 (x - y).
Proof.
  unfold int32 at 2. pose proof (Z.div_mod (y + 2147483648) 4294967296 ltac:(lia)) as D.
  replace (x - ((y + 2147483648) mod 4294967296 - 2147483648))
    with (x - y + ((y + 2147483648) / 4294967296) * 4294967296) by lia.
  apply int32_wrap.
Qed.
Lemma out_wrap n x : Z.of_nat n <= 2147483648 -> 0 <= x < 2147483648 + Z.of_nat n ->
  outside n (int32 x) = outside n x /\ (outside n x = false -> int32 x = x).
Proof.
  intros Ln R. destruct (Z.lt_ge_cases x 2147483648) as [C|C].
  - rewrite int32_small by lia. auto.
  - assert (A : outside n x = true).
    { destruct (outside n x) eqn:E; auto. apply outside_spec in E. lia. }
    rewrite int32_big by lia. rewrite A. split; [|discriminate].
    destruct (outside n (x - 4294967296)) eqn:E; auto. apply outside_spec in E. lia.
Qed.
Lemma out_wrap2 n x : Z.of_nat n <= 2147483648 -> -2147483648 <= x < 2147483648 ->
  outside n (int32 x) = outside n x /\ (outside n x = false -> int32 x = x).
Proof. intros Ln R. rewrite int32_small by lia. auto. Qed.
Lemma inp_hd a i : (i < length a)%nat -> binp (encv a) i = enc (nth i a false).
Proof. apply inp_enc. Qed.

Lemma sshl_enc n a s : length a = n -> Z.of_nat n <= 2147483648 -> 0 <= s <= 2147483648 ->
  sshl bool false true n (encv a) (int32 s) = encv (shz n false a s).
Proof.
  intros La Ln S. unfold sshl, shz, encv. rewrite <- tab_map. apply tab_ext. intros i Li. cbn zeta.
  rewrite int32_add. destruct (out_wrap n (Z.of_nat i + s)) as [A B]; [lia|lia|]. rewrite A.
  destruct (outside n (Z.of_nat i + s)) eqn:O; [reflexivity|].
  rewrite B by reflexivity. apply outside_spec in O. fold (encv a). apply inp_enc. lia.
Qed.
Lemma sshr_enc n a s : length a = n -> Z.of_nat n <= 2147483648 -> 0 <= s <= 2147483648 ->
  sshr bool false true n (encv a) (int32 s) = encv (shz n false a (- s)).
Proof.
  intros La Ln S. unfold sshr, shz, encv. rewrite <- tab_map. apply tab_ext. intros i Li. cbn zeta.
  rewrite int32_sub. destruct (out_wrap2 n (Z.of_nat i - s)) as [A B]; [lia|lia|]. rewrite A.
  rewrite Z.add_opp_r. destruct (outside n (Z.of_nat i - s)) eqn:O; [reflexivity|].
  rewrite B by reflexivity. apply outside_spec in O. fold (encv a). apply inp_enc. lia.
Qed.
Lemma sashr_enc n a s : length a = n -> Z.of_nat n <= 2147483648 -> 0 <= s <= 2147483648 ->
  sashr bool true n (encv a) (int32 s) = encv (shz n (hd false a) a (- s)).
Proof.
  intros La Ln S. unfold sashr, shz, encv. rewrite <- tab_map. apply tab_ext. intros i Li. cbn zeta.
  rewrite int32_sub. destruct (out_wrap2 n (Z.of_nat i - s)) as [A B]; [lia|lia|]. rewrite A.
  rewrite Z.add_opp_r. fold (encv a). destruct (outside n (Z.of_nat i - s)) eqn:O.
  - rewrite inp_enc by lia. now rewrite hd_nth.
  - rewrite B by reflexivity. apply outside_spec in O. apply inp_enc. lia.
Qed.

Section Shift.
Variable n : nat.
Variable f : nat -> list (bool * bool) -> Z -> list (bool * bool).
Variable a : list bool.
Variable sh : Z -> list bool.           (* the argument shifted *)
Hypothesis La : length a = n.
Hypothesis Ln : Z.of_nat n <= 2147483648.
Hypothesis Lsh : forall c, length (sh c) = n.
Hypothesis Sh0 : sh 0 = a.
Hypothesis Step : forall c s, 0 <= c -> 0 <= s <= 2147483648 ->
  f n (encv (sh c)) (int32 s) = encv (sh (c + s)).

Lemma shift_loop b : fold_right (shift_step bool andb orb n f) (1, encv a) (encv b) =
  (two (length b) mod 4294967296, encv (sh (uval b mod 4294967296))).
Proof.
  induction b as [|x b IH].
  - cbn [encv map fold_right length uval]. rewrite Z.mod_0_l by lia. now rewrite Sh0.
  - cbn [encv map fold_right]. fold (encv b). rewrite IH. unfold shift_step.
    pose proof (uval_range b) as R. pose proof (two_pos (length b)) as P.
    assert (Sp : two (length b) mod 4294967296 = two (length b) /\ two (length b) <= 2147483648 \/
                 two (length b) mod 4294967296 = 0 /\ 4294967296 <= two (length b)).
    { destruct (Nat.lt_ge_cases (length b) 32) as [L|L].
      - left. assert (two (length b) <= 2 ^ 31) by (apply Z.pow_le_mono_r; lia). rewrite Z.mod_small; lia.
      - right. split; [|change 4294967296 with (2 ^ 32); apply Z.pow_le_mono_r; lia].
        unfold two. change 4294967296 with (two 32). apply two_far. lia. }
    f_equal.
    + cbn [length]. rewrite two_S, Z.mul_mod_idemp_l by lia. f_equal. ring.
    + assert (Ge : 0 <= uval b mod 4294967296) by (apply Z.mod_pos_bound; lia).
      rewrite Step by (auto; destruct Sp as [[-> ?]|[-> ?]]; lia).
      rewrite ite_enc by (rewrite !encv_length, !Lsh; reflexivity).
      rewrite uval_cons. destruct x; [|now rewrite Z.add_0_l].
      do 2 f_equal. destruct Sp as [[-> ?]|[-> ?]].
      * rewrite Z.mod_small by lia. rewrite Z.mod_small by lia. ring.
      * rewrite Z.add_0_r. assert (Q : (two (length b)) mod 4294967296 = 0).
        { destruct (Nat.lt_ge_cases (length b) 32) as [L|L].
          - assert (two (length b) <= 2 ^ 31) by (apply Z.pow_le_mono_r; lia). lia.
          - unfold two. change 4294967296 with (two 32). apply two_far. lia. }
        rewrite Z.add_mod by lia. rewrite Q, Z.add_0_l. now rewrite Z.mod_mod by lia.
Qed.
Lemma shift_op b : length b = n ->
  op_shift bool andb orb true f n (encv (a ++ b)) = encv (sh (uval b mod 4294967296)).
Proof.
  intros Lb. unfold op_shift. rewrite tab_inp, tab_inp2 by assumption. now rewrite shift_loop.
Qed.
End Shift.

Lemma op_shl_enc a b n : length a = n -> length b = n -> Z.of_nat n <= 2147483648 ->
  exists r, bop OShl n (encv (a ++ b)) = encv r /\ length r = n /\
    uval r = (uval a * 2 ^ (uval b mod 4294967296)) mod two n.
Proof.
  intros La Lb Ln. assert (Ge : 0 <= uval b mod 4294967296) by (apply Z.mod_pos_bound; lia).
  exists (shz n false a (uval b mod 4294967296)). rewrite shz_length. split; [|split; auto].
  - unfold bop. cbn [eval_op]. apply (shift_op n _ a (shz n false a)); auto.
    + intros. apply shz_length.
    + now apply shz_0.
    + intros c s Pc Ps. rewrite sshl_enc by (auto using shz_length). rewrite shz_add by lia. reflexivity.
  - now apply shl_val.
Qed.
Lemma op_shr_enc a b n : length a = n -> length b = n -> Z.of_nat n <= 2147483648 ->
  exists r, bop OShr n (encv (a ++ b)) = encv r /\ length r = n /\
    uval r = uval a / 2 ^ (uval b mod 4294967296).
Proof.
  intros La Lb Ln. assert (Ge : 0 <= uval b mod 4294967296) by (apply Z.mod_pos_bound; lia).
  exists (shz n false a (- (uval b mod 4294967296))). rewrite shz_length. split; [|split; auto].
  - unfold bop. cbn [eval_op]. apply (shift_op n _ a (fun c => shz n false a (- c))); auto.
    + intros. apply shz_length.
    + now apply shz_0.
    + intros c s Pc Ps. rewrite sshr_enc by (auto using shz_length). rewrite shz_add by lia.
      now rewrite <- Z.opp_add_distr.
  - now apply shr_val.
Qed.
Lemma op_ashr_enc a b n : length a = n -> length b = n -> Z.of_nat n <= 2147483648 ->
  exists r, bop OAshr n (encv (a ++ b)) = encv r /\ length r = n /\
    sval r = sval a / 2 ^ (uval b mod 4294967296).
Proof.
  intros La Lb Ln. assert (Ge : 0 <= uval b mod 4294967296) by (apply Z.mod_pos_bound; lia).
  assert (Hd : forall c, 0 <= c -> hd false (shz n (hd false a) a (- c)) = hd false a).
  { intros c Pc. destruct n as [|n0]; [destruct a; [reflexivity|discriminate]|].
    rewrite hd_nth. rewrite shz_nth by lia. destruct (outside (S n0) (Z.of_nat 0 + - c)) eqn:O; auto.
    apply outside_spec in O. rewrite hd_nth. f_equal. lia. }
  exists (shz n (hd false a) a (- (uval b mod 4294967296))). rewrite shz_length. split; [|split; auto].
  - unfold bop. cbn [eval_op]. apply (shift_op n _ a (fun c => shz n (hd false a) a (- c))); auto.
    + intros. apply shz_length.
    + now apply shz_0.
    + intros c s Pc Ps. rewrite sashr_enc by (auto using shz_length). rewrite Hd by assumption.
      rewrite shz_add by lia. now rewrite <- Z.opp_add_distr.
  - now apply ashr_val.
Qed.

(* ---------------------------------------------------------------------- *)
(* extensions *)
Lemma ext_list n isz f a : length a = isz ->
  tab n (fun i => if (n - 1 - i <? isz)%nat then nth (isz - 1 - (n - 1 - i)) a false else f) =
  if (n <=? isz)%nat then skipn (isz - n) a else repeat f (n - isz) ++ a.
Proof.
  intros La. destruct (Nat.leb_spec n isz) as [C|C]; apply (tab_is n _ _ false).
  - rewrite skipn_length. lia.
  - intros i Li. destruct (Nat.ltb_spec (n - 1 - i) isz); [|lia]. rewrite nth_skipn. f_equal. lia.
  - rewrite app_length, repeat_length. lia.
  - intros i Li. destruct (Nat.ltb_spec (n - 1 - i) isz).
    + rewrite app_nth2; rewrite repeat_length; [|lia]. f_equal. lia.
    + rewrite app_nth1 by (rewrite repeat_length; lia). rewrite nth_rep by lia. reflexivity.
Qed.
Lemma op_zx_enc a isz n : length a = isz ->
  exists r, bop (OZx isz) n (encv a) = encv r /\ length r = n /\
    uval r = if (n <=? isz)%nat then uval a mod two n else uval a.
Proof.
  intros La. exists (tab n (fun i => if (n - 1 - i <? isz)%nat then nth (isz - 1 - (n - 1 - i)) a false else false)).
  split; [|split; [apply tab_length|]].
  - unfold bop. cbn [eval_op]. unfold op_ZX, encv. rewrite <- tab_map. apply tab_ext. intros i Li.
    destruct (Nat.ltb_spec (n - 1 - i) isz); [|reflexivity]. fold (encv a). apply inp_enc. lia.
  - rewrite ext_list by assumption. destruct (Nat.leb_spec n isz).
    + rewrite uval_skipn by lia. do 2 f_equal. lia.
    + rewrite uval_app, uval_repeat0. lia.
Qed.
Lemma op_sx_enc a isz n : length a = isz -> (0 < isz)%nat ->
  exists r, bop (OSx isz) n (encv a) = encv r /\ length r = n /\
    if (n <=? isz)%nat then uval r = uval a mod two n else sval r = sval a.
Proof.
  intros La Pi. exists (tab n (fun i => if (n - 1 - i <? isz)%nat then nth (isz - 1 - (n - 1 - i)) a false else hd false a)).
  split; [|split; [apply tab_length|]].
  - unfold bop. cbn [eval_op]. unfold op_SX, encv. rewrite <- tab_map. apply tab_ext. intros i Li.
    fold (encv a). destruct (Nat.ltb_spec (n - 1 - i) isz); [apply inp_enc; lia|].
    rewrite inp_enc by lia. now rewrite hd_nth.
  - rewrite ext_list by assumption. destruct (Nat.leb_spec n isz).
    + rewrite uval_skipn by lia. do 2 f_equal. lia.
    + rewrite !sval_hd. destruct (n - isz)%nat as [|k] eqn:K; [lia|].
      rewrite uval_app, app_length, repeat_length, two_add.
      cbn [repeat app hd]. rewrite uval_cons, repeat_length, two_S.
      destruct (hd false a); [rewrite uval_repeat1|rewrite uval_repeat0]; ring.
Qed.

(* ---------------------------------------------------------------------- *)
(* slices *)
Lemma op_slice_enc a il n : length il = n -> Forall (fun i => (i < length a)%nat) il ->
  bop (OSlice il) n (encv a) = encv (map (fun i => nth i a false) il).
Proof.
  intros Li F. unfold bop. cbn [eval_op]. unfold op_SLICE. apply (tab_is n _ _ (enc false)).
  - unfold encv. now rewrite !map_length.
  - intros i L. unfold encv. rewrite map_nth. rewrite (nth_indep _ false (nth 0 a false)) by (rewrite map_length; lia).
    rewrite (map_nth (fun i => nth i a false)). fold (encv a). rewrite inp_enc; auto.
    rewrite Forall_forall in F. apply F. apply nth_In. lia.
Qed.
(* the last occurrence of j in il, counted from k *)
Fixpoint last_at (j : nat) (il : list nat) (k : nat) : option nat :=
  match il with
  | [] => None
  | i :: il => match last_at j il (S k) with
               | Some x => Some x
               | None => if (i =? j)%nat then Some k else None
               end
  end.
Lemma set_nth_length {A} (l : list A) x : forall i, length (set_nth l i x) = length l.
Proof. induction l; intros [|i]; cbn; auto. Qed.
Lemma set_nth_nth {A} (l : list A) x d : forall i j, (i < length l)%nat ->
  nth j (set_nth l i x) d = if (i =? j)%nat then x else nth j l d.
Proof.
  induction l as [|y l IH]; intros i j L; cbn in L; [lia|]. destruct i, j; cbn; auto. apply IH. lia.
Qed.
Lemma upd_loop_nth l n il : forall idx out j d, Forall (fun i => (i < length out)%nat) il ->
  length (upd_loop bool true l n il idx out) = length out /\
  nth j (upd_loop bool true l n il idx out) d =
  match last_at j il idx with Some k => binp l (k + n) | None => nth j out d end.
Proof.
  induction il as [|t il IH]; intros idx out j d F; cbn [upd_loop last_at]; [auto|].
  inversion F as [|? ? Ft Fi]; subst.
  destruct (IH (S idx) (set_nth out t (binp l (idx + n))) j d) as [E1 E2].
  { now rewrite set_nth_length. }
  rewrite E1, E2, set_nth_length. split; auto. destruct (last_at j il (S idx)); auto.
  rewrite set_nth_nth by assumption. now destruct (t =? j)%nat.
Qed.
Lemma last_at_lt j il : forall k x, last_at j il k = Some x -> (x < k + length il)%nat.
Proof.
  induction il as [|i il IH]; intros k x; cbn; [discriminate|].
  destruct (last_at j il (S k)) eqn:E; [intros [= <-]; apply IH in E; lia|].
  destruct (i =? j)%nat; [intros [= <-]; lia|discriminate].
Qed.
Lemma op_update_enc a b il n : length a = n -> length b = length il ->
  Forall (fun i => (i < n)%nat) il ->
  bop (OUpdate il) n (encv (a ++ b)) =
  encv (tab n (fun j => match last_at j il 0 with Some k => nth k b false | None => nth j a false end)).
Proof.
  intros La Lb F. unfold bop. cbn [eval_op]. unfold op_UPDATE_SLICE.
  assert (F' : Forall (fun i => (i < length (tab n (binp (encv (a ++ b)))))%nat) il) by now rewrite tab_length.
  apply (nth_ext _ _ (enc false) (enc false)).
  - rewrite (proj1 (upd_loop_nth _ n il 0 _ 0 (enc false) F')). now rewrite encv_length, !tab_length.
  - intros j Lj. rewrite (proj1 (upd_loop_nth _ n il 0 _ 0 (enc false) F')), tab_length in Lj.
    rewrite (proj2 (upd_loop_nth _ n il 0 _ j (enc false) F')).
    unfold encv at 3. rewrite map_nth. rewrite !(tab_nth n _ j) by assumption.
    destruct (last_at j il 0) as [k|] eqn:E.
    + apply last_at_lt in E. rewrite <- La. apply inp_app2. lia.
    + now apply inp_app1; rewrite La.
Qed.

(* ---------------------------------------------------------------------- *)
(* memories: line k of the vector mem of [lines] lines, the last line first *)
Definition line_of (dsz lines k : nat) (mem : list bool) : list bool :=
  firstn dsz (skipn ((lines - k - 1) * dsz) mem).

Lemma sel_enc addr line : (Z.of_nat line < two (length addr)) ->
  sel bool andb orb false true (encv addr) line = enc (uval addr =? Z.of_nat line).
Proof.
  intros L. unfold sel.
  assert (X : fold_right (sel_step bool andb orb) (line, r1 bool false true) (encv addr) =
    ((line / 2 ^ length addr)%nat, enc (uval addr =? Z.of_nat line mod two (length addr)))).
  { clear L. induction addr as [|x addr IH].
    - cbn [encv map fold_right length uval]. change (two 0) with 1. rewrite Z.mod_1_r. cbn [Nat.pow]. rewrite Nat.div_1_r. reflexivity.
    - cbn [encv map fold_right]. fold (encv addr). rewrite IH. unfold sel_step. cbn [length enc].
      set (k := length addr) in *. f_equal.
      + rewrite Nat.div_div by (try apply Nat.pow_nonzero; lia). f_equal. cbn [Nat.pow]. lia.
      + pose proof (two_pos k) as P. pose proof (uval_range addr) as R. fold k in R.
        rewrite uval_cons. fold k. rewrite two_S. rewrite (Z.mul_comm 2), Z.rem_mul_r by lia.
        set (m := Z.of_nat line mod two k).
        assert (Hm : 0 <= m < two k) by (apply Z.mod_pos_bound; lia).
        assert (D : Z.of_nat line / two k = Z.of_nat (line / 2 ^ k)).
        { rewrite Nat2Z.inj_div. f_equal. unfold two. clear. induction k; [reflexivity|].
          rewrite Nat.pow_succ_r', Nat2Z.inj_mul, <- IHk, Nat2Z.inj_succ, Z.pow_succ_r by lia. reflexivity. }
        rewrite D. set (q := (line / 2 ^ k)%nat).
        assert (O : Z.of_nat q mod 2 = if Nat.odd q then 1 else 0).
        { destruct (Nat.odd q) eqn:E.
          - apply Nat.odd_spec in E. destruct E as [z ->]. rewrite Nat2Z.inj_add, Nat2Z.inj_mul.
            rewrite Z.add_comm, Z.mul_comm. now rewrite Z.mod_add by lia.
          - assert (Ev : Nat.even q = true) by (rewrite <- Nat.negb_odd, E; reflexivity).
            apply Nat.even_spec in Ev. destruct Ev as [z ->]. rewrite Nat2Z.inj_mul, Z.mul_comm.
            now rewrite Z.mod_mul by lia. }
        rewrite O.
        assert (C : ((if x then two k else 0) + uval addr =? m + two k * (if Nat.odd q then 1 else 0)) =
                    (Bool.eqb x (Nat.odd q) && (uval addr =? m))).
        { destruct x, (Nat.odd q); cbn [Bool.eqb andb]; try (apply Z.eqb_neq; lia);
            destruct (Z.eqb_spec (uval addr) m); try (apply Z.eqb_eq; lia); apply Z.eqb_neq; lia. }
        rewrite C. unfold enc. destruct x, (Nat.odd q), (uval addr =? m); reflexivity. }
  rewrite X. cbn [snd]. rewrite Z.mod_small by lia. reflexivity.
Qed.
Lemma nth_line dsz lines k mem i : (i < dsz)%nat ->
  nth i (line_of dsz lines k mem) false = nth ((lines - k - 1) * dsz + i) mem false.
Proof. intros L. unfold line_of. rewrite nth_firstn by assumption. rewrite nth_skipn. f_equal. lia. Qed.
Lemma line_idx lines k dsz i : (k < lines)%nat -> (i < dsz)%nat -> ((lines - k - 1) * dsz + i < lines * dsz)%nat.
Proof. intros. assert ((lines - k - 1) * dsz + dsz <= lines * dsz)%nat by nia. lia. Qed.
Lemma line_length dsz lines k mem : length mem = (lines * dsz)%nat -> (k < lines)%nat ->
  length (line_of dsz lines k mem) = dsz.
Proof.
  intros L K. unfold line_of. rewrite firstn_length, skipn_length, L.
  assert ((lines - k - 1) * dsz + dsz <= lines * dsz)%nat by nia. lia.
Qed.
Lemma op_read_enc addr mem asz dsz lines :
  length addr = asz -> length mem = (lines * dsz)%nat -> Z.of_nat lines <= two asz ->
  bop (OMemRead asz dsz lines) dsz (encv (addr ++ mem)) =
  if uval addr <? Z.of_nat lines then encv (line_of dsz lines (Z.to_nat (uval addr)) mem)
  else repeat (true, true) dsz.
Proof.
  intros La Lm Ll. unfold bop. cbn [eval_op]. unfold op_MEM_READ. rewrite tab_inp by assumption.
  pose proof (uval_range addr) as Ra. rewrite La in Ra.
  match goal with |- fold_left ?f _ _ = _ => set (F := f) end.
  assert (X : forall k, (k <= lines)%nat -> fold_left F (seq 0 k) (repeat (rX bool true) dsz) =
    if uval addr <? Z.of_nat k then encv (line_of dsz lines (Z.to_nat (uval addr)) mem)
    else repeat (true, true) dsz).
  { induction k as [|k IH]; intros Lk.
    - cbn [seq fold_left]. destruct (Z.ltb_spec (uval addr) (Z.of_nat 0)); [lia|reflexivity].
    - rewrite seq_S, fold_left_app, IH by lia. cbn [fold_left Nat.add]. unfold F at 1.
      rewrite sel_enc by (rewrite La; lia).
      apply (nth_ext _ _ (rX bool true) (rX bool true)).
      + rewrite tab_length. destruct (Z.ltb_spec (uval addr) (Z.of_nat (S k))).
        * rewrite encv_length, line_length; auto. lia.
        * now rewrite repeat_length.
      + intros i Li. rewrite tab_length in Li. rewrite tab_nth by assumption.
        destruct (Nat.ltb_spec i dsz); [|lia]. rewrite ite1_enc.
        assert (N : forall j, (j < lines)%nat -> nth i (encv (line_of dsz lines j mem)) (rX bool true)
           = binp (encv (addr ++ mem)) (asz + (lines - j - 1) * dsz + i)).
        { intros j Lj. pose proof (line_idx lines j dsz i Lj Li).
          replace (asz + (lines - j - 1) * dsz + i)%nat with ((lines - j - 1) * dsz + i + length addr)%nat by lia.
          rewrite inp_app2 by lia. rewrite <- nth_line by assumption. unfold encv.
          rewrite (nth_indep _ _ (enc false)) by (rewrite map_length, line_length; auto). apply map_nth. }
        destruct (Z.eqb_spec (uval addr) (Z.of_nat k)) as [E|E].
        * destruct (Z.ltb_spec (uval addr) (Z.of_nat (S k))); [|lia]. rewrite E, Nat2Z.id. rewrite N by lia. reflexivity.
        * destruct (Z.ltb_spec (uval addr) (Z.of_nat k)), (Z.ltb_spec (uval addr) (Z.of_nat (S k))); try lia; reflexivity. }
  apply X. lia.
Qed.
Lemma flat_length {A B} (f : A -> list B) d l : (forall x, In x l -> length (f x) = d) ->
  length (flat_map f l) = (length l * d)%nat.
Proof. induction l; cbn; intros H; auto. rewrite app_length, H, IHl by auto. reflexivity. Qed.
Lemma encv_flat (g : nat -> list bool) l : encv (flat_map g l) = flat_map (fun k => encv (g k)) l.
Proof. induction l; cbn; auto. rewrite encv_app. now rewrite IHl. Qed.
Lemma op_write_enc addr data mem asz dsz lines n :
  length addr = asz -> length data = dsz -> length mem = (lines * dsz)%nat -> Z.of_nat lines <= two asz ->
  exists r, bop (OMemWrite asz dsz lines) n (encv (addr ++ data ++ mem)) = encv r /\
    length r = (lines * dsz)%nat /\
    forall k, (k < lines)%nat -> line_of dsz lines k r =
      if Z.of_nat k =? uval addr then data else line_of dsz lines k mem.
Proof.
  intros La Ld Lm Ll. unfold bop. cbn [eval_op]. unfold op_MEM_WRITE. rewrite tab_inp by assumption.
  set (g := fun k => if Z.of_nat k =? uval addr then data else line_of dsz lines k mem).
  assert (Lg : forall k, (k < lines)%nat -> length (g k) = dsz).
  { intros k Lk. unfold g. destruct (Z.of_nat k =? uval addr); auto. now apply line_length. }
  exists (flat_map g (rev (seq 0 lines))).
  assert (In1 : forall k, In k (rev (seq 0 lines)) -> (k < lines)%nat).
  { intros k. rewrite <- in_rev, in_seq. lia. }
  split; [|split].
  - rewrite encv_flat, !flat_map_concat_map. f_equal. apply map_ext_in. intros k Hk. apply In1 in Hk. cbn zeta.
    rewrite sel_enc by (rewrite La; lia).
    apply (tab_is dsz _ _ (enc false)); [rewrite encv_length; auto|].
    intros i Li. unfold encv. rewrite map_nth. fold (encv (addr ++ data ++ mem)). rewrite ite1_enc. unfold g.
    rewrite (Z.eqb_sym (Z.of_nat k)). destruct (uval addr =? Z.of_nat k).
    + rewrite (Nat.add_comm asz), <- La. rewrite inp_app2 by (rewrite app_length; lia). now rewrite app_nth1 by lia.
    + pose proof (line_idx lines k dsz i Hk Li).
      rewrite nth_line by assumption.
      replace (asz + dsz + (lines - k - 1) * dsz + i)%nat with (((lines - k - 1) * dsz + i + dsz) + length addr)%nat by lia.
      set (p := ((lines - k - 1) * dsz)%nat) in *. clearbody p.
      rewrite inp_app2 by (rewrite app_length; lia). rewrite app_nth2 by lia. do 2 f_equal. lia.
  - rewrite (flat_length g dsz) by auto. now rewrite rev_length, seq_length.
  - intros k Lk. fold (g k). unfold line_of.
    assert (Sp : rev (seq 0 lines) = rev (seq (S k) (lines - k - 1)) ++ k :: rev (seq 0 k)).
    { replace lines with (k + S (lines - k - 1))%nat at 1 by lia. rewrite seq_app, rev_app_distr.
      cbn [seq rev Nat.add]. now rewrite <- app_assoc. }
    rewrite Sp, flat_map_app. cbn [flat_map].
    assert (L1 : length (flat_map g (rev (seq (S k) (lines - k - 1)))) = ((lines - k - 1) * dsz)%nat).
    { rewrite (flat_length g dsz); [now rewrite rev_length, seq_length|].
      intros x. rewrite <- in_rev, in_seq. intros Hx. apply Lg. lia. }
    rewrite skipn_app, L1, Nat.sub_diag. rewrite skipn_all2 by lia. cbn [app skipn].
    rewrite firstn_app, (Lg k Lk), Nat.sub_diag. cbn [firstn]. rewrite app_nil_r.
    apply firstn_all2. rewrite (Lg k Lk). lia.
Qed.
