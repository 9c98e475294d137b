(* The constructors one by one: the operator that compile_expr chooses has the values of
   the specification. *)
From Coq Require Import String List Arith ZArith Bool Lia.
From Verif Require Import FsmOps FsmRel FsmBool FsmWord FsmDelay SteModel SteSim CompModel CompSpec.
Import ListNotations.

Definition admits (o : wop) (n : nat) (ins v : list bool) : Prop :=
  forall i, i < length v -> can (nth i (bop o n (encv ins)) (true, true)) (nth i v false).

Lemma can_enc b v : can (enc b) v <-> v = b.
Proof. destruct b, v; cbn; split; auto; discriminate. Qed.
Lemma admits_enc o n ins r v : bop o n (encv ins) = encv r -> length r = length v ->
  (admits o n ins v <-> v = r).
Proof.
  intros E L. unfold admits. rewrite E. split.
  - intros H. apply (nth_ext _ _ false false); auto. intros i Li. specialize (H i Li).
    unfold encv in H. rewrite (nth_indep _ _ (enc false)) in H by (rewrite map_length; lia).
    rewrite map_nth in H. now apply can_enc in H.
  - intros -> i Li. unfold encv. rewrite (nth_indep _ _ (enc false)) by (rewrite map_length; lia).
    rewrite map_nth. now apply can_enc.
Qed.
Lemma uval_eq v r z : length v = length r -> uval r = z -> (v = r <-> uval v = z).
Proof. intros L E. split; [now intros ->|]. intros Q. apply uval_inj; congruence. Qed.
Lemma sval_inj v r : length v = length r -> sval v = sval r -> v = r.
Proof.
  intros L E. destruct v as [|a v], r as [|b r]; try discriminate; auto. injection L as L.
  pose proof (uval_range v). pose proof (uval_range r). rewrite <- L in *.
  unfold sval in E. cbn [length] in E. change (2 ^ Z.of_nat (S (length v)))%Z with (two (S (length v))) in E.
  change (2 ^ Z.of_nat (S (length r)))%Z with (two (S (length r))) in E.
  rewrite !uval_cons, <- !L, !two_S in E.
  assert (a = b) by (destruct a, b; auto; lia). subst b. f_equal. apply uval_inj; auto. lia.
Qed.
Lemma sval_eq v r z : length v = length r -> sval r = z -> (v = r <-> sval v = z).
Proof. intros L E. split; [now intros ->|]. intros Q. apply sval_inj; congruence. Qed.

Lemma bit_nth a j : (0 <= j < Z.of_nat (length a))%Z ->
  bit a j = nth (Z.to_nat (Z.of_nat (length a) - j - 1)) a false.
Proof.
  intros J. unfold bit. rewrite rev_nth by lia. f_equal. lia.
Qed.

Lemma last_at_spec j il : forall k, match last_at j il k with
  | Some x => k <= x /\ nth_error il (x - k) = Some j /\ forall i, x - k < i -> nth_error il i <> Some j
  | None => ~ In j il end.
Proof.
  induction il as [|a il IH]; intros k; cbn [last_at]; [easy|].
  specialize (IH (S k)). destruct (last_at j il (S k)) as [x|].
  - destruct IH as [L [E M]]. replace (x - k) with (S (x - S k)) by lia. split; [lia|]. split; [exact E|].
    intros [|i] Li; [lia|]. cbn. apply M. lia.
  - destruct (Nat.eqb_spec a j) as [->|N].
    + rewrite Nat.sub_diag. split; auto. split; [reflexivity|]. intros [|i] Li; [lia|]. cbn. intros Q.
      apply IH. eapply nth_error_In, Q.
    + cbn. tauto.
Qed.

Ltac bools := repeat match goal with
  | H : (if ?b then Some _ else None) = Some _ |- _ => destruct b eqn:?; [|discriminate H]; injection H as H
  | H : _ && _ = true |- _ => apply andb_true_iff in H as [? ?]
  | H : (_ =? _) = true |- _ => apply Nat.eqb_eq in H
  | H : (_ <? _) = true |- _ => apply Nat.ltb_lt in H
  | H : (_ <=? _) = true |- _ => apply Nat.leb_le in H
  | H : (_ <=? _)%Z = true |- _ => apply Z.leb_le in H
  end.

Lemma below_all a il : forallb (fun i => (0 <=? i)%Z && (i <? Z.of_nat a)%Z) il = true ->
  forall i, In i il -> (0 <= i < Z.of_nat a)%Z.
Proof. intros F i Hi. rewrite forallb_forall in F. specialize (F i Hi). lia. Qed.
Lemma below_none a il : forallb (fun i => (0 <=? i)%Z && (i <? Z.of_nat a)%Z) il = true ->
  existsb (fun i => Z.of_nat a - i - 1 <? 0)%Z il = false.
Proof.
  intros F. destruct (existsb _ il) eqn:E; auto. apply existsb_exists in E as [i [Hi Q]].
  pose proof (below_all a il F i Hi). lia.
Qed.

Lemma list1 {A} (l : list A) n : length l = S n -> exists x r, l = x :: r /\ length r = n.
Proof. destruct l; [discriminate|]. intros Q. injection Q as Q. eauto. Qed.

Section Kind.
Variable accurate : bool.
Local Notation plan := (plan accurate).

Definition right (k : kind) (ws : list nat) (n : nat) (p : todo) : Prop :=
  p_args p = ws /\ p_size p = n /\ (p_first p = true -> ws <> []) /\ (p_chk p = None \/ p_chk p = Some (nth 0 ws 0)) /\
  forall vals v, map (@length bool) vals = ws -> length v = n ->
    (admits (p_op p) (p_size p) (concat vals) v <-> ksem k vals v).

Lemma concat2 {A} (a b : list A) : concat [a; b] = a ++ b. Proof. cbn. now rewrite app_nil_r. Qed.
Lemma concat1 {A} (a : list A) : concat [a] = a. Proof. cbn. now rewrite app_nil_r. Qed.
Lemma concat3 {A} (a b c : list A) : concat [a; b; c] = a ++ b ++ c. Proof. cbn. now rewrite app_nil_r. Qed.

Lemma map2inv {A B} (f : A -> B) l a b : map f l = [a; b] -> exists x y, l = [x; y] /\ f x = a /\ f y = b.
Proof. destruct l as [|x [|y [|]]]; try discriminate. intros Q. injection Q as <- <-. eauto. Qed.
Lemma map1inv {A B} (f : A -> B) l a : map f l = [a] -> exists x, l = [x] /\ f x = a.
Proof. destruct l as [|x [|]]; try discriminate. intros Q. injection Q as <-. eauto. Qed.
Lemma map3inv {A B} (f : A -> B) l a b c : map f l = [a; b; c] ->
  exists x y z, l = [x; y; z] /\ f x = a /\ f y = b /\ f z = c.
Proof. destruct l as [|x [|y [|z [|]]]]; try discriminate. intros Q. injection Q as <- <- <-. eauto 7. Qed.

Lemma bin_ok o a b v n : length a = n -> length b = n -> length v = n ->
  match o with BShl => n <=? 32 | BShr | BAshr => n <=? 31 | _ => true end = true ->
  (admits (bin_op o) n (a ++ b) v <-> bin_rel o a b v).
Proof.
  intros La Lb Lv W. unfold bin_rel. rewrite La.
  assert (CL : forall f : bool * bool -> bool, length (map f (combine a b)) = length v).
  { intros f. rewrite map_length, combine_length. lia. }
  assert (M : n <= 32 -> (uval b mod 4294967296 = uval b)%Z).
  { intros L. apply Z.mod_small. pose proof (uval_range b) as R. rewrite Lb in R.
    assert (two n <= 2 ^ 32)%Z by (apply Z.pow_le_mono_r; lia). lia. }
  destruct o; cbn [bin_op].
  - rewrite (admits_enc _ _ _ _ v (op_and_enc a b n La Lb)) by apply CL. unfold zipb. tauto.
  - rewrite (admits_enc _ _ _ _ v (op_or_enc a b n La Lb)) by apply CL. unfold zipb. tauto.
  - destruct (op_add_enc a b n La Lb) as [r [E [L U]]].
    rewrite (admits_enc _ _ _ _ v E) by congruence. rewrite (uval_eq v r _) by (eauto; congruence). tauto.
  - destruct (op_sub_enc a b n La Lb) as [r [E [L U]]].
    rewrite (admits_enc _ _ _ _ v E) by congruence. rewrite (uval_eq v r _) by (eauto; congruence). tauto.
  - destruct (op_mul_enc a b n La Lb) as [r [E [L U]]].
    rewrite (admits_enc _ _ _ _ v E) by congruence. rewrite (uval_eq v r _) by (eauto; congruence). tauto.
  - destruct (op_div_enc a b n La Lb) as [q [r [Eq [Er [Lq [Lr [U0 U1]]]]]]].
    rewrite (admits_enc _ _ _ _ v Eq) by congruence. rewrite (uval_eq v q _ ltac:(congruence) eq_refl).
    destruct (Z.eqb_spec (uval b) 0) as [Z|Z]; [destruct (U0 Z) as [-> _]|destruct (U1 Z) as [-> _]]; tauto.
  - destruct (op_div_enc a b n La Lb) as [q [r [Eq [Er [Lq [Lr [U0 U1]]]]]]].
    rewrite (admits_enc _ _ _ _ v Er) by congruence. rewrite (uval_eq v r _ ltac:(congruence) eq_refl).
    destruct (Z.eqb_spec (uval b) 0) as [Z|Z]; [destruct (U0 Z) as [_ ->]|destruct (U1 Z) as [_ ->]]; tauto.
  - apply Nat.leb_le in W. destruct (op_shl_enc a b n La Lb ltac:(lia)) as [r [E [L U]]]. change (2 ^ 32)%Z with 4294967296%Z in U.
    rewrite M in U by lia.
    rewrite (admits_enc _ _ _ _ v E) by congruence. rewrite (uval_eq v r _) by (eauto; congruence). tauto.
  - apply Nat.leb_le in W. destruct (op_shr_enc a b n La Lb ltac:(lia)) as [r [E [L U]]]. change (2 ^ 32)%Z with 4294967296%Z in U.
    rewrite M in U by lia.
    rewrite (admits_enc _ _ _ _ v E) by congruence. rewrite (uval_eq v r _) by (eauto; congruence). tauto.
  - apply Nat.leb_le in W. destruct (op_ashr_enc a b n La Lb ltac:(lia)) as [r [E [L U]]]. change (2 ^ 32)%Z with 4294967296%Z in U.
    rewrite M in U by lia.
    rewrite (admits_enc _ _ _ _ v E) by congruence. rewrite (sval_eq v r _) by (eauto; congruence). tauto.
Qed.

Lemma slice_ok il a v : (forall i, In i il -> (0 <= i < Z.of_nat (length a))%Z) -> length v = length il ->
  (admits (OSlice (map (fun i => Z.to_nat (Z.of_nat (length a) - i - 1)) il)) (length il) a v <-> v = map (bit a) il).
Proof.
  intros B L.
  pose proof (op_slice_enc a (map (fun i => Z.to_nat (Z.of_nat (length a) - i - 1)) il) (length il)
    (map_length _ _)) as E.
  rewrite admits_enc; [| apply E | now rewrite !map_length].
  - rewrite map_map. replace (map (bit a) il) with (map (fun x => nth (Z.to_nat (Z.of_nat (length a) - x - 1)) a false) il);
      [tauto|]. apply map_ext_in. intros i Hi. symmetry. apply bit_nth. auto.
  - apply Forall_forall. intros i Hi. apply in_map_iff in Hi as [j [<- Hj]]. specialize (B j Hj). lia.
Qed.

Lemma update_ok il a c v : (forall i, In i il -> (0 <= i < Z.of_nat (length a))%Z) -> length c = length il ->
  length v = length a ->
  (admits (OUpdate (map (fun i => Z.to_nat (Z.of_nat (length a) - i - 1)) il)) (length a) (a ++ c) v <->
   ksem (KUpdate il) [a; c] v).
Proof.
  intros B Lc L. set (n := length a) in *. set (f := fun i => Z.to_nat (Z.of_nat n - i - 1)).
  pose proof (op_update_enc a c (map f il) n eq_refl) as E. rewrite map_length in E. specialize (E Lc).
  rewrite admits_enc; [| apply E | now rewrite tab_length].
  2:{ apply Forall_forall. intros i Hi. apply in_map_iff in Hi as [j [<- Hj]]. specialize (B j Hj). unfold f. lia. }
  assert (FI : forall j, (0 <= j < Z.of_nat n)%Z -> forall i, nth_error (map f il) i = Some (f j) <-> nth_error il i = Some j).
  { intros j J i. rewrite nth_error_map. destruct (nth_error il i) as [k|] eqn:Q; cbn; [|split; discriminate].
    pose proof (B k (nth_error_In _ _ Q)). unfold f. split; intros X; injection X as X; f_equal; try lia. }
  assert (NI : forall j, (0 <= j < Z.of_nat n)%Z -> (In (f j) (map f il) <-> In j il)).
  { intros j J. split.
    - intros Q. apply In_nth_error in Q as [i Q]. apply (FI j J) in Q. eapply nth_error_In, Q.
    - apply in_map. }
  assert (BV : forall j, (0 <= j < Z.of_nat n)%Z -> bit v j = nth (f j) v false).
  { intros j J. rewrite bit_nth by lia. unfold f. now rewrite L. }
  assert (BA : forall j, (0 <= j < Z.of_nat n)%Z -> bit a j = nth (f j) a false).
  { intros j J. now rewrite bit_nth by assumption. }
  unfold ksem. fold n. split.
  - intros Q. split; [auto|]. intros j J. rewrite BV, BA by assumption. rewrite Q.
    rewrite tab_nth by (unfold f; lia). pose proof (last_at_spec (f j) (map f il) 0) as S.
    destruct (last_at (f j) (map f il) 0) as [k|].
    + rewrite Nat.sub_0_r in S. destruct S as [_ [S1 S2]]. right. exists k. split; [now apply (FI j J)|]. split; [|auto].
      intros i' Li Q'. apply (FI j J) in Q'. now apply (S2 i' Li).
    + left. split; auto. intros Q'. apply S. now apply NI.
  - intros [_ Q]. symmetry. apply (tab_is n _ v false); [auto|]. intros i Li.
    set (j := (Z.of_nat n - Z.of_nat i - 1)%Z). assert (J : (0 <= j < Z.of_nat n)%Z) by lia.
    assert (Ei : f j = i) by (unfold f, j; lia).
    specialize (Q j J). rewrite BV, BA in Q by assumption. rewrite <- Ei.
    pose proof (last_at_spec (f j) (map f il) 0) as S. destruct (last_at (f j) (map f il) 0) as [k|].
    + rewrite Nat.sub_0_r in S. destruct S as [_ [S1 S2]]. apply (FI j J) in S1.
      destruct Q as [[N _]|[i0 [Q1 [Q2 Q3]]]].
      * exfalso. apply N. eapply nth_error_In, S1.
      * assert (i0 = k) as ->; [|exact Q3].
        destruct (Nat.lt_total i0 k) as [X|[X|X]]; auto; exfalso.
        -- apply (Q2 k X S1).
        -- apply (S2 i0 X). now apply (FI j J).
    + destruct Q as [[_ Q]|[i0 [Q1 _]]]; [exact Q|]. exfalso. apply S. apply NI; auto. eapply nth_error_In, Q1.
Qed.

Lemma idelay_ok sz mr Mr mf Mf c hs v :
  length c = sz -> Forall (fun h => length h = sz) hs -> length hs = Nat.max (Nat.max mr Mr) (Nat.max mf Mf) ->
  length v = sz -> (admits (OIdelay mr Mr mf Mf) sz (concat (c :: hs)) v <-> ksem (KIdelay sz mr Mr mf Mf) (c :: hs) v).
Proof.
  intros Lc Lh Ln Lv. cbn [ksem]. unfold admits. rewrite Lv.
  assert (CL : forall hs, Forall (fun h : list bool => length h = sz) hs -> length (concat hs) = sz * length hs).
  { clear. induction 1 as [|h hs E F IH]; cbn; [lia|]. rewrite app_length, IH, E. lia. }
  assert (NC : forall hs k i, Forall (fun h : list bool => length h = sz) hs -> i < sz -> k < length hs ->
     nth (k * sz + i) (concat hs) false = nth i (nth k hs []) false).
  { clear. induction hs as [|h hs IH]; intros k i F Li Lk; [cbn in Lk; lia|]. inversion F; subst.
    destruct k as [|k]; cbn [concat nth].
    - rewrite app_nth1 by lia. f_equal.
    - cbn in Lk. rewrite app_nth2 by nia. rewrite <- IH by (auto; lia). f_equal. nia. }
  assert (A : forall i, i < sz -> (can (nth i (bop (OIdelay mr Mr mf Mf) sz (encv (concat (c :: hs)))) (true, true)) (nth i v false) <->
     if nth i v false
        then can_be true mr Mf (nth i c false) (fun k => nth i (nth k hs []) false)
        else can_be false mf Mr (nth i c false) (fun k => nth i (nth k hs []) false))).
  { intros i Li. destruct (op_idelay_enc mr Mr mf Mf sz (concat (c :: hs)) i) as [T F]; auto.
    { rewrite CL by (constructor; auto). cbn [length]. now rewrite Ln. }
    assert (H0 : nth i (concat (c :: hs)) false = nth i c false).
    { cbn [concat]. apply app_nth1. lia. }
    rewrite H0 in T, F.
    assert (CB : forall w fast slow, fast <= length hs -> slow <= length hs ->
      (can_be w fast slow (nth i c false) (fun k => nth ((1 + k) * sz + i) (concat (c :: hs)) false) <->
       can_be w fast slow (nth i c false) (fun k => nth i (nth k hs []) false))).
    { assert (HK : forall k, k < length hs -> nth ((1 + k) * sz + i) (concat (c :: hs)) false = nth i (nth k hs []) false).
      { intros k Lk. rewrite (NC (c :: hs) (1 + k) i); auto; cbn [length]; lia. }
      clear - HK. intros w fast slow Lf Ls. unfold can_be. split.
      - intros [Q|[Q1 [k [Q2 Q3]]]]; [left|right].
        + intros k Lk. rewrite <- HK by lia. auto.
        + split; auto. exists k. split; auto. rewrite <- HK by lia. auto.
      - intros [Q|[Q1 [k [Q2 Q3]]]]; [left|right].
        + intros k Lk. rewrite HK by lia. auto.
        + split; auto. exists k. split; auto. rewrite HK by lia. auto. }
    unfold can. destruct (nth i v false); [rewrite T|rewrite F]; apply CB; lia. }
  split.
  - intros Q. split; auto. intros i Li. apply (proj1 (A i Li)). exact (Q i Li).
  - intros [_ Q] i Li. apply (proj2 (A i Li)). exact (Q i Li).
Qed.

Lemma line_ext d lines v w : length v = lines * d -> length w = lines * d ->
  (forall k, k < lines -> line_of d lines k v = line_of d lines k w) -> v = w.
Proof.
  intros Lv Lw Q. apply (nth_ext _ _ false false); [congruence|]. intros i Li. rewrite Lv in Li.
  assert (D : 0 < d) by nia. pose (b := i / d).
  assert (Hb : b < lines) by (apply Nat.div_lt_upper_bound; lia).
  pose proof (Nat.div_mod i d ltac:(lia)) as E. pose proof (Nat.mod_upper_bound i d ltac:(lia)) as U. fold b in E.
  specialize (Q (lines - b - 1) ltac:(lia)).
  assert (X : (lines - (lines - b - 1) - 1) * d + i mod d = i) by (replace (lines - (lines - b - 1) - 1) with b by lia; lia).
  pose proof (nth_line d lines (lines - b - 1) v (i mod d) U) as N1.
  pose proof (nth_line d lines (lines - b - 1) w (i mod d) U) as N2.
  rewrite Q in N1. rewrite N1 in N2. rewrite X in N2. exact N2.
Qed.

Lemma kind_ok k ws n gs : kwidth k ws = Some n -> k <> KPred -> length gs = length ws ->
  (forall i, i < length ws -> asked k i = true -> nth i gs 0 = nth i ws 0) ->
  exists p, plan k gs n = Ret p /\ right k ws n p.
Proof.
  intros W NP LG AS. destruct k; cbn [kwidth] in W; try congruence.
  - (* X *) destruct ws; [|discriminate]. bools. subst n. eexists. split; [reflexivity|].
    split; [reflexivity|]. split; [reflexivity|]. split; [discriminate|]. split; [now left|]. cbn [p_op p_size].
    intros vals v MV LV. destruct vals; [|discriminate]. cbn [ksem concat]. split; [auto|]. intros _ i Li.
    unfold bop, eval_op. rewrite nth_rep by lia. destruct (nth i v false); reflexivity.
  - (* const *) destruct ws; [|discriminate]. bools. subst n. eexists. split; [reflexivity|].
    split; [reflexivity|]. split; [reflexivity|]. split; [discriminate|]. split; [now left|]. cbn [p_op p_size].
    intros vals w MV LV. destruct vals; [|discriminate]. cbn [ksem concat].
    destruct (op_const_enc v sz) as [r [E [L U]]]. rewrite (admits_enc (OConst v) sz [] _ w E) by congruence.
    rewrite (uval_eq w r _) by (eauto; congruence). tauto.
  - (* binary *) destruct ws as [|a [|b [|]]]; try discriminate. bools. subst b. subst a. eexists. split; [reflexivity|].
    split; [reflexivity|]. split; [reflexivity|]. split; [discriminate|]. split; [now left|]. cbn [p_op p_size].
    intros vals v MV LV. apply map2inv in MV as [a [b [-> [La Lb]]]]. rewrite concat2. now apply bin_ok.
  - (* EQ *) destruct ws as [|a [|b [|]]]; try discriminate. bools. subst b n.
    pose proof (AS 0 ltac:(cbn; lia) eq_refl) as G. cbn [nth] in G. unfold plan. rewrite G. eexists. split; [reflexivity|].
    split; [reflexivity|]. split; [reflexivity|]. split; [discriminate|]. split; [now left|]. cbn [p_op p_size].
    intros vals v MV LV. apply map2inv in MV as [x [y [-> [La Lb]]]]. rewrite concat2.
    rewrite (admits_enc _ _ _ [if list_eq_dec bool_dec x y then true else false] v);
      [| apply (op_eq_enc x y a La Lb) | cbn; congruence].
    cbn [ksem]. destruct (list_eq_dec bool_dec x y) as [Q|Q]; split.
    + intros ->. exists true. tauto.
    + intros [r [-> R]]. f_equal. now apply R.
    + intros ->. exists false. split; auto. split; [discriminate|tauto].
    + intros [r [-> R]]. f_equal. destruct r; auto. exfalso. now apply Q, R.
  - (* GR *) destruct ws as [|a [|b [|]]]; try discriminate. bools. subst b n.
    pose proof (AS 0 ltac:(cbn; lia) eq_refl) as G. cbn [nth] in G. unfold plan. rewrite G. eexists. split; [reflexivity|].
    split; [reflexivity|]. split; [reflexivity|]. split; [discriminate|]. split; [now left|]. cbn [p_op p_size].
    intros vals v MV LV. apply map2inv in MV as [x [y [-> [La Lb]]]]. rewrite concat2.
    rewrite (admits_enc _ _ _ [(uval y <? uval x)%Z] v); [tauto| apply (op_gr_enc x y a La Lb) | cbn; congruence].
  - (* NOT *) destruct ws as [|a [|]]; try discriminate. bools. subst a. eexists. split; [reflexivity|].
    split; [reflexivity|]. split; [reflexivity|]. split; [discriminate|]. split; [now left|]. cbn [p_op p_size].
    intros vals v MV LV. apply map1inv in MV as [x [-> La]]. rewrite concat1. cbn [ksem].
    rewrite (admits_enc _ _ _ _ v (op_not_enc x n La)); [tauto|]. rewrite map_length. congruence.
  - (* SX *) destruct ws as [|a [|]]; try discriminate. bools. subst n.
    pose proof (AS 0 ltac:(cbn; lia) eq_refl) as G. cbn [nth] in G. unfold plan. rewrite G. eexists. split; [reflexivity|].
    split; [reflexivity|]. split; [reflexivity|]. split; [discriminate|]. split; [now left|]. cbn [p_op p_size].
    intros vals v MV LV. apply map1inv in MV as [x [-> La]]. rewrite concat1. cbn [ksem].
    destruct (op_sx_enc x a sz La ltac:(lia)) as [r [E [L U]]]. rewrite (admits_enc _ _ _ _ v E) by congruence.
    rewrite La. destruct (sz <=? a).
    + rewrite (uval_eq v r _) by (eauto; congruence). tauto.
    + rewrite (sval_eq v r _) by (eauto; congruence). tauto.
  - (* ZX *) destruct ws as [|a [|]]; try discriminate. bools. subst n.
    pose proof (AS 0 ltac:(cbn; lia) eq_refl) as G. cbn [nth] in G. unfold plan. rewrite G. eexists. split; [reflexivity|].
    split; [reflexivity|]. split; [reflexivity|]. split; [discriminate|]. split; [now left|]. cbn [p_op p_size].
    intros vals v MV LV. apply map1inv in MV as [x [-> La]]. rewrite concat1. cbn [ksem].
    destruct (op_zx_enc x a sz La) as [r [E [L U]]]. rewrite (admits_enc _ _ _ _ v E) by congruence.
    rewrite La. rewrite (uval_eq v r _ ltac:(congruence) eq_refl), U. destruct (sz <=? a); tauto.
  - (* ITE *) destruct ws as [|c [|a [|b [|]]]]; try discriminate. bools. subst b c a. eexists. split; [reflexivity|].
    split; [reflexivity|]. split; [reflexivity|]. split; [discriminate|]. split; [now left|]. cbn [p_op p_size].
    intros vals v MV LV. apply map3inv in MV as [d [x [y [-> [Lc [La Lb]]]]]]. rewrite concat3.
    destruct d as [|d [|]]; try discriminate. cbn [ksem app].
    rewrite (admits_enc _ _ _ _ v (op_ite_enc accurate d x y n La Lb)); [tauto|]. destruct d; congruence.
  - (* slice *) destruct ws as [|a [|]]; try discriminate. bools. subst n.
    pose proof (AS 0 ltac:(cbn; lia) eq_refl) as G. cbn [nth] in G. unfold plan. rewrite G.
    rewrite Nat.eqb_refl. cbn [negb]. rewrite below_none by assumption. eexists. split; [reflexivity|].
    split; [reflexivity|]. split; [reflexivity|]. split; [discriminate|]. split; [now right|]. cbn [p_op p_size].
    intros vals v MV LV. apply map1inv in MV as [x [-> La]]. rewrite concat1. cbn [ksem]. clear G AS. subst a.
    apply slice_ok; auto. apply below_all. assumption.
  - (* update *) destruct ws as [|a [|c [|]]]; try discriminate. bools. subst n c.
    pose proof (AS 0 ltac:(cbn; lia) eq_refl) as G0. pose proof (AS 1 ltac:(cbn; lia) eq_refl) as G1.
    cbn [nth] in G0, G1. unfold plan. rewrite G0, G1. rewrite !Nat.eqb_refl. cbn [negb].
    rewrite below_none by assumption. eexists. split; [reflexivity|].
    split; [reflexivity|]. split; [reflexivity|]. split; [discriminate|]. split; [now left|]. cbn [p_op p_size].
    intros vals v MV LV. apply map2inv in MV as [x [y [-> [La Lb]]]]. rewrite concat2. clear G0 G1 AS. subst a.
    apply update_ok; auto. apply below_all. assumption.
  - (* idelay *) destruct ws as [|w0 hs]; [discriminate|]. bools. subst n.
    assert (FB : forallb (Nat.eqb sz) (w0 :: hs) = true) by assumption.
    assert (G : gs = w0 :: hs).
    { apply (nth_ext _ _ 0 0); auto. intros i Li. apply AS; auto. lia. }
    cbn [plan]. subst gs. rewrite FB. cbn [negb]. eexists. split; [reflexivity|].
    assert (AL : forall w, In w (w0 :: hs) -> w = sz).
    { rewrite forallb_forall in FB. intros w Hw. specialize (FB w Hw). apply Nat.eqb_eq in FB. auto. }
    split.
    { cbn [p_args]. rewrite <- map_id. apply map_ext_in. intros w Hw. symmetry. auto. }
    split; [reflexivity|]. split; [discriminate|]. split; [now left|]. cbn [p_op p_size].
    intros vals v MV LV. destruct vals as [|c vs]; [discriminate|]. injection MV as Mc MV.
    apply idelay_ok; auto.
    + rewrite Mc. apply AL. now left.
    + apply Forall_forall. intros h Hh. apply AL. right. rewrite <- MV. now apply in_map.
    + rewrite <- (map_length (@length bool)), MV. auto.
  - (* cat *) destruct ws as [|w0 ws]; [discriminate|]. bools.
    assert (G : gs = w0 :: ws).
    { apply (nth_ext _ _ 0 0); auto. intros i Li. apply AS; auto. lia. }
    subst gs. eexists. split; [reflexivity|].
    split; [reflexivity|]. split; [reflexivity|]. split; [discriminate|]. split; [now left|]. cbn [p_op p_size].
    intros vals v MV LV. cbn [ksem].
    assert (CL : length (concat vals) = n).
    { transitivity (list_sum (map (@length bool) vals)); [|now rewrite MV].
      clear. induction vals as [|x l IH]; auto. cbn. rewrite app_length, IH. reflexivity. }
    rewrite (admits_enc _ _ _ _ v (proj2 (op_var_enc (concat vals) n CL))); [tauto|congruence].
  - (* read *) destruct ws as [|wa [|wm [|]]]; try discriminate. bools. subst n wa wm. eexists. split; [reflexivity|].
    split; [reflexivity|]. split; [reflexivity|]. split; [discriminate|]. split; [now left|]. cbn [p_op p_size].
    intros vals v MV LV. apply map2inv in MV as [x [y [-> [La Lb]]]]. rewrite concat2. cbn [ksem].
    pose proof (op_read_enc x y a d lines La Lb ltac:(assumption)) as E. destruct (Z.ltb_spec (uval x) (Z.of_nat lines)) as [T|T].
    + rewrite (admits_enc _ _ _ _ v E); [split; [split; auto|intros [_ Q]; auto]|].
      rewrite line_length; auto. pose proof (uval_range x). lia.
    + unfold admits. rewrite E. split; [split; auto; lia|]. intros _ i Li. rewrite nth_rep by lia.
      destruct (nth i v false); reflexivity.
  - (* write *) destruct ws as [|wa [|wd [|wm [|]]]]; try discriminate. bools. subst n wa wd wm. eexists. split; [reflexivity|].
    split; [reflexivity|]. split; [reflexivity|]. split; [discriminate|]. split; [now left|]. cbn [p_op p_size].
    intros vals v MV LV. apply map3inv in MV as [x [y [z [-> [La [Lb Lc]]]]]]. rewrite concat3. cbn [ksem].
    destruct (op_write_enc x y z a d lines (lines * d) La Lb Lc ltac:(assumption)) as [r [E [L Q]]].
    rewrite (admits_enc _ _ _ _ v E) by congruence. split.
    + intros ->. auto.
    + intros [_ X]. apply (line_ext d lines); auto. intros k Lk. rewrite X, Q; auto.
Qed.
End Kind.
