(* Lemmas on random2. *)
From Coq Require Import List ZArith Lia Bool.
From Verif Require Import RandModel RandSpec.
Import ListNotations.
Local Open Scope Z_scope.

Lemma wrap_id x : - 2 ^ 31 <= x < 2 ^ 31 -> wrap32 x = x.
Proof. intros H. unfold wrap32. rewrite Z.mod_small; lia. Qed.
Lemma pow_lt b : 0 <= b <= 30 -> 0 < 2 ^ b <= 2 ^ 30.
Proof. intros H. split; [apply Z.pow_pos_nonneg; lia|apply Z.pow_le_mono_r; lia]. Qed.
Lemma shl1_small b : 0 <= b <= 30 -> shl1 b = Some (2 ^ b).
Proof.
  intros H. unfold shl1. replace (0 <=? b) with true by (symmetry; apply Z.leb_le; lia).
  replace (b <? 32) with true by (symmetry; apply Z.ltb_lt; lia). cbn [andb].
  rewrite wrap_id; [reflexivity|]. pose proof (pow_lt b H). lia.
Qed.
Lemma shl1_31 : shl1 31 = Some (- 2 ^ 31).
Proof. reflexivity. Qed.
Lemma mask_small b r : 0 <= b <= 30 -> Z.land r (wrap32 (2 ^ b - 1)) = r mod 2 ^ b.
Proof.
  intros H. rewrite wrap_id by (pose proof (pow_lt b H); lia).
  rewrite <- Z.land_ones by lia. now rewrite Z.ones_equiv, Z.sub_1_r.
Qed.
Lemma mask_31 r : 0 <= r < 2 ^ 31 -> Z.land r (wrap32 (- 2 ^ 31 - 1)) = r.
Proof.
  intros H. change (wrap32 (- 2 ^ 31 - 1)) with (Z.ones 31). rewrite Z.land_ones by lia.
  now apply Z.mod_small.
Qed.

Lemma last_small r rs res b : 0 <= b <= 30 ->
  chunks (r :: rs) (- 2 ^ 31) b res = Some (res * 2 ^ b + r mod 2 ^ b, rs).
Proof.
  intros H. cbn [chunks]. replace (31 <? b) with false by (symmetry; apply Z.ltb_ge; lia).
  rewrite shl1_small by assumption. now rewrite mask_small.
Qed.
Lemma last_31 r rs res : 0 <= r < 2 ^ 31 ->
  chunks (r :: rs) (- 2 ^ 31) 31 res = Some (- (res * 2 ^ 31) + r, rs).
Proof.
  intros H. cbn [chunks]. change (31 <? 31) with false. cbv iota.
  rewrite shl1_31, mask_31 by assumption. do 2 f_equal. lia.
Qed.
Lemma more r rs res b : 31 < b -> 0 <= r < 2 ^ 31 ->
  chunks (r :: rs) (- 2 ^ 31) b res = chunks rs (- 2 ^ 31) (b - 31) (- (res * 2 ^ 31) + r).
Proof.
  intros H R. cbn [chunks]. replace (31 <? b) with true by (symmetry; apply Z.ltb_lt; lia).
  rewrite mask_31 by assumption. f_equal. lia.
Qed.


Lemma range rs bits v rest : 0 <= bits <= 61 -> draws rs ->
  random2 rs bits = Some (v, rest) -> 0 <= v < 2 ^ bits.
Proof.
  intros B D E. unfold random2 in E. rewrite shl1_31 in E.
  destruct rs as [|r1 rs]; [discriminate|]. inversion D as [|a l R1 D']; subst.
  destruct (Z.le_gt_cases bits 30) as [L|L].
  { rewrite last_small in E by lia. injection E as <- <-.
    pose proof (Z.mod_pos_bound r1 (2 ^ bits)). pose proof (pow_lt bits). lia. }
  destruct (Z.eq_dec bits 31) as [->|N].
  { rewrite last_31 in E by assumption. injection E as <- <-. lia. }
  rewrite more in E by lia. destruct rs as [|r2 rs]; [discriminate|].
  inversion D' as [|a l R2 _]; subst. rewrite last_small in E by lia. injection E as <- <-.
  replace (2 ^ bits) with (2 ^ 31 * 2 ^ (bits - 31)) by (rewrite <- Z.pow_add_r by lia; f_equal; lia).
  pose proof (pow_lt (bits - 31)). pose proof (Z.mod_pos_bound r2 (2 ^ (bits - 31))). nia.
Qed.

Lemma onto bits v : 0 <= bits <= 61 -> 0 <= v < 2 ^ bits ->
  exists rs, draws rs /\ random2 rs bits = Some (v, []).
Proof.
  intros B V. unfold random2. rewrite shl1_31.
  destruct (Z.le_gt_cases bits 30) as [L|L].
  { pose proof (pow_lt bits). exists [v]. split; [repeat constructor; lia|]. rewrite last_small by lia.
    rewrite Z.mod_small by lia. reflexivity. }
  destruct (Z.eq_dec bits 31) as [->|N].
  { exists [v]. split; [repeat constructor; lia|]. rewrite last_31 by lia. reflexivity. }
  set (b := bits - 31). pose proof (pow_lt b ltac:(lia)) as Pb.
  replace (2 ^ bits) with (2 ^ 31 * 2 ^ b) in V by (rewrite <- Z.pow_add_r by lia; f_equal; lia).
  pose proof (Z.mod_pos_bound v (2 ^ b)) as Mb.
  assert (Q : 0 <= v / 2 ^ b < 2 ^ 31).
  { split; [apply Z.div_pos; lia|]. apply Z.div_lt_upper_bound; lia. }
  exists [v / 2 ^ b; v mod 2 ^ b]. split; [repeat constructor; lia|].
  rewrite more by lia. fold b. rewrite last_small by lia. rewrite Z.mod_mod by lia.
  do 2 f_equal. pose proof (Z.div_mod v (2 ^ b)). lia.
Qed.

Lemma answers rs bits : 0 <= bits -> draws rs -> (Z.to_nat (bits / 31) < length rs)%nat ->
  exists v rest, random2 rs bits = Some (v, rest).
Proof.
  unfold random2. rewrite shl1_31. intros B D L.
  enough (G : forall res, exists v rest, chunks rs (- 2 ^ 31) bits res = Some (v, rest)) by apply G.
  revert bits B L.
  induction D as [|r rs R D IH]; intros bits B L res; [cbn in L; lia|].
  destruct (Z.le_gt_cases bits 30) as [S|S]; [rewrite last_small by lia; eauto|].
  destruct (Z.eq_dec bits 31) as [->|N]; [rewrite last_31 by assumption; eauto|].
  rewrite more by lia. apply IH; [lia|]. cbn [length] in L.
  assert (E : bits / 31 = (bits - 31) / 31 + 1).
  { replace bits with (bits - 31 + 1 * 31) at 1 by lia. rewrite Z.div_add by lia. reflexivity. }
  pose proof (Z.div_pos (bits - 31) 31). lia.
Qed.

Lemma zeros n rs b : 31 < b ->
  chunks (repeat 0 n ++ rs) (- 2 ^ 31) (b + 31 * Z.of_nat n) 0 = chunks rs (- 2 ^ 31) b 0.
Proof.
  intros B. induction n as [|n IH]; [cbn [repeat app]; f_equal; lia|].
  cbn [repeat app]. rewrite more by lia.
  replace (b + 31 * Z.of_nat (S n) - 31) with (b + 31 * Z.of_nat n) by lia. exact IH.
Qed.
Lemma draws_zeros n rs : draws rs -> draws (repeat 0 n ++ rs).
Proof.
  intros D. apply Forall_app. split; [|exact D]. apply Forall_forall. intros x I.
  apply repeat_spec in I. subst. lia.
Qed.
Lemma negative bits : 62 <= bits -> exists rs v, draws rs /\ random2 rs bits = Some (v, []) /\ v < 0.
Proof.
  intros B. unfold random2. rewrite shl1_31.
  pose proof (Z.mod_pos_bound (bits - 1) 31 ltac:(lia)) as M.
  pose proof (Z.div_mod (bits - 1) 31 ltac:(lia)) as E.
  set (q := (bits - 1) / 31) in *. set (c := (bits - 1) mod 31) in *.
  destruct (Z.eq_dec c 30) as [C|C].
  - assert (Hb : bits = 62 + 31 * Z.of_nat (Z.to_nat (q - 1))) by lia.
    exists (repeat 0 (Z.to_nat (q - 1)) ++ [1; 0]). eexists.
    split; [apply draws_zeros; repeat constructor; lia|]. rewrite Hb, zeros by lia.
    rewrite more by lia. change (62 - 31) with 31. rewrite last_31 by lia. split; [reflexivity|lia].
  - assert (Hb : bits = 62 + (c + 1) + 31 * Z.of_nat (Z.to_nat (q - 2))) by lia.
    exists (repeat 0 (Z.to_nat (q - 2)) ++ [1; 0; 0]). eexists.
    split; [apply draws_zeros; repeat constructor; lia|]. rewrite Hb, zeros by lia.
    rewrite more, more by lia. replace (62 + (c + 1) - 31 - 31) with (c + 1) by lia.
    rewrite last_small by lia. split; [reflexivity|].
    pose proof (pow_lt (c + 1)). rewrite Z.mod_0_l by lia. nia.
Qed.

(* The library functions *)
Lemma log_loop_spec fuel : forall n, 0 < n -> (Pos.size_nat (Z.to_pos n) <= fuel)%nat ->
  log_loop fuel n = Some (Z.log2 n).
Proof.
  induction fuel as [|fuel IH]; intros n P L; [destruct (Z.to_pos n); cbn in L; lia|].
  cbn [log_loop]. destruct (Z.eqb_spec n 1) as [->|N]; [reflexivity|].
  destruct n as [|p|p]; try lia. cbn [Z.to_pos] in L. rewrite <- Z.div2_div.
  destruct p as [p|p|]; [| |lia]; cbn [Z.div2 Pos.div2 Pos.size_nat Z.log2] in *.
  - rewrite IH by (cbn [Z.to_pos]; lia). f_equal. destruct p; cbn [Z.log2 Pos.size]; lia.
  - rewrite IH by (cbn [Z.to_pos]; lia). f_equal. destruct p; cbn [Z.log2 Pos.size]; lia.
Qed.
Lemma log2_spec n : 0 < n -> log2 n = Some (Z.log2 n).
Proof.
  intros P. unfold log2. replace (n <=? 0) with false by (symmetry; apply Z.leb_gt; lia).
  now apply log_loop_spec.
Qed.
Lemma pow_loop_spec base n : pow_loop base n = base ^ Z.of_nat n.
Proof.
  induction n as [|n IH]; [reflexivity|]. cbn [pow_loop]. rewrite IH, Nat2Z.inj_succ, Z.pow_succ_r by lia.
  reflexivity.
Qed.
Lemma square_spec p : forall base, square base (digits p) = base ^ Zpos p.
Proof.
  induction p as [p IH|p IH|]; intros base; cbn [digits square].
  - rewrite IH, Pos2Z.inj_xI, Z.pow_add_r, Z.pow_mul_r, Z.pow_2_r, Z.pow_1_r by lia. lia.
  - rewrite IH, Pos2Z.inj_xO, Z.pow_mul_r, Z.pow_2_r by lia. lia.
  - rewrite Z.pow_1_r. lia.
Qed.
Lemma ipow_spec base n : 0 <= n -> ipow base n = Some (base ^ n).
Proof.
  intros P. unfold ipow. replace (n <? 0) with false by (symmetry; apply Z.ltb_ge; lia).
  destruct (Z.eqb_spec n 0) as [->|N]; [reflexivity|].
  destruct (n <=? 10).
  - rewrite pow_loop_spec. now rewrite Z2Nat.id.
  - rewrite square_spec. now rewrite Z2Pos.id by lia.
Qed.

Lemma find_range fuel : forall rs try n_max imax l v rest, 0 < imax ->
  find_random fuel rs try n_max imax l = Val v rest -> 0 <= v < imax.
Proof.
  induction fuel as [|fuel IH]; intros rs try n_max imax l v rest P; cbn [find_random];
    destruct (try <? _); try discriminate.
  - intros E. injection E as <- <-. now apply Z.mod_pos_bound.
  - intros E. injection E as <- <-. now apply Z.mod_pos_bound.
  - destruct (random2 rs l) as [[t rs']|]; [|discriminate]. now apply IH.
Qed.

Lemma log2_none n : n <= 0 -> log2 n = None.
Proof. intros L. unfold log2. destruct (Z.leb_spec n 0); [reflexivity|lia]. Qed.

Lemma random_split rs min max : min < max ->
  random rs min max =
    let imax := max - min + 1 in
    if 2 ^ Z.log2 imax =? imax then
      match random2 rs (Z.log2 imax) with None => Undef | Some (v, rs) => Val (min + v) rs end
    else
      match random2 rs (Z.log2 (10000 * imax)) with
      | None => Undef
      | Some (try, rs) =>
          add_min min (find_random (length rs) rs try (2 ^ Z.log2 (10000 * imax)) imax (Z.log2 (10000 * imax)))
      end.
Proof.
  intros L. unfold random. destruct (Z.eqb_spec min max); [lia|]. destruct (Z.ltb_spec max min); [lia|].
  cbv zeta. set (imax := max - min + 1).
  rewrite (log2_spec imax) by lia. rewrite ipow_spec by apply Z.log2_nonneg.
  rewrite (log2_spec (10000 * imax)) by lia. now rewrite ipow_spec by apply Z.log2_nonneg.
Qed.

Lemma random_range rs min max v rest : min <= max -> draws rs ->
  (power_of_two (max - min + 1) -> max - min + 1 <= 2 ^ 61) ->
  random rs min max = Val v rest -> min <= v <= max.
Proof.
  intros L D H. destruct (Z.eq_dec min max) as [->|N].
  { unfold random. rewrite Z.eqb_refl. intros E. injection E as <- <-. lia. }
  rewrite random_split by lia. cbv zeta. set (imax := max - min + 1) in *.
  destruct (Z.eqb_spec (2 ^ Z.log2 imax) imax) as [E|E].
  - assert (B : Z.log2 imax <= 61).
    { apply (Z.pow_le_mono_r_iff 2); [lia|lia|]. rewrite E. apply H.
      exists (Z.log2 imax). split; [apply Z.log2_nonneg|now symmetry]. }
    destruct (random2 rs (Z.log2 imax)) as [[t rs']|] eqn:R; [|discriminate].
    intros Q. injection Q as <- <-. apply range in R; [|split; [apply Z.log2_nonneg|exact B]|exact D].
    rewrite E in R. lia.
  - destruct (random2 rs _) as [[t rs']|]; [|discriminate].
    destruct (find_random _ _ _ _ _ _) as [w rs2| |] eqn:F; try discriminate.
    intros Q. injection Q as <- <-. apply find_range in F; lia.
Qed.

Lemma find_no_fail fuel : forall rs try n_max imax l, find_random fuel rs try n_max imax l <> Fail.
Proof.
  induction fuel as [|fuel IH]; intros rs try n_max imax l; cbn [find_random];
    destruct (try <? _); try discriminate.
  destruct (random2 rs l) as [[t rs']|]; [apply IH|discriminate].
Qed.

Lemma random_fail rs min max : random rs min max = Fail <-> max < min.
Proof.
  destruct (Z.lt_trichotomy min max) as [L|[->|L]].
  - split; [|lia]. rewrite random_split by exact L. cbv zeta.
    destruct (_ =? _); destruct (random2 _ _) as [[t rs']|]; try discriminate.
    destruct (find_random _ _ _ _ _ _) eqn:F; try discriminate. now apply find_no_fail in F.
  - unfold random. rewrite Z.eqb_refl. split; [discriminate|lia].
  - split; [lia|]. intros _. unfold random. destruct (Z.eqb_spec min max); [lia|].
    destruct (Z.ltb_spec max min); [reflexivity|lia].
Qed.

Lemma random_onto min max v : min <= v <= max -> max - min + 1 <= 2 ^ 47 ->
  exists rs, draws rs /\ random rs min max = Val v [].
Proof.
  intros V B. destruct (Z.eq_dec min max) as [->|N].
  { exists []. split; [constructor|]. unfold random. rewrite Z.eqb_refl. f_equal. lia. }
  set (imax := max - min + 1) in *. assert (P : 1 < imax) by lia.
  destruct (Z.log2_spec imax) as [_ _]; [lia|].
  destruct (Z.eqb_spec (2 ^ Z.log2 imax) imax) as [E|E].
  - destruct (onto (Z.log2 imax) (v - min)) as (rs & D & R).
    { split; [apply Z.log2_nonneg|]. transitivity 47; [|lia]. apply (Z.pow_le_mono_r_iff 2); lia. }
    { rewrite E. lia. }
    exists rs. split; [exact D|]. rewrite random_split by lia. cbv zeta. fold imax.
    rewrite E, Z.eqb_refl, R. f_equal. lia.
  - set (l := Z.log2 (10000 * imax)). assert (P2 : 0 < 10000 * imax) by lia.
    pose proof (Z.log2_spec (10000 * imax) P2) as [L1 L2]. fold l in L1, L2.
    pose proof (Z.log2_nonneg (10000 * imax)) as L0. fold l in L0.
    rewrite Z.pow_succ_r in L2 by exact L0.
    assert (Q : 1 <= 2 ^ l / imax) by (apply Z.div_le_lower_bound; lia).
    destruct (onto l (v - min)) as (rs & D & R).
    { split; [exact L0|]. enough (l < 62) by lia. apply (Z.pow_lt_mono_r_iff 2); lia. }
    { lia. }
    exists rs. split; [exact D|]. rewrite random_split by lia. cbv zeta. fold imax. fold l.
    destruct (Z.eqb_spec (2 ^ Z.log2 imax) imax); [contradiction|]. rewrite R. cbn [length find_random].
    replace (v - min <? 2 ^ l / imax * imax) with true by (symmetry; apply Z.ltb_lt; nia).
    cbn [add_min]. rewrite Z.mod_small by lia. f_equal. lia.
Qed.
