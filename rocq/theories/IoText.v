(** * The pieces of text that printing and scanning are made of *)

From Coq Require Import String Ascii List Bool Arith ZArith Lia.
From Verif Require Import ArbModel ArbStr InfModel IoModel IoSpec.
Import ListNotations.
Open Scope list_scope.
Open Scope Z_scope.

Lemma lim_is : lim = Z.to_nat 130000.
Proof. reflexivity. Qed.
Lemma lim_fits {A} (t : list A) : Z.of_nat (length t) <= 130000 -> (length t <= lim)%nat.
Proof. rewrite lim_is. lia. Qed.
#[global] Opaque lim.

(** ** The buffer *)
Lemma strappend_fits b s : (length b + length s <= lim)%nat -> strappend b s = b ++ s.
Proof. intros H. unfold strappend. now rewrite firstn_all2 by lia. Qed.

Lemma charappend_fits b c : (length b < lim)%nat -> charappend b c = b ++ [c].
Proof. intros H. unfold charappend. destruct (Nat.ltb_spec lim (S (length b))); [lia|reflexivity]. Qed.

Lemma iter_fits c n b : (length b + n <= lim)%nat ->
  Nat.iter n (fun b => charappend b c) b = b ++ repeat c n.
Proof.
  induction n; intros H; [now rewrite app_nil_r|].
  change (Nat.iter (S n) (fun b => charappend b c) b)
    with (charappend (Nat.iter n (fun b => charappend b c) b) c).
  rewrite IHn by lia. rewrite charappend_fits by (rewrite app_length, repeat_length; lia).
  rewrite <- app_assoc. f_equal. symmetry. apply repeat_cons.
Qed.

(** ** Fields *)
Lemma prs_none b s lj zero w : field lj zero w [] s = None -> prs b s lj zero w = None.
Proof.
  unfold field, prs. cbn [length plus].
  destruct (0 <? w) eqn:E; cbn [andb]; [|discriminate].
  destruct (Z.ltb_spec (w - Z.of_nat (length s)) 0); [|discriminate].
  destruct (Z.ltb_spec w (Z.of_nat (length s))); [reflexivity|lia].
Qed.

Lemma prs_some b s lj zero w t : 0 <= w -> field lj zero w [] s = Some t ->
  (length b + length t <= lim)%nat -> prs b s lj zero w = Some (b ++ t).
Proof.
  unfold field, prs. cbn [length plus app]. intros Hw.
  set (len := Z.of_nat (length s)).
  assert (E : (0 <? w) && (w - len <? 0) = (0 <? w) && (w <? len)).
  { f_equal. destruct (Z.ltb_spec (w - len) 0), (Z.ltb_spec w len); lia. }
  rewrite E. destruct ((0 <? w) && (w <? len)) eqn:F; [discriminate|]. intros H L. f_equal.
  set (sz := if 0 <? w then w else len).
  assert (N : Z.to_nat (sz - len) = Z.to_nat (w - len)).
  { unfold sz. destruct (Z.ltb_spec 0 w); [reflexivity|]. lia. }
  rewrite N. injection H as <-.
  destruct lj; cbn [negb andb].
  - rewrite app_length, repeat_length in L.
    rewrite strappend_fits by lia. rewrite iter_fits by (rewrite app_length; lia).
    now rewrite <- app_assoc.
  - destruct zero; rewrite app_length, repeat_length in L;
    (rewrite iter_fits by lia; rewrite strappend_fits by (rewrite app_length, repeat_length; lia);
     now rewrite <- app_assoc).
Qed.

(** What is appended, when something is. *)
Lemma prs_inv b s lj zero w : 0 <= w ->
  match field lj zero w [] s with
  | None => prs b s lj zero w = None
  | Some t => (length b + length t <= lim)%nat -> prs b s lj zero w = Some (b ++ t)
  end.
Proof.
  intros H. destruct (field lj zero w [] s) eqn:F; [now apply prs_some|now apply prs_none].
Qed.

(** ** Digits *)
Lemma log2_fuel base v : 2 <= base -> 0 <= v -> v < base ^ Z.of_nat (S (Z.to_nat (Z.log2 v))).
Proof.
  intros Hb Hv. pose proof (Z.log2_nonneg v) as N. rewrite Nat2Z.inj_succ, Z2Nat.id by lia.
  apply Z.lt_le_trans with (2 ^ Z.succ (Z.log2 v)).
  - destruct (Z.eq_dec v 0) as [->|]; [reflexivity|]. apply Z.log2_spec; lia.
  - apply Z.pow_le_mono_l; lia.
Qed.

Lemma num_numeral base v : 2 <= base <= 36 -> 0 <= v -> numeral base (num base v) v.
Proof. intros Hb Hv. apply digits_top; [auto| |lia]. split; [auto|apply log2_fuel; lia]. Qed.

Lemma digits_head base : 2 <= base <= 36 -> forall fuel n acc,
  0 < n < base ^ Z.of_nat fuel ->
  exists c r, ArbModel.digits fuel base n acc = c :: r /\ 49 <= c.
Proof.
  intros Hb. induction fuel; intros n acc Hn; [cbn in Hn; lia|]. cbn [ArbModel.digits].
  pose proof (Z.div_mod n base ltac:(lia)) as D. pose proof (Z.mod_pos_bound n base ltac:(lia)) as M.
  destruct (Z.eqb_spec (n / base) 0) as [E|E].
  - eexists _, _. split; [reflexivity|]. unfold i2c. rewrite E in D.
    destruct (Z.ltb_spec (n mod base) 10); lia.
  - apply IHfuel. rewrite Nat2Z.inj_succ, Z.pow_succ_r in Hn by lia.
    assert (0 <= n / base) by (apply Z.div_pos; lia).
    split; [lia|]. apply Z.div_lt_upper_bound; lia.
Qed.

Lemma num_head base v : 2 <= base <= 36 -> 0 < v -> exists c r, num base v = c :: r /\ 49 <= c.
Proof. intros Hb Hv. apply digits_head; [auto|]. split; [auto|apply log2_fuel; lia]. Qed.

Lemma num_cons base v : 2 <= base <= 36 -> 0 <= v -> num base v <> [].
Proof.
  intros Hb Hv E. destruct (Z.eq_dec v 0) as [->|].
  - unfold num in E. cbn in E. discriminate E.
  - destruct (num_head base v Hb ltac:(lia)) as (c & r & E' & _). congruence.
Qed.

(** ** The sign put in afterwards *)
Lemma minus_spaces n c r : 49 <= c -> minus_sp (repeat 32 (S n) ++ c :: r) = repeat 32 n ++ 45 :: c :: r.
Proof.
  intros H. induction n.
  - cbn. destruct c as [|p|p]; try lia. do 6 (destruct p as [p|p|]; try reflexivity). lia.
  - change (repeat 32 (S (S n)) ++ c :: r) with (32 :: 32 :: (repeat 32 n ++ c :: r)).
    change (minus_sp (32 :: 32 :: (repeat 32 n ++ c :: r)))
      with (32 :: minus_sp (repeat 32 (S n) ++ c :: r)).
    now rewrite IHn.
Qed.

Lemma minus_none c r : 49 <= c -> minus (c :: r) = None.
Proof.
  intros H. cbn. destruct c as [|p|p]; try lia. do 6 (destruct p as [p|p|]; try reflexivity); lia.
Qed.

Lemma skipn_app_len (b t : text) : skipn (length b) (b ++ t) = t.
Proof. rewrite skipn_app, skipn_all, Nat.sub_diag. reflexivity. Qed.
Lemma firstn_app_len (b t : text) : firstn (length b) (b ++ t) = b.
Proof. rewrite firstn_app, firstn_all, Nat.sub_diag. cbn. apply app_nil_r. Qed.

Lemma sign_neg z : z < 0 -> sign z = [45].
Proof. intros H. unfold sign. destruct (Z.ltb_spec z 0); [reflexivity|lia]. Qed.
Lemma sign_pos z : 0 <= z -> sign z = [].
Proof. intros H. unfold sign. destruct (Z.ltb_spec z 0); [lia|reflexivity]. Qed.

Lemma print_num_none base b z lj zero w : 2 <= base <= 36 -> 0 <= w ->
  field lj zero w (sign z) (num base (Z.abs z)) = None ->
  print_num base b z lj zero w = None.
Proof.
  intros Hb Hw F. unfold print_num. destruct (Z.ltb_spec z 0) as [N|N]; cbn [andb].
  2: { rewrite sign_pos in F by auto. now rewrite prs_none. }
  rewrite sign_neg in F by auto. unfold field in F. cbn [length plus app] in F.
  set (len := length (num base (Z.abs z))) in *.
  destruct (Z.ltb_spec 0 w); cbn [andb] in F; [|discriminate].
  destruct (Z.ltb_spec (w - Z.of_nat (S len)) 0); [|discriminate].
  destruct (Z.eqb_spec w 0); [lia|]. cbn [orb].
  destruct lj.
  - destruct (Z.eqb_spec w 1); [reflexivity|]. destruct (Z.ltb_spec 0 w); [|lia].
    apply prs_none. unfold field. cbn [length plus]. fold len.
    destruct (Z.ltb_spec 0 (w - 1)); [|lia]. cbn [andb].
    destruct (Z.ltb_spec (w - 1 - Z.of_nat len) 0); [reflexivity|lia].
  - unfold prs. fold len. destruct (Z.ltb_spec 0 w); [|lia]. cbn [andb negb].
    destruct (Z.ltb_spec w (Z.of_nat len)); [reflexivity|].
    replace (w - Z.of_nat len) with 0 by lia. cbn [Z.to_nat Nat.iter nat_rect].
    unfold strappend. rewrite skipn_app_len.
    destruct (num_head base (Z.abs z) Hb ltac:(lia)) as (c & r & E & C). rewrite E.
    destruct (lim - length b)%nat; cbn [firstn]; [reflexivity|]. now rewrite minus_none.
Qed.

Lemma print_num_some base b z lj zero w t : 2 <= base <= 36 -> 0 <= w ->
  field lj zero w (sign z) (num base (Z.abs z)) = Some t ->
  (length b + length t <= lim)%nat -> print_num base b z lj zero w = Some (b ++ t).
Proof.
  intros Hb Hw F L. unfold print_num. destruct (Z.ltb_spec z 0) as [N|N]; cbn [andb].
  2: { rewrite sign_pos in F by auto. now rewrite (prs_some b _ lj zero w t). }
  rewrite sign_neg in F by auto. unfold field in F. cbn [length plus app] in F.
  destruct (num_head base (Z.abs z) Hb ltac:(lia)) as (c & r & E & C).
  set (ds := num base (Z.abs z)) in *. set (len := length ds) in *.
  assert (Hl : (1 <= len)%nat) by (unfold len; rewrite E; cbn; lia).
  destruct ((0 <? w) && (w - Z.of_nat (S len) <? 0)) eqn:FF; [discriminate|]. injection F as <-.
  change (Z.pos (Pos.of_succ_nat len)) with (Z.of_nat (S len)) in *.
  destruct ((w =? 0) || lj) eqn:G.
  - (* sign first *)
    assert (T : field lj zero (if 0 <? w then w - 1 else w) [] ds
              = Some (if lj then ds ++ repeat 32 (Z.to_nat (w - Z.of_nat (S len))) else ds)).
    { unfold field. cbn [length plus app]. fold len.
      destruct (Z.ltb_spec 0 w); cbn [andb] in *.
      - destruct (Z.eqb_spec w 0); [lia|]. cbn [orb] in G. subst lj.
        replace (w - 1 - Z.of_nat len) with (w - Z.of_nat (S len)) by lia.
        rewrite FF, andb_false_r. reflexivity.
      - destruct (Z.ltb_spec 0 w); [lia|]. cbn [andb].
        replace (Z.to_nat (w - Z.of_nat len)) with 0%nat by lia.
        replace (Z.to_nat (w - Z.of_nat (S len))) with 0%nat by lia.
        destruct lj, zero; reflexivity. }
    assert (W1 : w <> 1) by (intros ->; revert FF; change (0 <? 1) with true; cbn [andb];
       destruct (Z.ltb_spec (1 - Z.of_nat (S len)) 0); [discriminate|lia]).
    destruct (Z.eqb_spec w 1); [contradiction|].
    assert (LB : (length b < lim)%nat).
    { destruct lj, zero; cbn [app length] in L; repeat rewrite app_length in L; cbn [length] in L; lia. }
    rewrite charappend_fits by exact LB.
    assert (W2 : 0 <= (if 0 <? w then w - 1 else w)) by (destruct (Z.ltb_spec 0 w); lia).
    rewrite (prs_some _ _ _ _ _ _ W2 T).
    + f_equal. rewrite <- app_assoc. f_equal. destruct lj; [reflexivity|].
      destruct (Z.eqb_spec w 0); [|discriminate]. subst w.
      replace (Z.to_nat (0 - Z.of_nat (S len))) with 0%nat by lia. destruct zero; reflexivity.
    + rewrite app_length. cbn [length]. destruct lj; [change (length b + S (length (ds ++ repeat 32%Z (Z.to_nat (w - Z.of_nat (S len))))) <= lim)%nat in L; lia|].
      destruct (Z.eqb_spec w 0); [|discriminate]. subst w. fold len.
      replace (Z.to_nat (0 - Z.of_nat (S len))) with 0%nat in L by lia.
      destruct zero; cbn [app length] in L; rewrite app_length in L; cbn [length] in L; fold len in L; lia.
  - (* the sign replaces a filler *)
    apply orb_false_elim in G. destruct G as [G ->]. apply Z.eqb_neq in G.
    destruct (Z.ltb_spec 0 w); [|lia]. cbn [andb] in FF. apply Z.ltb_ge in FF.
    set (n := Z.to_nat (w - Z.of_nat (S len))) in *.
    assert (T : field false zero w [] ds = Some (repeat (if zero then 48 else 32) (S n) ++ ds)).
    { unfold field. cbn [length plus app]. fold len. destruct (Z.ltb_spec 0 w); [|lia]. cbn [andb].
      destruct (Z.ltb_spec (w - Z.of_nat len) 0); [lia|].
      replace (Z.to_nat (w - Z.of_nat len)) with (S n) by lia. destruct zero; reflexivity. }
    assert (L' : (length b + length (repeat (if zero then 48%Z else 32%Z) (S n) ++ ds) <= lim)%nat).
    { rewrite app_length, repeat_length. fold len.
      destruct zero; cbn [length app] in L; rewrite app_length, repeat_length in L; cbn [length] in L; fold len in L; lia. }
    rewrite (prs_some _ _ _ _ _ _ Hw T L'). rewrite skipn_app_len, firstn_app_len.
    destruct zero.
    + cbn [repeat app minus]. reflexivity.
    + change (minus (repeat 32 (S n) ++ ds)) with (Some (minus_sp (repeat 32 (S n) ++ ds))).
      rewrite E, minus_spaces by auto. reflexivity.
Qed.

(** ** Binary *)
Definition bit (b : bool) : Z := if b then 49 else 48.
Fixpoint low (n : nat) (z : Z) : text :=
  match n with O => [] | S n => bit (Z.odd z) :: low n (z / 2) end.

Lemma low_seq n : forall z, low n z = map (fun i => if Z.testbit z (Z.of_nat i) then 49 else 48) (seq 0 n).
Proof.
  induction n; intros z; [reflexivity|]. cbn [low seq map]. f_equal.
  rewrite <- seq_shift, map_map, IHn. apply map_ext. intros i.
  rewrite Nat2Z.inj_succ, <- Z.div2_bits by lia. reflexivity.
Qed.

Lemma twos_low n z : twos n z = rev (low n z).
Proof. unfold twos. now rewrite low_seq, <- map_rev. Qed.

Lemma twos_S n z : twos (S n) z = twos n (z / 2) ++ [bit (Z.odd z)].
Proof. now rewrite !twos_low. Qed.

Lemma twos_length n z : length (twos n z) = n.
Proof. unfold twos. rewrite map_length, rev_length. apply seq_length. Qed.

Lemma low_lnot n : forall z, low n (- z - 1) = map swap (low n z).
Proof.
  induction n; intros z; [reflexivity|]. cbn [low map]. f_equal.
  - unfold bit, swap. replace (- z - 1) with (Z.lnot z) by (unfold Z.lnot; lia).
    rewrite <- !Z.bit0_odd, Z.lnot_spec by lia. destruct (Z.testbit z 0); reflexivity.
  - rewrite <- IHn. f_equal.
    pose proof (Z.div_mod z 2 ltac:(lia)). pose proof (Z.mod_pos_bound z 2 ltac:(lia)).
    symmetry. apply Z.div_unique with (r := 1 - z mod 2); lia.
Qed.

Lemma flip_rev_low n : forall z, flip_rev (low n z) = low n (- z).
Proof.
  induction n; intros z; [reflexivity|]. cbn [low flip_rev]. rewrite Z.odd_opp.
  pose proof (Zmod_odd z) as O. pose proof (Z.div_mod z 2 ltac:(lia)) as D.
  destruct (Z.odd z); unfold bit.
  - change (49 =? 49) with true. cbv iota. f_equal. rewrite <- low_lnot. f_equal.
    apply Z.div_unique with (r := 1); lia.
  - change (48 =? 49) with false. cbv iota. f_equal. rewrite IHn. f_equal.
    apply Z.div_unique with (r := 0); lia.
Qed.

Lemma flip_rev_none l : existsb (Z.eqb 49) l = false -> flip_rev l = l.
Proof.
  induction l as [|c l IH]; intros E; [reflexivity|]. cbn [existsb] in E. apply orb_false_elim in E.
  destruct E as [E1 E2]. cbn [flip_rev]. rewrite Z.eqb_sym, E1. now rewrite IH.
Qed.

Lemma existsb_rev (f : Z -> bool) l : existsb f (rev l) = existsb f l.
Proof.
  induction l; [reflexivity|]. cbn. rewrite existsb_app, IHl. cbn. rewrite orb_false_r. apply orb_comm.
Qed.

Lemma flip_twos n z : flip (twos n z) = twos n (- z).
Proof.
  unfold flip. rewrite !twos_low. destruct (existsb (Z.eqb 49) (rev (low n z))) eqn:E.
  - now rewrite rev_involutive, flip_rev_low.
  - rewrite existsb_rev in E. apply flip_rev_none in E. rewrite flip_rev_low in E. now rewrite E.
Qed.

Lemma twos_zeros m : forall n z, 0 <= z < 2 ^ Z.of_nat n -> repeat 48 m ++ twos n z = twos (m + n) z.
Proof.
  assert (G : forall n z, 0 <= z < 2 ^ Z.of_nat n -> 48 :: twos n z = twos (S n) z).
  { intros n z H. change (twos (S n) z) with
      (map (fun i => if Z.testbit z (Z.of_nat i) then 49 else 48) (rev (seq 0 (S n)))).
    rewrite seq_S, rev_app_distr. cbn [rev app map plus]. f_equal.
    destruct (Z.eq_dec z 0) as [->|]; [now rewrite Z.bits_0|].
    rewrite Z.bits_above_log2; [reflexivity|lia|]. apply Z.log2_lt_pow2; lia. }
  induction m; intros n z H; [reflexivity|]. cbn [repeat app plus]. rewrite IHm by auto.
  apply G. split; [lia|]. apply Z.lt_le_trans with (1 := proj2 H). apply Z.pow_le_mono_r; lia.
Qed.

Lemma digits2 : forall fuel n acc, 0 <= n < 2 ^ Z.of_nat fuel -> (0 < fuel)%nat ->
  ArbModel.digits fuel 2 n acc = twos (bits n) n ++ acc.
Proof.
  induction fuel; intros n acc Hn Hf; [lia|]. cbn [ArbModel.digits].
  assert (I : i2c (n mod 2) = bit (Z.odd n)).
  { rewrite Zmod_odd. destruct (Z.odd n); reflexivity. }
  rewrite I. destruct (Z.eqb_spec (n / 2) 0) as [E|E].
  - pose proof (Z.div_mod n 2 ltac:(lia)). pose proof (Z.mod_pos_bound n 2 ltac:(lia)).
    assert (n = 0 \/ n = 1) as [-> | ->] by lia; reflexivity.
  - rewrite Nat2Z.inj_succ, Z.pow_succ_r in Hn by lia.
    assert (0 <= n / 2) by (apply Z.div_pos; lia).
    rewrite IHfuel.
    + assert (B : bits n = S (bits (n / 2))).
      { unfold bits. destruct (Z.eqb_spec n 0) as [->|]; [cbn in E; lia|].
        destruct (Z.eqb_spec (n / 2) 0); [lia|]. f_equal. rewrite !Z.abs_eq by lia.
        rewrite <- Z.div2_div in *. 
        assert (2 <= n) by (rewrite Z.div2_div in *; pose proof (Z.div_mod n 2 ltac:(lia)); pose proof (Z.mod_pos_bound n 2 ltac:(lia)); lia).
        rewrite (Z.div2_spec n), Z.log2_shiftr by lia.
        pose proof (Z.log2_le_mono 2 n ltac:(lia)) as L2. change (Z.log2 2) with 1 in L2. lia. }
      rewrite B, twos_S, <- app_assoc. reflexivity.
    + split; [auto|]. apply Z.div_lt_upper_bound; lia.
    + destruct fuel; [|lia]. change (2 ^ Z.of_nat 0) with 1 in Hn.
      assert (n / 2 = 0) by (apply Z.div_small; lia). lia.
Qed.

Lemma num2 n : 0 <= n -> num 2 n = twos (bits n) n.
Proof.
  intros H. unfold num. rewrite digits2 by (try (split; [auto|apply log2_fuel]); lia).
  apply app_nil_r.
Qed.

Lemma bits_pow z : Z.abs z < 2 ^ Z.of_nat (bits z).
Proof.
  unfold bits. destruct (Z.eqb_spec z 0) as [->|]; [reflexivity|].
  apply log2_fuel; lia.
Qed.

Lemma bits_le z w : 0 < w -> (Z.of_nat (bits z) <= w <-> Z.abs z < 2 ^ w).
Proof.
  intros Hw. unfold bits. destruct (Z.eqb_spec z 0) as [->|].
  - split; intros; [|lia]. change (Z.abs 0) with 0. apply Z.pow_pos_nonneg; lia.
  - rewrite Nat2Z.inj_succ, Z2Nat.id by apply Z.log2_nonneg.
    rewrite Z.log2_lt_pow2 by lia. lia.
Qed.

Lemma bits_abs z : bits (Z.abs z) = bits z.
Proof.
  unfold bits. rewrite Z.abs_involutive. destruct (Z.eqb_spec (Z.abs z) 0), (Z.eqb_spec z 0); lia.
Qed.

Lemma num2_length z : length (num 2 (Z.abs z)) = bits z.
Proof. rewrite num2 by lia. now rewrite twos_length, bits_abs. Qed.

Lemma print_b_none b z lj zero w : 0 <= w -> binary zero w z = None -> print_b b z lj zero w = None.
Proof.
  intros Hw. unfold binary, print_b. destruct (Z.eqb_spec w 0); [discriminate|].
  destruct (Z.leb_spec (2 ^ w) (Z.abs z)); [|discriminate]. intros _.
  assert (F : forall b', prs b' (num 2 (Z.abs z)) false true w = None).
  { intros b'. apply prs_none. unfold field. cbn [length plus]. rewrite num2_length.
    destruct (Z.ltb_spec 0 w); [|lia]. cbn [andb].
    pose proof (bits_le z w ltac:(lia)).
    destruct (Z.ltb_spec (w - Z.of_nat (bits z)) 0); [reflexivity|lia]. }
  destruct (Z.ltb_spec z 0).
  - replace (- z) with (Z.abs z) by lia. now rewrite F.
  - cbn [negb andb]. replace z with (Z.abs z) by lia. apply F.
Qed.

Lemma print_b_some b z lj zero w t : 0 <= w -> binary zero w z = Some t ->
  (length b + length t <= lim)%nat -> print_b b z lj zero w = Some (b ++ t).
Proof.
  intros Hw. unfold binary, print_b. destruct (Z.eqb_spec w 0) as [->|W0].
  - (* no width *)
    intros E L. injection E as <-. rewrite twos_length in L.
    assert (F : forall ds, field lj zero 0 [] ds = Some ds).
    { intros ds. unfold field. cbn [length plus app]. change (0 <? 0) with false. cbn [andb].
      replace (Z.to_nat (0 - Z.of_nat (length ds))) with 0%nat by lia. cbn [repeat].
      destruct lj, zero; rewrite ?app_nil_r; reflexivity. }
    assert (N : num 2 (Z.abs z) = twos (bits z) (Z.abs z)) by (rewrite num2, bits_abs by lia; reflexivity).
    pose proof (bits_pow z) as BP.
    destruct (Z.ltb_spec z 0) as [Hz|Hz].
    + destruct (Z.eqb_spec z 0); [lia|]. rewrite orb_false_r in *.
      replace (- z) with (Z.abs z) by lia.
      destruct zero.
      * rewrite (prs_some _ _ _ _ _ _ (Z.le_refl 0) (F _)) by (rewrite num2_length; lia).
        rewrite firstn_app_len, skipn_app_len, N, flip_twos. f_equal. f_equal. f_equal. lia.
      * rewrite charappend_fits by lia.
        rewrite (prs_some _ _ _ _ _ _ (Z.le_refl 0) (F _)) by (rewrite app_length, num2_length; cbn [length]; lia).
        rewrite <- app_assoc. rewrite firstn_app_len, skipn_app_len, N.
        change ([48] ++ twos (bits z) (Z.abs z)) with (repeat 48 1 ++ twos (bits z) (Z.abs z)).
        rewrite twos_zeros by lia. rewrite flip_twos. f_equal. f_equal. cbn [plus]. f_equal. lia.
    + replace (num 2 z) with (num 2 (Z.abs z)) by (f_equal; lia).
      change (0 =? 1) with false. change (0 <? 0) with false. cbv iota.
      destruct zero; cbn [negb andb orb] in *.
      * rewrite (prs_some _ _ _ _ _ _ (Z.le_refl 0) (F _)) by (rewrite num2_length; lia).
        rewrite N. do 3 f_equal. lia.
      * destruct (Z.eqb_spec z 0) as [->|]; cbn [negb orb] in *.
        -- now rewrite (prs_some _ _ _ _ _ _ (Z.le_refl 0) (F _)) by (rewrite num2_length; lia).
        -- rewrite charappend_fits by lia.
           rewrite (prs_some _ _ _ _ _ _ (Z.le_refl 0) (F _)) by (rewrite app_length, num2_length; cbn [length]; lia).
           rewrite <- app_assoc, N.
           change ([48] ++ twos (bits z) (Z.abs z)) with (repeat 48 1 ++ twos (bits z) (Z.abs z)).
           rewrite twos_zeros by lia. cbn [plus]. do 3 f_equal. lia.
  - destruct (Z.leb_spec (2 ^ w) (Z.abs z)); [discriminate|]. intros E L. injection E as <-.
    rewrite twos_length in L. pose proof (bits_le z w ltac:(lia)) as BL.
    assert (N : num 2 (Z.abs z) = twos (bits z) (Z.abs z)) by (rewrite num2, bits_abs by lia; reflexivity).
    pose proof (bits_pow z) as BP.
    assert (F : field false true w [] (num 2 (Z.abs z)) = Some (twos (Z.to_nat w) (Z.abs z))).
    { unfold field. cbn [length plus app]. rewrite num2_length.
      destruct (Z.ltb_spec 0 w); [|lia]. cbn [andb].
      destruct (Z.ltb_spec (w - Z.of_nat (bits z)) 0); [lia|].
      rewrite N, twos_zeros by lia. do 2 f_equal. lia. }
    destruct (Z.ltb_spec z 0).
    + replace (- z) with (Z.abs z) by lia.
      rewrite (prs_some _ _ _ _ _ _ Hw F) by (rewrite twos_length; lia).
      rewrite firstn_app_len, skipn_app_len, flip_twos. do 3 f_equal. lia.
    + cbn [negb andb]. replace (num 2 z) with (num 2 (Z.abs z)) by (f_equal; lia).
      rewrite (prs_some _ _ _ _ _ _ Hw F) by (rewrite twos_length; lia). do 3 f_equal. lia.
Qed.

(** ** Lists of strings *)
Lemma print_items_none lj zero w : forall l b sep, fields lj zero w l = None ->
  print_items b sep l lj zero w = None.
Proof.
  induction l as [|s l IH]; intros b sep F; [discriminate|]. cbn in F |- *.
  destruct (field lj zero w [] s) eqn:E.
  - destruct (fields lj zero w l); [discriminate|].
    destruct (prs _ s lj zero w); [apply IH; reflexivity|reflexivity].
  - now rewrite prs_none.
Qed.

Definition tail_text (ts : list text) : text := flat_map (fun t => [44; 32] ++ t) ts ++ [93].

Lemma print_items_tail lj zero w : 0 <= w -> forall l b ts, fields lj zero w l = Some ts ->
  (length b + length (tail_text ts) <= lim)%nat ->
  print_items b 44 l lj zero w = Some (b ++ tail_text ts).
Proof.
  intros Hw. induction l as [|s l IH]; intros b ts F L.
  - injection F as <-. cbn in L |- *. now rewrite charappend_fits by lia.
  - cbn in F. destruct (field lj zero w [] s) as [t|] eqn:E; [|discriminate].
    destruct (fields lj zero w l) as [ts'|] eqn:E'; [|discriminate]. injection F as <-.
    unfold tail_text in L. cbn [flat_map app] in L. cbn [length] in L.
    repeat rewrite app_length in L. cbn [length] in L.
    cbn [print_items]. change (44 =? 44) with true. cbv iota.
    rewrite (charappend_fits b) by lia.
    rewrite charappend_fits by (rewrite app_length; cbn [length]; lia).
    rewrite (prs_some _ _ _ _ _ _ Hw E) by (repeat rewrite app_length; cbn [length]; lia).
    rewrite (IH _ ts' eq_refl).
    + f_equal. unfold tail_text. cbn [flat_map app]. repeat rewrite <- app_assoc. reflexivity.
    + unfold tail_text. cbn [app]. repeat rewrite app_length. cbn [length]. lia.
Qed.

Lemma commas_tail t ts : commas (t :: ts) ++ [93] = t ++ tail_text ts.
Proof.
  revert t. induction ts as [|u ts IH]; intros t; [reflexivity|].
  change (commas (t :: u :: ts)) with (t ++ [44; 32] ++ commas (u :: ts)).
  repeat rewrite <- app_assoc. f_equal. rewrite IH. unfold tail_text. cbn [flat_map].
  now repeat rewrite <- app_assoc.
Qed.

Lemma print_list_none b l lj zero w : fields lj zero w l = None -> print_list b l lj zero w = None.
Proof. intros F. destruct l; [discriminate|]. now apply print_items_none. Qed.

Lemma print_list_some (b : text) l lj zero w ts : 0 <= w -> fields lj zero w l = Some ts ->
  (length b + length ([91%Z] ++ commas ts ++ [93%Z]) <= lim)%nat ->
  print_list b l lj zero w = Some (b ++ [91] ++ commas ts ++ [93]).
Proof.
  intros Hw F L. destruct l as [|s l].
  - injection F as <-. cbn in L |- *. now rewrite strappend_fits by (cbn; lia).
  - cbn in F. destruct (field lj zero w [] s) as [t|] eqn:E; [|discriminate].
    destruct (fields lj zero w l) as [ts'|] eqn:E'; [|discriminate]. injection F as <-.
    rewrite commas_tail in *. cbn [app length] in L. rewrite app_length in L.
    unfold print_list. cbn [print_items]. change (91 =? 44) with false. cbv iota.
    rewrite charappend_fits by lia.
    rewrite (prs_some _ _ _ _ _ _ Hw E) by (rewrite app_length; cbn [length]; lia).
    rewrite (print_items_tail _ _ _ Hw l _ ts' E') by (repeat rewrite app_length; cbn [length]; lia).
    f_equal. repeat rewrite <- app_assoc. reflexivity.
Qed.
