(** Arbitrary precision integers: the division loop terminates with the floor
    quotient and its remainder. *)
From Coq Require Import ZArith Bool List Lia.
From Verif Require Import ArbModel ArbBase ArbMul ArbDiv.
Import ListNotations.
Open Scope Z_scope.

Definition is_div (x y q r : Z) : Prop := x = q * y + r /\ (0 <= r < y \/ y < r <= 0).
Lemma is_div_floor x y q r : is_div x y q r -> q = x / y /\ r = x mod y.
Proof.
  intros [E Hr]. split; [apply (Z.div_unique x y q r) | apply (Z.mod_unique x y q r)]; auto; lia. Qed.

Lemma cons_spec w x : word w -> canon x -> canon (trim (w :: x)) /\ val (trim (w :: x)) = uw w + B * val x.
Proof.
  intros Hw [Hx _]. assert (Hne : x <> []) by apply Hx.
  destruct (trim_spec (w :: x)) as [H1 H2]; [apply ok_cons; auto|]. split; [auto|]. rewrite H2, val_cons by auto. reflexivity. Qed.
Lemma uval_rev_cons w l : uval (rev (w :: l)) = uval (rev l) + Bn (length l) * uw w.
Proof. simpl rev. rewrite uval_app, rev_length. simpl. lia. Qed.

(** arb_prec.c 661-739 *)
Lemma div_loop_spec y ys zy : canon y -> 2 <= Z.abs (val y) -> val y <> MinWord -> Z.of_nat (1 + length y) <= 32767 ->
  lead y ys zy -> zy_range zy ->
  forall xlow q r, Forall word xlow -> canon q -> canon r -> Z.abs (val r) <= Z.abs (val y) * B ->
  exists n q' r', (forall fuel, div_loop (n + fuel) xlow y q r ys (zy / 2 ^ 31) (zy mod 2 ^ 31) = Some (q', r')) /\
    canon q' /\ canon r' /\
    is_div ((val q * val y + val r) * Bn (length xlow) + uval (rev xlow)) (val y) (val q') (val r').
Proof.
  intros Hy Ay Ny Ly Ld Rz. induction xlow as [|xj xlow IHl].
  - intros q r _ Hq Hr Hb. remember (Z.to_nat (Z.abs (val r))) as N eqn:EN.
    revert q r Hq Hr Hb EN. induction N as [N IH] using (well_founded_induction lt_wf). intros q r Hq Hr Hb EN.
    destruct (Z.compare_spec (Z.abs (val y)) (Z.abs (val r))) as [Ec|Ec|Ec].
    3:{ (* done *)
      exists 1%nat. pose proof (cmp0_spec r Hr) as C1. pose proof (cmp0_spec y Hy) as C2.
      assert (Est : forall fuel, div_loop (1 + fuel) [] y q r ys (zy / 2 ^ 31) (zy mod 2 ^ 31) =
        if negb (eqb (cmp0 r <? 0) (cmp0 y <? 0)) && negb (cmp0 r =? 0) then Some (arbi__sub q [1], arbi__add r y) else Some (q, r)).
      { intros fuel. cbn [Nat.add div_loop]. rewrite cmpa_spec by auto. rewrite (proj2 (Z.compare_gt_iff _ _) Ec). reflexivity. }
      assert (O1 : ok [1]) by (apply ok_one; bz).
      destruct (sub_spec q [1] (proj1 Hq) O1) as [Cs Vs]. destruct (add_spec r y (proj1 Hr) (proj1 Hy)) as [Ca Va]. simpl (val [1]) in Vs.
      cbn [length rev uval]. rewrite Bn_0. unfold is_div.
      rewrite C1, C2 in Est.
      assert (Dec : ((0 <= val r < val y \/ val y < val r <= 0) /\ negb (eqb (Z.sgn (val r) <? 0) (Z.sgn (val y) <? 0)) && negb (Z.sgn (val r) =? 0) = false) \/
        ((0 <= val r + val y < val y \/ val y < val r + val y <= 0) /\ negb (eqb (Z.sgn (val r) <? 0) (Z.sgn (val y) <? 0)) && negb (Z.sgn (val r) =? 0) = true)).
      { destruct (Z.ltb_spec (Z.sgn (val r)) 0), (Z.ltb_spec (Z.sgn (val y)) 0), (Z.eqb_spec (Z.sgn (val r)) 0); cbn [eqb negb andb];
        first [ exfalso; lia | left; split; [lia|reflexivity] | right; split; [lia|reflexivity] ]. }
      destruct Dec as [[Hd Ed]|[Hd Ed]]; rewrite Ed in Est.
      - exists q, r. split; [exact Est|]. split; [auto|]. split; [auto|]. split; [lia|]. auto.
      - exists (arbi__sub q [1]), (arbi__add r y). split; [exact Est|]. split; [auto|]. split; [auto|]. rewrite Vs, Va. split; [lia|]. auto. }
    all: destruct (guess_spec r y ys zy Hr Hy Ay ltac:(lia) Hb Ld Rz) as (g & Eg & Wg & Ng & Sg & Bg);
      destruct (mlt_spec [g] y (canon_one g Wg) Hy ltac:(exact Ly) ltac:(tauto)) as (t & Et & Ct & Vt);
      destruct (sub_spec r t (proj1 Hr) (proj1 Ct)) as [Cs Vs];
      destruct (add_spec q [g] (proj1 Hq) (proj2 (ok_one g) Wg)) as [Ca Va];
      simpl (val [g]) in Vt, Va; rewrite Vt in Vs;
      assert (Hlt : Z.abs (val (arbi__sub r t)) < Z.abs (val r)) by (rewrite Vs; set (gy := g * val y) in *; assert ((0 < gy <-> 0 < val r) /\ gy <> 0) by (subst gy; nia); lia);
      destruct (IH (Z.to_nat (Z.abs (val (arbi__sub r t)))) ltac:(lia) (arbi__add q [g]) (arbi__sub r t) Ca Cs ltac:(lia) eq_refl) as (n & q' & r' & En & Cq & Cr & Hd);
      exists (S n), q', r'; (split; [|split; [auto|split; [auto|]]];
      [ intros fuel; cbn [Nat.add div_loop]; rewrite cmpa_spec by auto;
        first [rewrite (proj2 (Z.compare_eq_iff _ _) Ec) | rewrite (proj2 (Z.compare_lt_iff _ _) Ec)];
        rewrite Eg; cbn [obind]; rewrite Et; cbn [obind]; apply En
      | replace ((val q * val y + val r) * Bn (length (@nil Z)) + uval (rev [])) with ((val (arbi__add q [g]) * val y + val (arbi__sub r t)) * Bn (length (@nil Z)) + uval (rev [])) by (rewrite Va, Vs; ring); exact Hd ]).
  - intros q r Hf Hq Hr Hb. apply Forall_cons_iff in Hf. destruct Hf as [Hxj Hf]. remember (Z.to_nat (Z.abs (val r))) as N eqn:EN.
    revert q r Hq Hr Hb EN. induction N as [N IH] using (well_founded_induction lt_wf). intros q r Hq Hr Hb EN.
    destruct (Z.compare_spec (Z.abs (val y)) (Z.abs (val r))) as [Ec|Ec|Ec].
    3:{ (* bring down a word *)
      assert (W0 : word 0) by bz. destruct (cons_spec 0 q W0 Hq) as [Cq Vq]. destruct (cons_spec xj r Hxj Hr) as [Cr Vr]. rewrite uw_0 in Vq.
      pose proof (uw_range xj) as Hu.
      destruct (IHl (trim (0 :: q)) (trim (xj :: r)) Hf Cq Cr) as (n & q' & r' & En & Cq' & Cr' & Hd).
      { rewrite Vr. unfold B in *. lia. }
      exists (S n), q', r'. split; [|split; [auto|split; [auto|]]].
      - intros fuel. cbn [Nat.add div_loop]. rewrite cmpa_spec by auto. rewrite (proj2 (Z.compare_gt_iff _ _) Ec). apply En.
      - rewrite Vq, Vr in Hd. rewrite uval_rev_cons. cbn [length]. rewrite Bn_S.
        replace ((val q * val y + val r) * (B * Bn (length xlow)) + (uval (rev xlow) + Bn (length xlow) * uw xj))
          with (((0 + B * val q) * val y + (uw xj + B * val r)) * Bn (length xlow) + uval (rev xlow)) by ring. exact Hd. }
    all: destruct (guess_spec r y ys zy Hr Hy Ay ltac:(lia) Hb Ld Rz) as (g & Eg & Wg & Ng & Sg & Bg);
      destruct (mlt_spec [g] y (canon_one g Wg) Hy ltac:(exact Ly) ltac:(tauto)) as (t & Et & Ct & Vt);
      destruct (sub_spec r t (proj1 Hr) (proj1 Ct)) as [Cs Vs];
      destruct (add_spec q [g] (proj1 Hq) (proj2 (ok_one g) Wg)) as [Ca Va];
      simpl (val [g]) in Vt, Va; rewrite Vt in Vs;
      assert (Hlt : Z.abs (val (arbi__sub r t)) < Z.abs (val r)) by (rewrite Vs; set (gy := g * val y) in *; assert ((0 < gy <-> 0 < val r) /\ gy <> 0) by (subst gy; nia); lia);
      destruct (IH (Z.to_nat (Z.abs (val (arbi__sub r t)))) ltac:(lia) (arbi__add q [g]) (arbi__sub r t) Ca Cs ltac:(lia) eq_refl) as (n & q' & r' & En & Cq & Cr & Hd);
      exists (S n), q', r'; (split; [|split; [auto|split; [auto|]]];
      [ intros fuel; cbn [Nat.add div_loop]; rewrite cmpa_spec by auto;
        first [rewrite (proj2 (Z.compare_eq_iff _ _) Ec) | rewrite (proj2 (Z.compare_lt_iff _ _) Ec)];
        rewrite Eg; cbn [obind]; rewrite Et; cbn [obind]; apply En
      | replace ((val q * val y + val r)) with (val (arbi__add q [g]) * val y + val (arbi__sub r t)) by (rewrite Va, Vs; ring); exact Hd ]).
Qed.

(** The top words of a canonical number are canonical. *)
Lemma trimmed_skipn x j : trimmed x -> (1 <= length x - j)%nat -> trimmed (skipn j x).
Proof.
  revert x. induction j as [|j IH]; intros x Ht Hl; [exact Ht|]. destruct x as [|a x]; [simpl in *; lia|].
  simpl skipn. apply IH; [|simpl in Hl; lia]. destruct x as [|b [|c x]]; [simpl in Hl; lia|exact I|exact Ht]. Qed.
Lemma skipn_canon x j : canon x -> (j < length x)%nat -> canon (skipn j x).
Proof.
  intros [[Hn Hf] Ht] Hl. split; [split|].
  - intros E. apply (f_equal (@length Z)) in E. rewrite skipn_length in E. simpl in E. lia.
  - rewrite <- (firstn_skipn j x) in Hf. apply Forall_app in Hf. apply Hf.
  - apply trimmed_skipn; auto. lia. Qed.

(** arb_prec.c 611-740 *)
Lemma divmod_spec x y : canon x -> canon y -> 2 <= Z.abs (val y) -> val y <> MinWord -> Z.of_nat (1 + length y) <= 32767 ->
  exists n q r, (forall fuel, divmod (n + fuel) x y = Some (q, r)) /\ canon q /\ canon r /\
    val q = val x / val y /\ val r = val x mod val y.
Proof.
  intros Hx Hy Ay Ny Ly.
  assert (G : exists n q r, (forall fuel, divmod (n + fuel) x y = Some (q, r)) /\ canon q /\ canon r /\ is_div (val x) (val y) (val q) (val r)).
  2:{ destruct G as (n & q & r & ? & ? & ? & Hd). exists n, q, r. split; [auto|]. split; [auto|]. split; [auto|]. apply is_div_floor. auto. }
  unfold divmod. pose proof (len_pos x (proj1 Hx)) as Px. pose proof (len_pos y (proj1 Hy)) as Py.
  destruct (Nat.ltb_spec (length x) (length y)) as [Hl|Hl].
  - exists 0%nat. rewrite !cmp0_spec by auto.
    pose proof (val_range x (proj1 Hx)) as Rx. pose proof (val_trimmed y (proj1 Hy) (proj2 Hy) ltac:(lia)) as Ty.
    pose proof (Bn_le (length x - 1) (length y - 2) ltac:(lia)) as Hle. pose proof (Bn_pos (length x - 1)) as HP.
    set (P1 := Bn (length x - 1)) in *. set (P2 := Bn (length y - 2)) in *.
    assert (F1 : - (HB * P2) <= val x < HB * P2) by (unfold HB in *; lia).
    assert (F2 : val y < - (HB * P2) \/ HB * P2 <= val y) by (unfold HB in *; lia).
    assert (C0 : canon [0]) by (apply canon_one; bz). assert (C1 : canon [-1]) by (apply canon_one; bz).
    destruct (add_spec x y (proj1 Hx) (proj1 Hy)) as [Ca Va]. unfold is_div.
    set (M := HB * P2) in *. clearbody M. clear Rx Ty Hle HP. clearbody P1 P2.
    destruct (Z.ltb_spec (Z.sgn (val x)) 0), (Z.ltb_spec (Z.sgn (val y)) 0), (Z.eqb_spec (Z.sgn (val x)) 0); cbn [eqb orb]; try lia;
    first [ exists [0], x; split; [reflexivity|]; split; [auto|]; split; [auto|]; simpl (val [0]); split; [lia|]; lia
          | exists [-1], (arbi__add x y); split; [reflexivity|]; split; [auto|]; split; [auto|]; simpl (val [-1]); rewrite Va; split; [lia|]; lia ].
  - destruct (lead_y_spec y Hy Ay) as (ys & zy & Ey & Ld & Rz). rewrite Ey. cbn [obind].
    set (j := (length x - length y)%nat). set (r0 := skipn j x).
    assert (Cr : canon r0) by (apply skipn_canon; auto; lia).
    assert (Lr : length r0 = length y) by (subst r0; rewrite skipn_length; lia).
    assert (C0 : canon [0]) by (apply canon_one; bz).
    assert (Hb : Z.abs (val r0) <= Z.abs (val y) * B).
    { pose proof (val_range r0 (proj1 Cr)) as Rr. rewrite Lr in Rr.
      destruct (le_lt_dec 2 (length y)) as [H2|H2].
      - pose proof (val_trimmed y (proj1 Hy) (proj2 Hy) H2) as Ty. replace (length y - 1)%nat with (S (length y - 2)) in Rr by lia.
        rewrite Bn_S in Rr. pose proof (Bn_pos (length y - 2)). set (P := Bn (length y - 2)) in *. unfold B, HB in *. lia.
      - replace (length y - 1)%nat with 0%nat in Rr by lia. rewrite Bn_0 in Rr. unfold B, HB in *. lia. }
    assert (Hf : Forall word (rev (firstn j x))).
    { apply Forall_rev. destruct Hx as [[_ Hf] _]. rewrite <- (firstn_skipn j x) in Hf. apply Forall_app in Hf. apply Hf. }
    destruct (div_loop_spec y ys zy Hy Ay Ny Ly Ld Rz (rev (firstn j x)) [0] r0 Hf C0 Cr Hb) as (n & q' & r' & En & Cq & Cr' & Hd).
    exists n, q', r'. split; [exact En|]. split; [auto|]. split; [auto|].
    rewrite rev_involutive, rev_length in Hd. simpl (val [0]) in Hd.
    replace (val x) with ((0 * val y + val r0) * Bn (length (firstn j x)) + uval (firstn j x)); [exact Hd|].
    rewrite <- (firstn_skipn j x) at 3. rewrite val_app by apply Cr. fold r0. ring. Qed.

Lemma quot_floor_pos a b : 0 <= a -> 0 < b -> Z.quot a b = a / b /\ Z.rem a b = a mod b.
Proof. intros. rewrite Z.quot_div_nonneg, Z.rem_mod_nonneg by lia. auto. Qed.
Lemma canon_len1 x : canon x -> word (val x) -> exists w, x = [w] /\ val x = w.
Proof.
  intros Hx Hw. exists (val x). split; [|auto]. apply canon_inj; auto. apply canon_one. auto. Qed.

(** arb_prec.c 742-821 *)
Lemma div_spec x y : canon x -> canon y -> val y <> 0 -> val y <> MinWord -> Z.of_nat (1 + length y) <= 32767 ->
  exists n z, (forall fuel, arbi__div (n + fuel) x y = Some (Some z)) /\ canon z /\ val z = val x / val y.
Proof.
  intros Hx Hy N0 Nm Ly. pose proof (divmod_spec x y Hx Hy) as HD. unfold arbi__div.
  assert (Slow : 2 <= Z.abs (val y) -> exists n z, (forall fuel, (let? (q, _) := divmod (n + fuel) x y in Some (Some q)) = Some (Some z)) /\ canon z /\ val z = val x / val y).
  { intros A2. destruct (HD A2 Nm Ly) as (n & q & r & E & Cq & Cr & Vq & Vr). exists n, q. split; [|auto]. intros fuel. rewrite E. reflexivity. }
  clear HD. destruct y as [|wy [|wy2 y]].
  { destruct Hy as [[? _] _]; congruence. }
  2:{ apply Slow. pose proof (val_trimmed _ (proj1 Hy) (proj2 Hy) ltac:(simpl; lia)) as Ty. pose proof (Bn_pos (length (wy :: wy2 :: y) - 2)).
      set (v := val _) in *. set (P := Bn _) in *. unfold HB in *. lia. }
  simpl (val [wy]) in *. destruct Hy as [Hy _]. apply ok_one in Hy.
  destruct (Z.eqb_spec wy 0) as [|_]; [congruence|].
  destruct (Z.eqb_spec wy 1) as [->|N1]; [exists 0%nat, x; split; [auto|]; split; [auto|]; rewrite Z.div_1_r; auto|].
  destruct (Z.eqb_spec wy (-1)) as [->|Nm1].
  { destruct (neg_spec x (proj1 Hx)) as [C V]. exists 0%nat, (arbi__neg x). split; [auto|]. split; [auto|]. rewrite V.
    apply (Z.div_unique _ _ _ 0); lia. }
  specialize (Slow ltac:(lia)). destruct x as [|wx [|]]; try exact Slow.
  destruct Hx as [Hx _]. apply ok_one in Hx. simpl (val [wx]) in *.
  destruct (Z.eqb_spec wx MinWord) as [|Nx]; [exact Slow|]. destruct (Z.eqb_spec wy MinWord) as [|_]; [congruence|]. cbn [negb andb].
  exists 0%nat.
  assert (Dk : forall a b, 0 <= a -> 0 < b -> cdiv a b = Some (a / b) /\ cmod a b = Some (a mod b)).
  { intros a b Ha Hb. destruct (quot_floor_pos a b Ha Hb) as [<- <-]. rewrite cdiv_ok, cmod_ok by lia. auto. }
  destruct (Z.leb_spec 0 wx), (Z.ltb_spec wx 0), (Z.leb_spec 0 wy), (Z.ltb_spec wy 0); try lia; cbn [andb].
  - destruct (Dk wx wy ltac:(lia) ltac:(lia)) as [-> _]. cbn [obind]. eexists. split; [reflexivity|]. split; [|reflexivity].
    apply canon_one. pose proof (Z.div_pos wx wy ltac:(lia) ltac:(lia)). pose proof (Z.div_le_upper_bound wx wy wx ltac:(lia) ltac:(nia)). bz.
  - destruct (Dk wx (- wy) ltac:(lia) ltac:(lia)) as [-> ->]. cbn [obind]. eexists. split; [reflexivity|].
    pose proof (Z.div_mod wx (- wy) ltac:(lia)) as E. pose proof (Z.mod_pos_bound wx (- wy) ltac:(lia)) as Bm.
    pose proof (Z.div_pos wx (- wy) ltac:(lia) ltac:(lia)). pose proof (Z.div_le_upper_bound wx (- wy) wx ltac:(lia) ltac:(nia)).
    set (q := wx / - wy) in *. set (m := wx mod - wy) in *.
    split; [apply canon_one; destruct (m =? 0); bz|]. simpl. destruct (Z.eqb_spec m 0).
    + apply (Z.div_unique _ _ _ 0); [lia|]. nia.
    + apply (Z.div_unique _ _ _ (m + wy)); [lia|]. nia.
  - destruct (Dk (- wx) wy ltac:(lia) ltac:(lia)) as [-> ->]. cbn [obind]. eexists. split; [reflexivity|].
    pose proof (Z.div_mod (- wx) wy ltac:(lia)) as E. pose proof (Z.mod_pos_bound (- wx) wy ltac:(lia)) as Bm.
    pose proof (Z.div_pos (- wx) wy ltac:(lia) ltac:(lia)). pose proof (Z.div_le_upper_bound (- wx) wy (- wx) ltac:(lia) ltac:(nia)).
    set (q := - wx / wy) in *. set (m := - wx mod wy) in *.
    split; [apply canon_one; destruct (m =? 0); bz|]. simpl. destruct (Z.eqb_spec m 0).
    + apply (Z.div_unique _ _ _ 0); [lia|]. nia.
    + apply (Z.div_unique _ _ _ (wy - m)); [lia|]. nia.
  - destruct (Dk (- wx) (- wy) ltac:(lia) ltac:(lia)) as [-> _]. cbn [obind]. eexists. split; [reflexivity|].
    pose proof (Z.div_pos (- wx) (- wy) ltac:(lia) ltac:(lia)). pose proof (Z.div_le_upper_bound (- wx) (- wy) (- wx) ltac:(lia) ltac:(nia)).
    split; [apply canon_one; bz|]. simpl. apply Z.div_opp_opp. lia. Qed.
Lemma mod_spec x y : canon x -> canon y -> val y <> 0 -> val y <> MinWord -> Z.of_nat (1 + length y) <= 32767 ->
  exists n z, (forall fuel, arbi__mod (n + fuel) x y = Some z) /\ canon z /\ val z = val x mod val y.
Proof.
  intros Hx Hy N0 Nm Ly. pose proof (divmod_spec x y Hx Hy) as HD. unfold arbi__mod.
  assert (Slow : 2 <= Z.abs (val y) -> exists n z, (forall fuel, (let? (_, r) := divmod (n + fuel) x y in Some r) = Some z) /\ canon z /\ val z = val x mod val y).
  { intros A2. destruct (HD A2 Nm Ly) as (n & q & r & E & Cq & Cr & Vq & Vr). exists n, r. split; [|auto]. intros fuel. rewrite E. reflexivity. }
  clear HD. assert (C0 : canon [0]) by (apply canon_one; bz). destruct y as [|wy [|wy2 y]].
  { destruct Hy as [[? _] _]; congruence. }
  2:{ apply Slow. pose proof (val_trimmed _ (proj1 Hy) (proj2 Hy) ltac:(simpl; lia)) as Ty. pose proof (Bn_pos (length (wy :: wy2 :: y) - 2)).
      set (v := val _) in *. set (P := Bn _) in *. unfold HB in *. lia. }
  simpl (val [wy]) in *. destruct Hy as [Hy _]. apply ok_one in Hy.
  destruct (Z.eqb_spec wy 0) as [|_]; [congruence|].
  destruct (Z.eqb_spec wy 1) as [->|N1]; [exists 0%nat, [0]; split; [auto|]; split; [auto|]; rewrite Z.mod_1_r; auto|].
  destruct (Z.eqb_spec wy (-1)) as [->|Nm1]; cbn [orb].
  { exists 0%nat, [0]. split; [auto|]. split; [auto|]. simpl. apply (Z.mod_unique _ _ (- val x)); lia. }
  specialize (Slow ltac:(lia)). destruct x as [|wx [|]]; try exact Slow.
  destruct Hx as [Hx _]. apply ok_one in Hx. simpl (val [wx]) in *.
  destruct (Z.eqb_spec wx MinWord) as [|Nx]; [exact Slow|]. destruct (Z.eqb_spec wy MinWord) as [|_]; [congruence|]. cbn [negb andb].
  exists 0%nat.
  assert (Dk : forall a b, 0 <= a -> 0 < b -> cmod a b = Some (a mod b)).
  { intros a b Ha Hb. destruct (quot_floor_pos a b Ha Hb) as [_ <-]. rewrite cmod_ok by lia. auto. }
  assert (Z0 : Z.rem wx wy = 0 -> wx mod wy = 0). { intros E. apply Z.mod_divide; [lia|]. apply Z.rem_divide; [lia|auto]. }
  assert (Z1 : Z.rem wx wy <> 0 -> wx mod wy <> 0). { intros E E'. apply E. apply Z.rem_divide; [lia|]. apply Z.mod_divide; [lia|auto]. }
  rewrite (cmod_ok wx wy) by lia. cbn [obind].
  destruct (Z.leb_spec 0 wx), (Z.ltb_spec wx 0), (Z.leb_spec 0 wy), (Z.ltb_spec wy 0); try lia; cbn [andb].
  - rewrite (proj2 (quot_floor_pos wx wy ltac:(lia) ltac:(lia))). pose proof (Z.mod_pos_bound wx wy ltac:(lia)). eexists. split; [reflexivity|]. split; [|reflexivity].
    apply canon_one. bz.
  - destruct (Z.eqb_spec (Z.rem wx wy) 0) as [E|E]; [exists [0]; split; [auto|]; split; [auto|]; simpl; rewrite Z0; auto|].
    rewrite (Dk wx (- wy)) by lia. cbn [obind]. pose proof (Z.mod_pos_bound wx (- wy) ltac:(lia)) as Bm. pose proof (Z.div_mod wx (- wy) ltac:(lia)) as E2. eexists. split; [reflexivity|].
    split; [apply canon_one; bz|]. simpl. specialize (Z1 E).
    assert (wx mod - wy <> 0). { intros E3. apply Z1. apply Z.mod_divide; [lia|]. apply Z.divide_opp_l. apply Z.mod_divide; [lia|auto]. }
    apply (Z.mod_unique _ _ (- (wx / - wy) - 1)); [lia|]. lia.
  - destruct (Z.eqb_spec (Z.rem wx wy) 0) as [E|E]; [exists [0]; split; [auto|]; split; [auto|]; simpl; rewrite Z0; auto|].
    rewrite (Dk (- wx) wy) by lia. cbn [obind]. pose proof (Z.mod_pos_bound (- wx) wy ltac:(lia)) as Bm. pose proof (Z.div_mod (- wx) wy ltac:(lia)) as E2. eexists. split; [reflexivity|].
    split; [apply canon_one; bz|]. simpl. specialize (Z1 E).
    assert (- wx mod wy <> 0). { intros E3. apply Z1. apply Z.mod_divide; [lia|]. apply Z.divide_opp_r. apply Z.mod_divide; [lia|auto]. }
    apply (Z.mod_unique _ _ (- (- wx / wy) - 1)); [lia|]. lia.
  - destruct (Z.eqb_spec (Z.rem wx wy) 0) as [E|E]; [exists [0]; split; [auto|]; split; [auto|]; simpl; rewrite Z0; auto|].
    rewrite (Dk (- wx) (- wy)) by lia. cbn [obind]. pose proof (Z.mod_pos_bound (- wx) (- wy) ltac:(lia)) as Bm. eexists. split; [reflexivity|].
    split; [apply canon_one; bz|]. simpl. rewrite Z.mod_opp_opp by lia. lia. Qed.
