(** Arbitrary precision integers: conversion to and from strings. *)
From Coq Require Import ZArith Bool List Lia.
From Verif Require Import ArbModel ArbBase ArbMul ArbDiv ArbDivThm.
Import ListNotations.
Open Scope Z_scope.

(** The meaning of a numeral, most significant digit first. *)
Definition digit (base c d : Z) : Prop :=
  0 <= d < base /\ (0 <= d <= 9 /\ c = 48 + d \/ 10 <= d <= 35 /\ c = 87 + d).
Inductive numeral (base : Z) : list Z -> Z -> Prop :=
| num_nil : numeral base [] 0
| num_cons c d s v : digit base c d -> numeral base s v -> numeral base (c :: s) (d * base ^ Z.of_nat (length s) + v).

Lemma val_one w : val [w] = w.
Proof. reflexivity. Qed.
Lemma top_one w : top [w] = w.
Proof. reflexivity. Qed.
Lemma i2c_digit base d : 2 <= base <= 36 -> 0 <= d < base -> digit base (i2c d) d.
Proof. intros Hb Hd. split; [auto|]. unfold i2c. destruct (Z.ltb_spec d 10); lia. Qed.
Lemma digit_c2i base c d : digit base c d -> c2i c = Some d.
Proof.
  intros [Hd Hc]. unfold c2i.
  destruct (Z.ltb_spec c 0), (Z.ltb_spec 127 c), (Z.leb_spec 48 c), (Z.leb_spec c 57), (Z.leb_spec 97 c), (Z.leb_spec c 122), (Z.leb_spec 65 c), (Z.leb_spec c 90);
  cbn [orb andb]; try lia; f_equal; lia. Qed.
Lemma numeral_nonneg base s v : 2 <= base -> numeral base s v -> 0 <= v.
Proof.
  intros Hb. induction 1 as [|c d s v [Hd _] _ IH]; [lia|].
  assert (0 < base ^ Z.of_nat (length s)) by (apply Z.pow_pos_nonneg; lia). nia. Qed.

(** FromString *)
Lemma len_of_bound x k : canon x -> 0 <= val x < Bn k -> (length x <= S k)%nat.
Proof.
  intros [Hx Tx] Hv. destruct (le_lt_dec (length x) (S k)) as [|Hl]; [auto|exfalso].
  pose proof (val_trimmed x Hx Tx ltac:(lia)). pose proof (Bn_le k (length x - 2) ltac:(lia)). pose proof (Bn_pos k). unfold HB in *. lia. Qed.
Lemma from_loop_spec base k s v : 2 <= base <= 36 -> Z.of_nat k + 2 <= 32767 -> numeral base s v ->
  forall x, canon x -> 0 <= val x -> val x * base ^ Z.of_nat (length s) + v < Bn k ->
  exists z, from_loop s base x = Some (Some z) /\ canon z /\ val z = val x * base ^ Z.of_nat (length s) + v.
Proof.
  intros Hb Hk. induction 1 as [|c d s v Hd Hn IH]; intros x Hx Hx0 Hlt.
  - exists x. split; [reflexivity|]. split; [auto|]. simpl. change (base ^ 0) with 1. lia.
  - cbn [from_loop]. rewrite (digit_c2i _ _ _ Hd). cbn [obind]. destruct Hd as [Hd _].
    destruct (Z.leb_spec base d); [lia|].
    pose proof (numeral_nonneg base s v ltac:(lia) Hn) as Hv.
    cbn [length] in *. rewrite Nat2Z.inj_succ, Z.pow_succ_r in * by lia.
    set (P := base ^ Z.of_nat (length s)) in *. assert (HP : 0 < P) by (apply Z.pow_pos_nonneg; lia).
    assert (Cb : canon [base]) by (apply canon_one; bz).
    assert (Hge : val x <= val x * (base * P)) by (rewrite <- (Z.mul_1_r (val x)) at 1; apply Z.mul_le_mono_nonneg_l; nia).
    assert (Hdp : 0 <= d * P) by nia.
    assert (Hlx : (length x <= S k)%nat) by (apply len_of_bound; auto; lia).
    destruct (mlt_spec x [base] Hx Cb) as (y & Ey & Cy & Vy); [simpl length; lia|simpl; unfold MinWord, HB; lia|].
    rewrite Ey. cbn [obind]. simpl (val [base]) in Vy.
    destruct (add_spec y [d] (proj1 Cy)) as [Ca Va]; [apply ok_one; bz|]. simpl (val [d]) in Va.
    destruct (IH (arbi__add y [d]) Ca) as (z & Ez & Cz & Vz).
    + rewrite Va, Vy. nia.
    + rewrite Va, Vy. replace ((val x * base + d) * P + v) with (val x * (base * P) + (d * P + v)) by ring. exact Hlt.
    + exists z. split; [auto|]. split; [auto|]. rewrite Vz, Va, Vy. ring. Qed.

(** powers and bits *)
Definition base_check (base : Z) : bool :=
  match lg_loop 64 (base * base * base * base) 4, pow_loop 70 base (base * base * base * base) (wrap (base * base * base * base * base)) 4 with
  | Some l, Some (bb, k) => (4 <=? l) && (2 ^ l <=? base ^ 4) && (bb =? base ^ k) && (4 <=? k) && (2 <=? bb) && (bb <? HB)
  | _, _ => false
  end.
Lemma base_facts base : 2 <= base <= 36 -> exists l bb k,
  lg_loop 64 (base * base * base * base) 4 = Some l /\
  pow_loop 70 base (base * base * base * base) (wrap (base * base * base * base * base)) 4 = Some (bb, k) /\
  4 <= l /\ 2 ^ l <= base ^ 4 /\ bb = base ^ k /\ 4 <= k /\ 2 <= bb < HB.
Proof.
  intros Hb. assert (E : forallb base_check (map Z.of_nat (seq 2 35)) = true) by (vm_compute; reflexivity).
  rewrite forallb_forall in E. specialize (E base). unfold base_check in E.
  assert (Hin : In base (map Z.of_nat (seq 2 35))).
  { apply in_map_iff. exists (Z.to_nat base). split; [lia|]. apply in_seq. lia. }
  specialize (E Hin). destruct (lg_loop _ _ _) as [l|]; [|discriminate]. destruct (pow_loop _ _ _ _ _) as [[bb k]|]; [|discriminate].
  repeat (apply andb_prop in E; destruct E as [E ?]).
  exists l, bb, k. split; [auto|]. split; [auto|]. lia. Qed.
Lemma bit_loop_spec w fuel : 0 <= w < HB -> forall m, 0 <= m <= 63 -> 64 - m <= Z.of_nat fuel ->
  exists m', bit_loop fuel w m = Some m' /\ 0 <= m' /\ w < 2 ^ m'.
Proof.
  intros Hw. induction fuel as [|fuel IH]; intros m Hm Hf; [lia|].
  cbn [bit_loop]. rewrite shr_ok by lia. cbn [obind]. assert (0 < 2 ^ m) by (apply Z.pow_pos_nonneg; lia).
  destruct (Z.eqb_spec (w / 2 ^ m) 0) as [E|N].
  - exists m. split; [auto|]. split; [lia|]. apply Z.div_small_iff in E; lia.
  - destruct (Z.eq_dec m 63) as [->|]; [exfalso; apply N, Z.div_small; exact Hw|]. apply IH; lia. Qed.

(** the digits *)
Lemma numeral_push base s v d : 2 <= base <= 36 -> 0 <= d < base -> numeral base s v ->
  numeral base (i2c d :: s) (d * base ^ Z.of_nat (length s) + v).
Proof. intros. constructor; auto. apply i2c_digit; auto. Qed.
Lemma chunk_spec base X M R : M <= R -> 2 <= base <= 36 -> (forall n : nat, base ^ Z.of_nat n <= X -> Z.of_nat n < M) ->
  forall fuel rz w q s v room, numeral base s v -> 0 <= w < base ^ Z.of_nat fuel -> 0 <= q -> rz = negb (q =? 0) ->
  X = v + base ^ Z.of_nat (length s) * (w + base ^ Z.of_nat fuel * q) -> room = R - Z.of_nat (length s) -> Z.of_nat (length s) <= M ->
  exists room' s' v', chunk fuel base rz w room s = Some (room', s') /\ numeral base s' v' /\
    X = v' + base ^ Z.of_nat (length s') * q /\ room' = R - Z.of_nat (length s') /\ Z.of_nat (length s') <= M.
Proof.
  intros HR Hb HM. induction fuel as [|fuel IH]; intros rz w q s v room Hn Hw Hq Hrz HX Hroom Hle.
  - exists room, s, v. split; [reflexivity|]. split; [auto|]. split; [|auto]. change (base ^ Z.of_nat 0) with 1 in *. rewrite HX. assert (w = 0) by lia. subst w. ring.
  - cbn [chunk]. assert (HP : 0 < base ^ Z.of_nat (length s)) by (apply Z.pow_pos_nonneg; lia).
    rewrite Nat2Z.inj_succ, Z.pow_succ_r in * by lia.
    assert (HF : 0 < base ^ Z.of_nat fuel) by (apply Z.pow_pos_nonneg; lia). set (F := base ^ Z.of_nat fuel) in *. set (P := base ^ Z.of_nat (length s)) in *.
    pose proof (numeral_nonneg base s v ltac:(lia) Hn) as Hv.
    destruct (rz || negb (w =? 0)) eqn:E.
    + assert (Hpos : 0 < w + base * F * q).
      { apply orb_true_iff in E. destruct E as [E|E].
        - rewrite E in Hrz. symmetry in Hrz. apply negb_true_iff, Z.eqb_neq in Hrz. nia.
        - apply negb_true_iff, Z.eqb_neq in E. nia. }
      assert (Hlt : Z.of_nat (length s) < M) by (apply HM; fold P; nia).
      destruct (Z.leb_spec room 0); [lia|].
      pose proof (Z.mod_pos_bound w base ltac:(lia)) as Hd. pose proof (Z.div_mod w base ltac:(lia)) as Dw.
      set (d := w mod base) in *. set (w' := w / base) in *.
      apply (IH rz w' q (i2c d :: s) (d * P + v) (room - 1)); auto.
      * apply numeral_push; auto.
      * split; [apply Z.div_pos; lia|]. apply Z.div_lt_upper_bound; lia.
      * cbn [length]. rewrite Nat2Z.inj_succ, Z.pow_succ_r by lia. fold P. rewrite HX, Dw at 1. ring.
      * cbn [length]. lia.
      * cbn [length]. lia.
    + apply orb_false_iff in E. destruct E as [E1 E2]. rewrite E1 in Hrz. symmetry in Hrz. apply negb_false_iff, Z.eqb_eq in Hrz, E2. subst w q.
      exists room, s, v. split; [auto|]. split; [auto|]. split; [|auto]. rewrite HX. ring. Qed.
Lemma str_loop_spec base X M R bb k : M <= R -> 2 <= base <= 36 -> (forall n : nat, base ^ Z.of_nat n <= X -> Z.of_nat n < M) ->
  4 <= k -> bb = base ^ k -> 2 <= bb < HB ->
  forall r s v room, canon r -> 0 <= val r -> numeral base s v -> X = v + base ^ Z.of_nat (length s) * val r ->
  room = R - Z.of_nat (length s) -> Z.of_nat (length s) <= M ->
  exists n room' s', (forall fuel, str_loop (n + fuel) base bb (Z.to_nat k) r room s = Some (room', s')) /\
    numeral base s' X /\ room' = R - Z.of_nat (length s') /\ Z.of_nat (length s') <= M.
Proof.
  intros HR Hb HM Hk Ebb Hbb r. remember (Z.to_nat (val r)) as N eqn:EN. revert r EN.
  induction N as [N IH] using (well_founded_induction lt_wf). intros r EN s v room Hr Hr0 Hn HX Hroom Hle.
  pose proof (cmp0_spec r Hr) as C0.
  destruct (Z.eq_dec (val r) 0) as [E0|N0].
  - exists 0%nat, room, s. assert (Ec : cmp0 r =? 0 = true) by (rewrite C0, E0; reflexivity).
    split; [intros [|fuel]; cbn [Nat.add str_loop]; rewrite Ec; reflexivity|]. split; [|auto]. rewrite E0 in HX. replace X with v by lia. auto.
  - assert (Ec : cmp0 r =? 0 = false) by (rewrite C0; apply Z.eqb_neq; lia).
    assert (Wb : word bb) by bz. destruct (divmod_spec r [bb] Hr (canon_one bb Wb)) as (n1 & q & a1 & Ed & Cq & Ca & Vq & Va).
    { simpl. lia. } { simpl. unfold MinWord, HB. lia. } { simpl. lia. }
    simpl (val [bb]) in Vq, Va. pose proof (Z.mod_pos_bound (val r) bb ltac:(lia)) as Hm. pose proof (Z.div_mod (val r) bb ltac:(lia)) as Dm.
    rewrite <- Vq, <- Va in Dm. rewrite <- Va in Hm.
    assert (Hq0 : 0 <= val q) by (rewrite Vq; apply Z.div_pos; lia).
    assert (Hqlt : val q < val r) by nia.
    destruct (canon_len1 a1 Ca) as (w & -> & Ew); [bz|]. simpl in Ew, Hm, Dm.
    assert (Ek : Z.of_nat (Z.to_nat k) = k) by lia.
    destruct (chunk_spec base X M R HR Hb HM (Z.to_nat k) (negb (cmp0 q =? 0)) w (val q) s v room Hn) as (room1 & s1 & v1 & Ech & Hn1 & HX1 & Hr1 & Hle1); auto.
    { rewrite Ek, <- Ebb. exact Hm. }
    { rewrite cmp0_spec by auto. f_equal. destruct (Z.eqb_spec (Z.sgn (val q)) 0), (Z.eqb_spec (val q) 0); lia. }
    { rewrite Ek, <- Ebb, HX. f_equal. f_equal. lia. }
    destruct (IH (Z.to_nat (val q)) ltac:(lia) q eq_refl s1 v1 room1 Cq Hq0 Hn1 HX1 Hr1 Hle1) as (n2 & room' & s' & E2 & Hn2 & Hr2).
    exists (S (n1 + n2)), room', s'. split; [|auto]. intros fuel. cbn [Nat.add str_loop]. rewrite Ec.
    replace (n1 + n2 + fuel)%nat with (n1 + (n2 + fuel))%nat by lia. rewrite Ed. cbn [obind nth]. rewrite Ech. cbn [obind].
    replace (n1 + (n2 + fuel))%nat with (n2 + (n1 + fuel))%nat by lia. apply E2. Qed.

(** printf *)
Lemma digits_spec base : 2 <= base <= 36 -> forall fuel n acc v, 0 <= n < base ^ Z.of_nat fuel -> (0 < fuel)%nat ->
  numeral base acc v -> numeral base (digits fuel base n acc) (n * base ^ Z.of_nat (length acc) + v).
Proof.
  intros Hb. induction fuel as [|fuel IH]; intros n acc v Hn Hf Ha; [lia|]. cbn [digits].
  pose proof (Z.mod_pos_bound n base ltac:(lia)) as Hd. pose proof (Z.div_mod n base ltac:(lia)) as Dn.
  pose proof (numeral_push base acc v (n mod base) Hb Hd Ha) as Hp.
  destruct (Z.eqb_spec (n / base) 0) as [E|N].
  - rewrite E in Dn. replace n with (n mod base) at 2 by lia. exact Hp.
  - rewrite Nat2Z.inj_succ, Z.pow_succ_r in Hn by lia.
    assert (H1 : 0 <= n / base < base ^ Z.of_nat fuel) by (split; [apply Z.div_pos; lia|apply Z.div_lt_upper_bound; lia]).
    destruct fuel as [|fuel]; [change (base ^ Z.of_nat 0) with 1 in H1; lia|].
    specialize (IH (n / base) (i2c (n mod base) :: acc) _ H1 ltac:(lia) Hp).
    cbn [length] in IH. rewrite Nat2Z.inj_succ, Z.pow_succ_r in IH by lia.
    replace (n * base ^ Z.of_nat (length acc) + v) with (n / base * (base * base ^ Z.of_nat (length acc)) + (n mod base * base ^ Z.of_nat (length acc) + v)); [exact IH|].
    rewrite Dn at 3. ring. Qed.
Lemma digits_top base n fuel : 2 <= base <= 36 -> 0 <= n < base ^ Z.of_nat fuel -> (0 < fuel)%nat -> numeral base (digits fuel base n []) n.
Proof. intros Hb Hn Hf. pose proof (digits_spec base Hb fuel n [] 0 Hn Hf (num_nil base)) as Hd. cbn [length] in Hd. change (base ^ Z.of_nat 0) with 1 in Hd. replace (n * 1 + 0) with n in Hd by lia. exact Hd. Qed.

(** A signed numeral. *)
Definition snumeral (base : Z) (s : list Z) (v : Z) : Prop :=
  if v <? 0 then exists ds, s = 45 :: ds /\ numeral base ds (- v) else numeral base s v.

(** The buffer is long enough. *)
Lemma room_ok base bits l X : 2 <= base -> 4 <= l -> 2 ^ l <= base ^ 4 -> 0 <= bits -> X < 2 ^ bits ->
  forall n : nat, base ^ Z.of_nat n <= X -> Z.of_nat n < (4 * bits + l - 1) / l.
Proof.
  intros Hb Hl Hp Hbits HX n Hn. set (N := Z.of_nat n) in *. assert (0 <= N) by lia.
  assert (H1 : base ^ (4 * N) < 2 ^ (4 * bits)).
  { rewrite (Z.mul_comm 4 N), (Z.mul_comm 4 bits), !Z.pow_mul_r by lia. apply Z.pow_lt_mono_l; [lia|]. split; [apply Z.pow_nonneg; lia|lia]. }
  assert (H2 : 2 ^ (l * N) <= base ^ (4 * N)).
  { rewrite !Z.pow_mul_r by lia. apply Z.pow_le_mono_l. split; [apply Z.pow_nonneg; lia|exact Hp]. }
  assert (H3 : l * N < 4 * bits) by (apply (Z.pow_lt_mono_r_iff 2); lia).
  assert (N + 1 <= (4 * bits + l - 1) / l); [|lia]. apply Z.div_le_lower_bound; lia. Qed.
Lemma abs_bits x w mb : ok x -> w = Z.abs (top x) -> 0 <= mb -> w < 2 ^ mb -> Z.abs (val x) < 2 ^ (mb + 64 * (Z.of_nat (length x) - 1)).
Proof.
  intros Hx Ew Hmb Hlt. destruct (split1 x Hx) as (l & t & E & El & Et & Wt & low & Hlow & Hv). rewrite Et in Ew.
  replace (64 * (Z.of_nat (length x) - 1)) with (64 * Z.of_nat (length l)) by lia.
  rewrite Z.pow_add_r by lia. rewrite <- Bn_pow2. set (P := Bn (length l)) in *. set (T := 2 ^ mb) in *. rewrite Hv. nia. Qed.

Lemma tostring_spec x base : canon x -> 2 <= base <= 36 -> top x <> MinWord ->
  ~ (base = 16 /\ length x = 1%nat /\ val x < 0) ->
  exists n s, (forall fuel, arbi__ToString (n + fuel) x base = Some (Some s)) /\ snumeral base s (val x).
Proof.
  intros Hx Hb Hmin Hex. unfold arbi__ToString.
  assert (Hlong : exists n s, (forall fuel, (
    if (base <? 2) || (36 <? base) then Some None else
    let b4 := base * base * base * base in
    let? lgb4 := lg_loop 64 b4 4 in
    let w := if neg (top x) then wrap (- top x) else top x in
    let? mb := bit_loop 70 w 0 in
    let m := (4 * (mb + 64 * (Z.of_nat (length x) - 1)) + lgb4 - 1) / lgb4 + 1 in
    let m := if neg (top x) then m + 1 else m in
    let? (bb, k) := pow_loop 70 base b4 (wrap (b4 * base)) 4 in
    let? (room, s) := str_loop (n + fuel) base bb (Z.to_nat k) (arbi__abs x) (m - 1) [] in
    if neg (top x) then (if room <=? 0 then None else Some (Some (45 :: s))) else Some (Some s)) = Some (Some s)) /\ snumeral base s (val x)).
  { destruct (Z.ltb_spec base 2); [lia|]. destruct (Z.ltb_spec 36 base); [lia|]. cbn [orb].
    destruct (base_facts base Hb) as (l & bb & k & El & Ek & Hl & Hp & Ebb & Hk & Hbb). cbv zeta. rewrite El. cbn [obind].
    pose proof (top_word x (proj1 Hx)) as Wt.
    set (w := if neg (top x) then wrap (- top x) else top x).
    assert (Ew : w = Z.abs (top x)). { subst w. unfold neg. destruct (Z.ltb_spec (top x) 0); [|lia]. rewrite wrap_id; bz. }
    destruct (bit_loop_spec w 70 ltac:(bz) 0 ltac:(lia) ltac:(lia)) as (mb & Emb & Hmb & Hwlt). rewrite Emb. cbn [obind]. rewrite Ek. cbn [obind].
    destruct (abs_spec x Hx) as [Ca Va]. pose proof (abs_bits x w mb (proj1 Hx) Ew Hmb Hwlt) as HX.
    pose proof (len_pos x (proj1 Hx)) as Pl.
    set (bits := mb + 64 * (Z.of_nat (length x) - 1)) in *. assert (Hbits : 0 <= bits) by (subst bits; lia).
    set (M0 := (4 * bits + l - 1) / l). pose proof (room_ok base bits l (Z.abs (val x)) ltac:(lia) Hl Hp Hbits HX) as HM. fold M0 in HM.
    unfold neg. rewrite val_sign by apply Hx. unfold snumeral.
    set (R := if val x <? 0 then M0 + 1 else M0). assert (HR : M0 <= R) by (subst R; destruct (_ <? _); lia).
    assert (HM0 : 0 <= M0) by (apply Z.div_pos; lia).
    destruct (str_loop_spec base (Z.abs (val x)) M0 R bb k HR Hb HM Hk Ebb Hbb (arbi__abs x) [] 0 R Ca ltac:(lia) (num_nil base)) as (n & room' & s & Es & Hn & Hroom & Hle).
    { rewrite Va. cbn [length]. change (base ^ Z.of_nat 0) with 1. lia. } { cbn [length]. lia. } { cbn [length]. lia. }
    replace ((if val x <? 0 then M0 + 1 + 1 else M0 + 1) - 1) with R by (subst R; destruct (_ <? _); lia).
    subst R. destruct (Z.ltb_spec (val x) 0) as [Hneg|Hpos].
    - exists n, (45 :: s). split; [intros fuel; rewrite Es; cbn [obind]|exists s; split; [auto|]; replace (- val x) with (Z.abs (val x)) by lia; auto].
      destruct (Z.leb_spec room' 0) as [Hr|]; [lia|auto].
    - exists n, s. split; [intros fuel; rewrite Es; reflexivity|]. replace (val x) with (Z.abs (val x)) by lia. auto. }
  destruct ((length x =? 1)%nat) eqn:El; cbn [andb]; [|exact Hlong].
  apply Nat.eqb_eq in El. destruct x as [|w [|]]; try discriminate El. clear El. rewrite val_one in *. cbn [nth length] in *.
  pose proof (top_word _ (proj1 Hx)) as Ww. rewrite top_one in *. unfold snumeral in *.
  destruct (Z.eqb_spec base 10) as [->|].
  { exists 0%nat, (fmt_ld w). split; [reflexivity|]. unfold fmt_ld. destruct (Z.ltb_spec w 0).
    - eexists. split; [reflexivity|]. apply digits_top; [lia| |lia]. bz.
    - apply digits_top; [lia| |lia]. bz. }
  destruct (Z.eqb_spec base 16) as [->|].
  { exists 0%nat, (fmt_lx w). split; [reflexivity|]. unfold fmt_lx. destruct (Z.ltb_spec w 0); [exfalso; apply Hex; auto|].
    replace (uw w) with w by (rewrite uw_word by auto; destruct (Z.ltb_spec w 0); lia). apply digits_top; [lia| |lia]. bz. }
  destruct (Z.eqb_spec w 0) as [->|]; [|exact Hlong].
  exists 0%nat, [48]. split; [reflexivity|].
  change (numeral base [48] (0 * base ^ Z.of_nat (@length Z []) + 0)).
  constructor; [|constructor]. split; lia. Qed.
Lemma tostring_dec_single w : word w -> forall fuel, arbi__ToString fuel [w] 10 = Some (Some (fmt_ld w)) /\ snumeral 10 (fmt_ld w) w.
Proof.
  intros Ww fuel. split; [reflexivity|]. unfold snumeral, fmt_ld. destruct (Z.ltb_spec w 0).
  - eexists. split; [reflexivity|]. apply digits_top; [lia| |lia]. bz.
  - apply digits_top; [lia| |lia]. bz. Qed.

Lemma abs_lt_Bn x : ok x -> Z.abs (val x) < Bn (length x).
Proof.
  intros Hx. pose proof (val_range x Hx). pose proof (len_pos x Hx). pose proof (Bn_pos (length x - 1)).
  replace (length x) with (S (length x - 1)) at 1 by lia. rewrite Bn_S. unfold B, HB in *. lia. Qed.
Lemma not_minus {A} c (f g : A) : c <> 45 -> match c with 45 => f | _ => g end = g.
Proof. intros Hc. destruct c as [|p|p]; auto. do 6 (destruct p; auto). congruence. Qed.
Lemma fromstring_spec base s v k : 2 <= base <= 36 -> snumeral base s v -> Z.abs v < Bn k -> Z.of_nat k + 2 <= 32767 ->
  exists z, Arbi_FromString s base = Some (Some z) /\ canon z /\ val z = v.
Proof.
  intros Hb Hs Hv Hk. assert (C0 : canon [0]) by (apply canon_one; bz).
  assert (Hplain : forall ds u, numeral base ds u -> u < Bn k -> exists z, arbi__FromString ds base = Some (Some z) /\ canon z /\ val z = u).
  { intros ds u Hn Hu. destruct (from_loop_spec base k ds u Hb Hk Hn [0] C0) as (z & Ez & Cz & Vz); [rewrite val_one; lia|rewrite val_one; lia|].
    exists z. unfold arbi__FromString. destruct (Z.ltb_spec base 2), (Z.ltb_spec 36 base); try lia. cbn [orb].
    split; [auto|]. split; [auto|]. rewrite Vz, val_one. lia. }
  unfold snumeral in Hs. destruct (Z.ltb_spec v 0) as [Hneg|Hpos].
  - destruct Hs as (ds & -> & Hn). destruct (Hplain ds (- v) Hn ltac:(lia)) as (z & Ez & Cz & Vz).
    destruct (neg_spec z (proj1 Cz)) as [Cn Vn]. exists (arbi__neg z). cbn [Arbi_FromString]. rewrite Ez. cbn [obind]. split; [auto|]. split; [auto|]. lia.
  - destruct (Hplain s v Hs ltac:(lia)) as (z & Ez & Cz & Vz). exists z. split; [|auto]. rewrite <- Ez. unfold Arbi_FromString.
    destruct Hs as [|c d s u [_ Hd] _]; [reflexivity|]. apply not_minus. lia. Qed.
(** printing then reading gives the integer back *)
Lemma string_roundtrip x base : canon x -> 2 <= base <= 36 -> Z.of_nat (length x) + 2 <= 32767 ->
  (top x <> MinWord \/ (length x = 1%nat /\ base = 10)) -> ~ (base = 16 /\ length x = 1%nat /\ val x < 0) ->
  exists n s, (forall fuel, arbi__ToString (n + fuel) x base = Some (Some s)) /\ snumeral base s (val x) /\ Arbi_FromString s base = Some (Some x).
Proof.
  intros Hx Hb Hl Hm Hex.
  assert (He : exists n s, (forall fuel, arbi__ToString (n + fuel) x base = Some (Some s)) /\ snumeral base s (val x)).
  { destruct (Z.eq_dec (top x) MinWord) as [Em|]; [|apply tostring_spec; auto]. destruct Hm as [|[L1 ->]]; [contradiction|].
    pose proof (top_word _ (proj1 Hx)) as Ww. destruct x as [|w [|]]; try discriminate L1. rewrite top_one in *. rewrite val_one.
    exists 0%nat, (fmt_ld w). split; [intros fuel; apply (tostring_dec_single w Ww)|]. apply (tostring_dec_single w Ww 0). }
  destruct He as (n & s & Es & Hs). exists n, s. split; [auto|]. split; [auto|].
  destruct (fromstring_spec base s (val x) (length x) Hb Hs (abs_lt_Bn x (proj1 Hx)) Hl) as (z & Ez & Cz & Vz).
  rewrite Ez. do 2 f_equal. apply canon_inj; auto. Qed.

(** Counterexamples. *)
Fixpoint trimmedb (x : arbi) : bool :=
  match x with
  | [] => false
  | [_] => true
  | [w; t] => negb (t =? (if w <? 0 then -1 else 0))
  | _ :: r => trimmedb r
  end.
Definition canonb (x : arbi) : bool :=
  negb (length x =? 0)%nat && forallb (fun w => (- HB <=? w) && (w <? HB)) x && trimmedb x.
Lemma trimmedb_ok x : trimmedb x = true -> trimmed x.
Proof.
  induction x as [|w [|a [|b r]] IH]; intros Ht; [discriminate|exact I| |exact (IH Ht)].
  cbn in *. intros ->. rewrite Z.eqb_refl in Ht. discriminate. Qed.
Lemma canonb_ok x : canonb x = true -> canon x.
Proof.
  unfold canonb. intros Hc. apply andb_prop in Hc. destruct Hc as [Hc H3]. apply andb_prop in Hc. destruct Hc as [H1 H2].
  split; [split|].
  - intros ->. discriminate.
  - apply Forall_forall. intros w Hw. rewrite forallb_forall in H2. specialize (H2 w Hw). apply andb_prop in H2. unfold word. lia.
  - apply trimmedb_ok, H3. Qed.
Lemma mlt_traps : exists x y, canon x /\ canon y /\ val x = -1 /\ val y = - 2 ^ 63 /\ arbi__mlt x y = None.
Proof. exists [-1], [MinWord]. split; [apply canonb_ok; vm_compute; reflexivity|]. split; [apply canonb_ok; vm_compute; reflexivity|]. repeat split; vm_compute; reflexivity. Qed.
Lemma div_traps : exists x y, canon x /\ canon y /\ val x = 2 ^ 63 /\ val y = - 2 ^ 63 /\
  forall fuel, arbi__div fuel x y = None /\ arbi__mod fuel x y = None.
Proof.
  exists [MinWord; 0], [MinWord]. split; [apply canonb_ok; vm_compute; reflexivity|]. split; [apply canonb_ok; vm_compute; reflexivity|].
  split; [vm_compute; reflexivity|]. split; [vm_compute; reflexivity|]. intros fuel.
  assert (E : divmod fuel [MinWord; 0] [MinWord] = None).
  { unfold divmod. change (length [MinWord; 0%Z] <? length [MinWord])%nat with false. cbv iota.
    assert (El : lead_y [MinWord] = Some (-1, -4611686018427387904)) by (vm_compute; reflexivity). rewrite El. cbn [obind].
    change (length [MinWord; 0%Z] - length [MinWord])%nat with 1%nat. cbn [firstn skipn rev app].
    destruct fuel as [|fuel]; [reflexivity|]. cbn [div_loop].
    assert (E1 : cmpa [MinWord] [0] = Gt) by (vm_compute; reflexivity). rewrite E1.
    destruct fuel as [|fuel]; [reflexivity|]. cbn [div_loop].
    assert (E2 : trim [MinWord; 0] = [MinWord; 0]) by (vm_compute; reflexivity). rewrite E2.
    assert (E3 : cmpa [MinWord] [MinWord; 0] = Eq) by (vm_compute; reflexivity). rewrite E3.
    match goal with |- context [guess ?a ?b ?c ?d ?e] => assert (E4 : guess a b c d e = Some (-1)) by (vm_compute; reflexivity) end. rewrite E4. cbn [obind].
    assert (E5 : arbi__mlt [-1] [MinWord] = None) by (vm_compute; reflexivity). rewrite E5. reflexivity. }
  unfold arbi__div, arbi__mod. rewrite E.
  change (MinWord =? 0) with false. change (MinWord =? 1) with false. change (MinWord =? -1) with false. split; reflexivity. Qed.
(** no string: the loop counting the bits of the top word shifts by 64 or more *)
Lemma tostring_overflow : exists x, canon x /\ val x = - 2 ^ 127 /\ forall fuel, arbi__ToString fuel x 10 = None.
Proof.
  exists [0; MinWord]. split; [apply canonb_ok; vm_compute; reflexivity|]. split; [vm_compute; reflexivity|]. intros fuel.
  unfold arbi__ToString. change (length [0%Z; MinWord] =? 1)%nat with false. cbn [andb]. change ((10 <? 2) || (36 <? 10)) with false. cbv iota zeta.
  assert (E1 : lg_loop 64 (10 * 10 * 10 * 10) 4 = Some 13) by (vm_compute; reflexivity). rewrite E1. cbn [obind].
  match goal with |- context [bit_loop ?a ?b ?c] => assert (E2 : bit_loop a b c = None) by (vm_compute; reflexivity) end. rewrite E2. reflexivity. Qed.
(** base 16 prints a negative word as its two's complement *)
Lemma tostring_hex : exists x s y, canon x /\ val x = -1 /\ (forall fuel, arbi__ToString fuel x 16 = Some (Some s)) /\
  Arbi_FromString s 16 = Some (Some y) /\ val y = 2 ^ 64 - 1.
Proof.
  exists [-1], (fmt_lx (-1)), [-1; 0]. split; [apply canonb_ok; vm_compute; reflexivity|]. split; [vm_compute; reflexivity|].
  split; [intros; reflexivity|]. split; vm_compute; reflexivity. Qed.
Lemma fromstring_pow base s v k : 2 <= base <= 36 -> snumeral base s v -> Z.abs v < 2 ^ (64 * Z.of_nat k) -> Z.of_nat k + 2 <= 32767 ->
  exists z, Arbi_FromString s base = Some (Some z) /\ canon z /\ val z = v.
Proof. intros Hb Hs Hv. apply fromstring_spec; auto. rewrite Bn_pow2. exact Hv. Qed.
