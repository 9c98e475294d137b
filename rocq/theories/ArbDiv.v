(** Arbitrary precision integers: division and remainder. *)
From Coq Require Import ZArith Bool List Lia.
From Verif Require Import ArbModel ArbBase ArbMul.
Import ListNotations.
Open Scope Z_scope.

Lemma val_app l h : h <> [] -> val (l ++ h) = uval l + Bn (length l) * val h.
Proof.
  intros Hh. induction l as [|w l IH]; simpl app; [simpl; rewrite Bn_0; lia|].
  rewrite val_cons by (destruct l; simpl; congruence). rewrite IH. cbn [uval length]. rewrite Bn_S. ring. Qed.

(** The top one and two words. *)
Lemma split1 x : ok x -> exists l t, x = l ++ [t] /\ length x = S (length l) /\ top x = t /\ word t /\
  exists low, 0 <= low < Bn (length l) /\ val x = t * Bn (length l) + low.
Proof.
  intros Hx. destruct (exists_last (proj1 Hx)) as (l & t & E). subst x.
  exists l, t. split; [reflexivity|]. split; [rewrite app_length; simpl; lia|]. split; [apply top_snoc|].
  split; [destruct Hx as [_ Hf]; apply Forall_app in Hf; destruct Hf as [_ Hf]; inversion Hf; auto|].
  exists (uval l). split; [apply uval_range|]. rewrite val_app by congruence. simpl. lia. Qed.
Lemma split2 x : ok x -> trimmed x -> (2 <= length x)%nat -> exists (l : list Z) s t,
  length x = S (S (length l)) /\ top x = t /\ second x = Some s /\ word s /\ word t /\ t <> ext_of s /\
  exists low, 0 <= low < Bn (length l) /\ val x = (t * B + uw s) * Bn (length l) + low.
Proof.
  intros Hx Tx Hl. destruct (exists_last (proj1 Hx)) as (l & t & E). subst x.
  assert (Hn : l <> []) by (intros ->; simpl in Hl; lia).
  pose proof Tx as Tx'. apply trimmed_snoc in Tx; [|auto].
  destruct (exists_last Hn) as (l' & s & E). subst l. rewrite top_snoc in Tx.
  destruct Hx as [_ Hf]. apply Forall_app in Hf. destruct Hf as [Hf Ht]. apply Forall_app in Hf. destruct Hf as [_ Hs].
  exists l', s, t. split; [rewrite !app_length; simpl; lia|]. split; [apply top_snoc|].
  split; [unfold second; rewrite !rev_app_distr; reflexivity|].
  split; [inversion Hs; auto|]. split; [inversion Ht; auto|]. split; [auto|].
  exists (uval l'). split; [apply uval_range|]. rewrite <- app_assoc, val_app by (simpl; congruence). simpl. lia. Qed.

Lemma shl_ok w s : 0 <= s < 64 -> shl w s = Some (wrap (w * 2 ^ s)).
Proof. intros. unfold shl. destruct (Z.leb_spec 0 s), (Z.ltb_spec s 64); auto; lia. Qed.
Lemma shr_ok w s : 0 <= s < 64 -> shr w s = Some (w / 2 ^ s).
Proof. intros. unfold shr. destruct (Z.leb_spec 0 s), (Z.ltb_spec s 64); auto; lia. Qed.
Lemma ushr_ok w s : 0 <= s < 64 -> ushr w s = Some (uw w / 2 ^ s).
Proof. intros. unfold ushr. destruct (Z.leb_spec 0 s), (Z.ltb_spec s 64); auto; lia. Qed.

(** The normalising loop. *)
Definition normed (w t : Z) : Prop := HB <= w * 2 ^ t < B \/ - B <= w * 2 ^ t < - HB.
Lemma norm_loop_spec w k fuel : word w -> w <> 0 -> w <> -1 -> forall s, 1 <= s + k <= 63 ->
  word (w * 2 ^ (s + k - 1)) -> 64 - (s + k) <= Z.of_nat fuel ->
  exists s', norm_loop fuel w s k = Some s' /\ s <= s' /\ s' + k <= 63 /\ normed w (s' + k).
Proof.
  intros Hw N0 N1. induction fuel as [|fuel IH]; intros s Hs Hr Hf; [lia|].
  cbn [norm_loop]. rewrite shl_ok by lia. cbn [obind].
  assert (E : w * 2 ^ (s + k) = 2 * (w * 2 ^ (s + k - 1))).
  { replace (s + k) with (Z.succ (s + k - 1)) at 1 by lia. rewrite Z.pow_succ_r by lia. ring. }
  set (v := w * 2 ^ (s + k - 1)) in *.
  assert (Hp : 0 < 2 ^ (s + k - 1)) by (apply Z.pow_pos_nonneg; lia).
  assert (Sv : (w < 0 /\ v < 0) \/ (0 < w /\ 0 < v)) by (subst v; nia).
  destruct (wrap_eq (w * 2 ^ (s + k))) as [q Hq]. pose proof (wrap_word (w * 2 ^ (s + k))) as Ww. set (t := wrap _) in *.
  rewrite E in Hq. unfold neg. destruct (eqb (w <? 0) (t <? 0)) eqn:Eb.
  - assert (word (2 * v)).
    { apply eqb_prop in Eb. destruct (Z.ltb_spec w 0), (Z.ltb_spec t 0); try discriminate; bz. }
    destruct (Z.eq_dec (s + k) 63) as [E63|N63].
    + exfalso. rewrite <- E, E63 in H. change (2 ^ 63) with HB in H. bz.
    + destruct (IH (s + 1)) as (s' & Es & G1 & G2 & G3); [lia| |lia|].
      * replace (s + 1 + k - 1) with (s + k) by lia. rewrite E. auto.
      * exists s'. split; [auto|]. split; [lia|]. auto.
  - exists s. split; [reflexivity|]. split; [lia|]. split; [lia|]. unfold normed. rewrite E.
    apply eqb_false_iff in Eb. destruct (Z.ltb_spec w 0), (Z.ltb_spec t 0); try congruence; bz. Qed.

(** [z] is the floor of x*2^s/B^(n-1). *)
Definition lead (x : arbi) (s z : Z) : Prop :=
  let P := Bn (length x - 1) in -2 <= s <= 62 /\ 8 * z * P <= val x * 2 ^ (s + 3) < 8 * (z + 1) * P.

Lemma lead_range x s z k T : lead x s z -> (k = 2 \/ k = 3) -> T = 2 ^ (s + k) -> 1 <= s + k <= 63 -> ok x ->
  normed (top x) (s + k) ->
  2 ^ (63 - k) <= z < 2 ^ (64 - k) \/ - 2 ^ (64 - k) <= z <= - 2 ^ (63 - k) - 1.
Proof.
  intros (Hs & Hlo & Hhi) Hk ET Ht Hx Hn. unfold normed in Hn. rewrite <- ET in Hn.
  destruct (split1 x Hx) as (l & t & E & El & Et & Wt & low & Hlow & Hv). rewrite Et in Hn.
  replace (length x - 1)%nat with (length l) in * by lia. set (P := Bn (length l)) in *.
  assert (PT : 0 < T) by (rewrite ET; apply Z.pow_pos_nonneg; lia).
  set (T' := 2 ^ (63 - (s + k))). assert (PT' : 0 < T') by (apply Z.pow_pos_nonneg; lia).
  assert (ETT : T * T' = HB). { rewrite ET. subst T'. rewrite <- Z.pow_add_r by lia. replace (s + k + (63 - (s + k))) with 63 by lia. reflexivity. }
  assert (EK : exists K, K = 2 ^ k /\ 2 ^ (63 - k) * K = HB /\ 2 ^ (64 - k) * K = B /\ 0 < K /\ 2 ^ (s + 3) * K = 8 * T).
  { exists (2 ^ k). rewrite ET. replace 8 with (2 ^ 3) by reflexivity. split; [auto|]. 
    rewrite <- !Z.pow_add_r by lia. replace (63 - k + k) with 63 by lia. replace (64 - k + k) with 64 by lia.
    replace (s + 3 + k) with (3 + (s + k)) by lia. repeat split. apply Z.pow_pos_nonneg; lia. }
  destruct EK as (K & _ & E1 & E2 & PK & E3). set (a := 2 ^ (63 - k)) in *. set (b := 2 ^ (64 - k)) in *. set (S3 := 2 ^ (s + 3)) in *.
  assert (F1 : z * K * P <= val x * T) by nia. assert (F2 : val x * T < (z + 1) * K * P) by nia.
  rewrite Hv in F1, F2. assert (0 < P) by apply Bn_pos.
  destruct Hn as [[Hn1 Hn2]|[Hn1 Hn2]]; [left|right].
  - assert (t + 1 <= 2 * T') by (unfold B, HB in *; nia).
    assert (HB * P <= (t * P + low) * T) by nia. assert ((t * P + low) * T < B * P) by (rewrite B_HB, <- ETT; nia).
    assert (HB < (z + 1) * K) by nia. assert (z * K < B) by nia. nia.
  - assert (- B * P <= (t * P + low) * T) by nia.
    assert (t + 1 <= - T') by nia.
    assert ((t * P + low) * T < - HB * P) by (rewrite <- ETT; nia).
    assert (z * K < - HB) by nia. assert (- B < (z + 1) * K) by nia. nia. Qed.

Lemma lead_gen_spec x k : canon x -> (k = 2 \/ k = 3) -> top x <> 0 -> top x <> -1 ->
  exists s z, lead_gen x k = Some (s, z) /\ lead x s z /\ word z /\
  (2 ^ (63 - k) <= z < 2 ^ (64 - k) \/ - 2 ^ (64 - k) <= z <= - 2 ^ (63 - k) - 1).
Proof.
  intros [Hx Tx] Hk N0 N1. unfold lead_gen. pose proof (top_word x Hx) as Hw.
  destruct (norm_loop_spec (top x) k 70 Hw N0 N1 (1 - k)) as (s & Es & Hs1 & Hs2 & Hn).
  { lia. } { replace (1 - k + k - 1) with 0 by lia. rewrite Z.mul_1_r. auto. } { lia. }
  rewrite Es. cbn [obind].
  assert (Rng : forall z, lead x s z -> 2 ^ (63 - k) <= z < 2 ^ (64 - k) \/ - 2 ^ (64 - k) <= z <= - 2 ^ (63 - k) - 1).
  { intros z Hz. apply (lead_range x s z k (2 ^ (s + k))); auto; lia. }
  assert (RngW : forall z, 2 ^ (63 - k) <= z < 2 ^ (64 - k) \/ - 2 ^ (64 - k) <= z <= - 2 ^ (63 - k) - 1 -> word z).
  { intros z. destruct Hk as [-> | ->]; cbn -[Z.lt Z.le]; intros; bz. }
  assert (Fin : forall z, lead x s z -> lead x s z /\ word z /\ (2 ^ (63 - k) <= z < 2 ^ (64 - k) \/ - 2 ^ (64 - k) <= z <= - 2 ^ (63 - k) - 1)) by (intros z Hz; specialize (Rng z Hz); auto).
  clear Rng RngW.
  assert (Wyy : word (top x * 2 ^ s) \/ s < 0).
  { destruct (Z.ltb_spec s 0); [right; auto|left]. unfold normed in Hn.
    rewrite Z.pow_add_r in Hn by lia. assert (0 < 2 ^ s) by (apply Z.pow_pos_nonneg; lia).
    destruct Hk as [-> | ->]; [change (2 ^ 2) with 4 in Hn | change (2 ^ 3) with 8 in Hn]; set (u := top x * 2 ^ s) in *;
    [replace (top x * (2 ^ s * 4)) with (4 * u) in Hn by (subst u; ring) | replace (top x * (2 ^ s * 8)) with (8 * u) in Hn by (subst u; ring)]; bz. }
  destruct (Z.ltb_spec s 0) as [Hneg|Hpos].
  - rewrite shr_ok by lia. cbn [obind]. eexists _, _. split; [reflexivity|]. apply Fin.
    destruct (split1 x Hx) as (l & t & E & El & Et & Wt & low & Hlow & Hv). rewrite Et.
    unfold lead. split; [lia|]. replace (length x - 1)%nat with (length l) by lia. rewrite Hv. set (P := Bn (length l)) in *.
    assert (s = -1 \/ s = -2) as [-> | ->] by lia.
    + change (- -1) with 1. change (2 ^ (-1 + 3)) with 4. change (2 ^ 1) with 2. pose proof (Z.div_mod t 2). pose proof (Z.mod_pos_bound t 2).
      set (q := t / 2) in *. set (m := t mod 2) in *. assert (t = 2 * q + m) by lia. assert (0 <= m < 2) by lia. clearbody q m. clear - H1 H2 Hlow. subst t. nia.
    + change (- -2) with 2. change (2 ^ (-2 + 3)) with 2. change (2 ^ 2) with 4. pose proof (Z.div_mod t 4). pose proof (Z.mod_pos_bound t 4).
      set (q := t / 4) in *. set (m := t mod 4) in *. assert (t = 4 * q + m) by lia. assert (0 <= m < 4) by lia. clearbody q m. clear - H1 H2 Hlow. subst t. nia.
  - destruct Wyy as [Wyy|]; [|lia]. assert (E3 : 2 ^ (s + 3) = 8 * 2 ^ s) by (rewrite Z.pow_add_r by lia; change (2 ^ 3) with 8; ring).
    assert (P2 : 0 < 2 ^ s) by (apply Z.pow_pos_nonneg; lia).
    destruct (Nat.eqb_spec (length x) 1) as [E1|N2]; cbn [orb].
    { rewrite shl_ok by lia. rewrite wrap_id by auto. cbn [obind]. eexists _, _. split; [reflexivity|]. apply Fin.
      unfold lead. split; [lia|]. rewrite E1, E3. destruct x as [|w [|]]; try discriminate. unfold top. simpl. rewrite Bn_0. lia. }
    pose proof (len_pos x Hx). destruct (split2 x Hx Tx ltac:(lia)) as (l & v & t & El & Et & Es2 & Wv & Wt & _ & low & Hlow & Hv).
    pose proof (uw_range v) as Hu. pose proof (Bn_pos (length l)) as HP.
    assert (EP : Bn (length x - 1) = B * Bn (length l)) by (rewrite <- Bn_S; f_equal; lia).
    destruct (Z.eqb_spec s 0) as [->|Ns]; cbn [orb].
    { rewrite shl_ok by lia. rewrite wrap_id by auto. cbn [obind]. eexists _, _. split; [reflexivity|]. apply Fin.
      unfold lead. split; [lia|]. rewrite EP, E3, Hv, Et. change (2 ^ 0) with 1. set (P := Bn (length l)) in *. unfold B in *. nia. }
    rewrite shl_ok by lia. rewrite wrap_id by auto. cbn [obind]. rewrite Es2. cbn [obind]. rewrite ushr_ok by lia. cbn [obind].
    rewrite Et in *. set (M := 2 ^ (64 - s)). assert (PM : 0 < M) by (apply Z.pow_pos_nonneg; lia).
    assert (EM : M * 2 ^ s = B) by (subst M; rewrite <- Z.pow_add_r by lia; replace (64 - s + s) with 64 by lia; reflexivity).
    pose proof (Z.div_mod (uw v) M ltac:(lia)) as Dv. pose proof (Z.mod_pos_bound (uw v) M PM) as Rv.
    set (d := uw v / M) in *. set (m := uw v mod M) in *. set (S := 2 ^ s) in *.
    assert (Hd : 0 <= d < S) by nia.
    assert (El2 : Z.lor (t * S) d = t * S + d).
    { rewrite <- Z.lxor_lor. symmetry. apply Z.add_nocarry_lxor. all: rewrite Z.land_comm; apply Z.bits_inj'; intros n Hn0;
      rewrite Z.land_spec, Z.bits_0; destruct (Z.ltb_spec n s).
      1,3: replace (t * S) with (Z.shiftl t s) by (rewrite Z.shiftl_mul_pow2 by lia; reflexivity); rewrite (Z.shiftl_spec_low t) by lia; apply andb_false_r.
      all: replace d with (d mod S) by (apply Z.mod_small; lia); subst S; rewrite Z.mod_pow2_bits_high by lia; reflexivity. }
    rewrite El2.
    assert (LD : lead x s (t * S + d)).
    { unfold lead. split; [lia|]. rewrite EP, E3, Hv. fold S. set (P := Bn (length l)) in *.
      rewrite Dv. assert (EB : B = M * S) by lia. rewrite EB. clear - Hlow Rv Hd HP PM P2. split; [nia|].
      assert ((M * d + m) * P + low < (M * d + M) * P) by nia. nia. }
    rewrite wrap_id by (apply Fin; auto). eexists _, _. split; [reflexivity|]. apply Fin. auto.
Qed.

Lemma lor_min a : 0 <= a < HB -> Z.lor a MinWord = a - HB.
Proof.
  intros Ha. rewrite <- Z.lxor_lor. 
  - replace (a - HB) with (a + MinWord) by (unfold MinWord; lia). symmetry. apply Z.add_nocarry_lxor.
    apply Z.bits_inj'; intros n Hn. rewrite Z.land_spec, Z.bits_0. destruct (Z.ltb_spec n 63).
    + change MinWord with (Z.shiftl (-1) 63). rewrite Z.shiftl_spec_low by lia. apply andb_false_r.
    + replace a with (a mod 2 ^ 63) by (apply Z.mod_small; exact Ha). rewrite Z.mod_pow2_bits_high by lia. reflexivity.
  - apply Z.bits_inj'; intros n Hn. rewrite Z.land_spec, Z.bits_0. destruct (Z.ltb_spec n 63).
    + change MinWord with (Z.shiftl (-1) 63). rewrite Z.shiftl_spec_low by lia. apply andb_false_r.
    + replace a with (a mod 2 ^ 63) by (apply Z.mod_small; exact Ha). rewrite Z.mod_pow2_bits_high by lia. reflexivity. Qed.

Definition zr_range (z : Z) : Prop := 2 ^ 60 <= z < 2 ^ 61 \/ - 2 ^ 61 <= z <= - 2 ^ 60 - 1.
Definition zy_range (z : Z) : Prop := 2 ^ 61 <= z < 2 ^ 62 \/ - 2 ^ 62 <= z <= - 2 ^ 60 - 1.
Lemma big_two x : canon x -> 2 <= Z.abs (val x) -> top x = 0 \/ top x = -1 -> (2 <= length x)%nat.
Proof. intros [Hx _] Ha Ht. destruct x as [|w [|]]; simpl; [destruct Hx; congruence| |lia]. unfold top in Ht; simpl in *. lia. Qed.
Lemma lead_zero x k : canon x -> 2 <= Z.abs (val x) -> top x = 0 -> (k = 2 \/ k = 3) ->
  exists v, second x = Some v /\ lead x (64 - k) (uw v / 2 ^ k) /\ 2 ^ (63 - k) <= uw v / 2 ^ k < 2 ^ (64 - k).
Proof.
  intros Hc Ha Et Hk. pose proof (big_two x Hc Ha (or_introl Et)) as Hl. destruct Hc as [Hx Tx].
  destruct (split2 x Hx Tx Hl) as (l & v & t & El & Et' & Es2 & Wv & Wt & Nt & low & Hlow & Hv). rewrite Et in Et'. subst t.
  exists v. split; [auto|]. pose proof (Bn_pos (length l)) as HP.
  assert (EP : Bn (length x - 1) = B * Bn (length l)) by (rewrite <- Bn_S; f_equal; lia).
  assert (Uv : HB <= uw v < B). { rewrite uw_word by auto. unfold ext_of in Nt. destruct (Z.ltb_spec v 0); bz. }
  unfold lead. rewrite EP, Hv. set (P := Bn (length l)) in *. set (u := uw v) in *. clearbody u.
  destruct Hk as [-> | ->].
  - change (2 ^ 2) with 4. change (2 ^ (64 - 2 + 3)) with (2 * B). change (2 ^ (63 - 2)) with 2305843009213693952. change (2 ^ (64 - 2)) with 4611686018427387904.
    pose proof (Z.div_mod u 4). pose proof (Z.mod_pos_bound u 4). set (q := u / 4) in *. set (m := u mod 4) in *.
    assert (u = 4 * q + m) by lia. assert (0 <= m < 4) by lia. split; [|bz]. split; [lia|]. clearbody q m. clear - H1 H2 Hlow HP. subst u. unfold B. nia.
  - change (2 ^ 3) with 8. change (2 ^ (64 - 3 + 3)) with B. change (2 ^ (63 - 3)) with 1152921504606846976. change (2 ^ (64 - 3)) with 2305843009213693952.
    pose proof (Z.div_mod u 8). pose proof (Z.mod_pos_bound u 8). set (q := u / 8) in *. set (m := u mod 8) in *.
    assert (u = 8 * q + m) by lia. assert (0 <= m < 8) by lia. split; [|bz]. split; [lia|]. clearbody q m. clear - H1 H2 Hlow HP. subst u. unfold B. nia.
Qed.
Lemma lead_minus1_spec x : canon x -> 2 <= Z.abs (val x) -> top x = -1 ->
  exists z, lead_minus1 x = Some z /\ lead x 61 z /\ - 2 ^ 61 <= z <= - 2 ^ 60 - 1.
Proof.
  intros Hc Ha Et. pose proof (big_two x Hc Ha (or_intror Et)) as Hl. destruct Hc as [Hx Tx].
  destruct (split2 x Hx Tx Hl) as (l & v & t & El & Et' & Es2 & Wv & Wt & Nt & low & Hlow & Hv). rewrite Et in Et'. subst t.
  unfold lead_minus1. rewrite Es2. cbn [obind]. rewrite shr_ok by lia. cbn [obind]. change (2 ^ 1) with 2.
  assert (Hv0 : 0 <= v) by (unfold ext_of in Nt; destruct (Z.ltb_spec v 0); [congruence|lia]).
  assert (Uv : uw v = v) by (rewrite uw_word by auto; destruct (Z.ltb_spec v 0); lia).
  pose proof (Z.div_mod v 2 ltac:(lia)). pose proof (Z.mod_pos_bound v 2 ltac:(lia)). rewrite lor_min by bz. rewrite shr_ok by lia. eexists. split; [reflexivity|]. change (2 ^ 2) with 4.
  pose proof (Bn_pos (length l)) as HP.
  assert (EP : Bn (length x - 1) = B * Bn (length l)) by (rewrite <- Bn_S; f_equal; lia).
  unfold lead. rewrite EP, Hv, Uv. set (P := Bn (length l)) in *. change (2 ^ (61 + 3)) with B. change (2 ^ 61) with 2305843009213693952. change (2 ^ 60) with 1152921504606846976.
  assert (Ez : exists q m, (v / 2 - HB) / 4 = q /\ v - B = 8 * q + m /\ 0 <= m < 8).
  { exists ((v / 2 - HB) / 4), (v - B - 8 * ((v / 2 - HB) / 4)). pose proof (Z.div_mod v 2 ltac:(lia)). pose proof (Z.mod_pos_bound v 2 ltac:(lia)).
    pose proof (Z.div_mod (v / 2 - HB) 4 ltac:(lia)). pose proof (Z.mod_pos_bound (v / 2 - HB) 4 ltac:(lia)). unfold B, HB in *. lia. }
  destruct Ez as (q & m & -> & E & Hm). split; [|bz]. split; [lia|]. replace v with (B + 8 * q + m) by lia. unfold B. nia. Qed.
Lemma lead_y_spec y : canon y -> 2 <= Z.abs (val y) ->
  exists ys z, lead_y y = Some (ys, z) /\ lead y ys z /\ zy_range z.
Proof.
  intros Hc Ha. unfold lead_y. destruct (Z.eqb_spec (top y) 0) as [E|N0].
  { destruct (lead_zero y 2 Hc Ha E (or_introl eq_refl)) as (v & Ev & Hl & Hr). rewrite Ev. cbn [obind]. rewrite ushr_ok by lia. cbn [obind].
    eexists _, _. split; [reflexivity|]. split; [exact Hl|]. left. exact Hr. }
  destruct (Z.eqb_spec (top y) (-1)) as [E|N1].
  { destruct (lead_minus1_spec y Hc Ha E) as (z & Ez & Hl & Hr). rewrite Ez. cbn [obind]. eexists _, _. split; [reflexivity|]. split; [exact Hl|].
    right. unfold zy_range. lia. }
  destruct (lead_gen_spec y 2 Hc (or_introl eq_refl) N0 N1) as (s & z & E & Hl & Hw & Hr). eexists _, _. split; [exact E|]. split; [exact Hl|].
  unfold zy_range. destruct Hr as [Hr|Hr]; [left; exact Hr|right]. change (63 - 2) with 61 in Hr. change (64 - 2) with 62 in Hr. lia. Qed.
Lemma lead_r_spec r : canon r -> 2 <= Z.abs (val r) ->
  exists rs z, lead_r r = Some (rs, z) /\ lead r rs z /\ zr_range z.
Proof.
  intros Hc Ha. unfold lead_r. destruct (Z.eqb_spec (top r) 0) as [E|N0].
  { destruct (lead_zero r 3 Hc Ha E (or_intror eq_refl)) as (v & Ev & Hl & Hr). rewrite Ev. cbn [obind]. rewrite ushr_ok by lia. cbn [obind].
    eexists _, _. split; [reflexivity|]. split; [exact Hl|]. left. exact Hr. }
  destruct (Z.eqb_spec (top r) (-1)) as [E|N1].
  { destruct (lead_minus1_spec r Hc Ha E) as (z & Ez & Hl & Hr). rewrite Ez. cbn [obind]. eexists _, _. split; [reflexivity|]. split; [exact Hl|].
    right. exact Hr. }
  destruct (lead_gen_spec r 3 Hc (or_intror eq_refl) N0 N1) as (s & z & E & Hl & Hw & Hr). eexists _, _. split; [exact E|]. split; [exact Hl|].
  exact Hr. Qed.

(** The quotient of the leading bits. *)
Lemma quot_facts a b : b <> 0 -> exists q m, Z.quot a b = q /\ Z.rem a b = m /\ a = b * q + m /\ Z.abs m < Z.abs b /\ 0 <= m * a.
Proof.
  intros Hb. exists (Z.quot a b), (Z.rem a b). split; [auto|]. split; [auto|]. split; [apply Z.quot_rem; auto|].
  split; [apply Z.rem_bound_abs; auto|]. apply Z.rem_sign_mul; auto. Qed.
Lemma sgn_same m a : 0 <= m * a -> 0 <= m /\ 0 <= a \/ m <= 0 /\ a <= 0.
Proof. nia. Qed.
Lemma mul_ub g b X lo K : 0 <= g -> g * b <= X -> 0 < lo <= b -> X < lo * (K + 1) -> g <= K.
Proof. intros Hg H Hl HX. assert (g * lo <= g * b) by (apply Z.mul_le_mono_nonneg_l; lia). nia. Qed.
Lemma mul_lb g b X hi K : 0 <= g -> X < (g + 1) * b -> 0 < b <= hi -> hi * K <= X -> K <= g.
Proof. intros Hg H Hl HX. assert ((g + 1) * b <= (g + 1) * hi) by (apply Z.mul_le_mono_nonneg_l; lia). nia. Qed.
Lemma abs_prod a b A B : 0 <= a <= A -> Z.abs b <= B -> Z.abs (a * b) <= A * B.
Proof. intros Ha Hb. rewrite Z.abs_mul, (Z.abs_eq a) by lia. apply Z.mul_le_mono_nonneg; lia. Qed.
Lemma cdiv_ok a b : b <> 0 -> b <> -1 -> cdiv a b = Some (Z.quot a b).
Proof. intros. unfold cdiv. destruct (Z.eqb_spec b 0), (Z.eqb_spec b (-1)); try congruence. rewrite andb_false_r. reflexivity. Qed.
Lemma cmod_ok a b : b <> 0 -> b <> -1 -> cmod a b = Some (Z.rem a b).
Proof. intros. unfold cmod. destruct (Z.eqb_spec b 0), (Z.eqb_spec b (-1)); try congruence. rewrite andb_false_r. reflexivity. Qed.

Lemma gg_spec zr zy : zr_range zr -> zy_range zy ->
  let yh := zy / 2 ^ 31 in let yl := zy mod 2 ^ 31 in
  yh <> 0 /\ yh <> -1 /\
  let gh := Z.quot zr yh in
  word (Z.rem zr yh * 2 ^ 31) /\ word (yl * gh) /\ word (gh * 2 ^ 31) /\
  forall N, word N -> let gg := Z.quot N yh + gh * 2 ^ 31 in
  word gg /\ gg <> MinWord /\ (0 < gg <-> (0 < zr <-> 0 < zy)) /\ gg <> 0 /\ 16 * Z.abs gg * Z.abs zy <= 17 * Z.abs zr * 2 ^ 62.
Proof.
  intros Hr Hy yh yl. unfold zr_range in Hr. unfold zy_range in Hy.
  change (2 ^ 60) with 1152921504606846976 in *. change (2 ^ 61) with 2305843009213693952 in *. change (2 ^ 62) with 4611686018427387904 in *.
  change (2 ^ 31) with 2147483648 in *.
  assert (Ey : zy = 2147483648 * yh + yl) by (apply Z.div_mod; lia).
  assert (Hyl : 0 <= yl < 2147483648) by (apply Z.mod_pos_bound; lia). clearbody yh yl.
  assert (Hyh : 1073741824 <= yh < 2147483648 \/ -2147483648 <= yh <= -536870913) by lia.
  split; [lia|]. split; [lia|]. cbv zeta.
  destruct (quot_facts zr yh ltac:(lia)) as (q & m & Eq & Em & Ez & Hm & Hsm). rewrite Eq, Em. clear Eq Em.
  set (b := Z.abs yh) in *. assert (Hb : 536870913 <= b <= 2147483648) by lia.
  assert (Hqb : Z.abs q * b <= Z.abs zr /\ Z.abs zr < (Z.abs q + 1) * b).
  { assert (Z.abs (yh * q) = Z.abs q * b) by (rewrite Z.abs_mul; subst b; lia).
    pose proof (sgn_same m zr Hsm).
    assert ((0 <= yh * q \/ yh * q < 0)) by lia. split; [|lia].
    assert (Z.abs (yh * q) <= Z.abs zr \/ (0 < zr /\ yh * q < 0) \/ (zr < 0 /\ 0 < yh * q)) by lia.
    lia. }
  set (a := Z.abs q) in *. assert (Ha : 536870912 <= a <= 4294967288) by
    (destruct Hqb; split; [apply (mul_lb a b (Z.abs zr) 2147483648); subst a; lia|apply (mul_ub a b (Z.abs zr) 536870913); subst a; lia]).
  assert (Hsg : 0 < q <-> (0 < zr <-> 0 < zy)).
  { assert (0 < q \/ q < 0) by lia. assert (0 < yh \/ yh < 0) by lia. assert (0 < zr \/ zr < 0) by lia.
    assert (0 < yh <-> 0 < zy) by lia. assert (Z.abs m < b) by lia. nia. }
  split; [bz|]. split. { assert (Z.abs (yl * q) <= 2147483647 * 4294967288) by (apply abs_prod; subst a; lia). bz. }
  split; [bz|]. intros N HN. destruct (quot_facts N yh ltac:(lia)) as (gl & m2 & Eq & _ & Ez2 & Hm2 & Hsm2). rewrite Eq.
  assert (Hgl : Z.abs gl <= 17179869152).
  { assert (Z.abs (yh * gl) = Z.abs gl * b) by (rewrite Z.abs_mul; subst b; lia).
    assert (Z.abs (yh * gl) <= HB). { unfold word in HN. pose proof (sgn_same m2 N Hsm2). unfold HB in *. fold b in Hm2.
      assert (Z.abs (yh * gl) < b \/ b <= Z.abs (yh * gl)) by lia. lia. }
    unfold HB in *. apply (mul_ub _ b HB 536870913); unfold HB; lia. }
  assert (Hsg2 : 0 < gl + q * 2147483648 <-> 0 < q) by (subst a; lia).
  split; [bz|]. split; [bz|]. split; [rewrite Hsg2; exact Hsg|]. split; [subst a; lia|].
  set (gg := gl + q * 2147483648) in *.
  assert (G1 : 32 * Z.abs gg <= 33 * 2147483648 * a) by (subst gg a; lia).
  assert (G2 : 64 * Z.abs zy <= 65 * 2147483648 * b) by (subst b; lia).
  assert (G3 : 32 * Z.abs gg * (64 * Z.abs zy) <= (33 * 2147483648 * a) * (65 * 2147483648 * b)) by (apply Z.mul_le_mono_nonneg; lia).
  assert (G4 : a * b <= Z.abs zr) by lia. set (A := Z.abs gg) in *. set (Y := Z.abs zy) in *. set (R := Z.abs zr) in *.
  replace (33 * 2147483648 * a * (65 * 2147483648 * b)) with (33 * 65 * 4611686018427387904 * (a * b)) in G3 by ring. 
  replace (32 * A * (64 * Y)) with (2048 * (A * Y)) in G3 by ring. replace (16 * A * Y) with (16 * (A * Y)) by ring.
  set (ab := a * b) in *. set (AY := A * Y) in *. lia. Qed.

Lemma lead_abs x s z P : P = Bn (length x - 1) -> lead x s z -> 2 ^ 60 <= z \/ z <= - 2 ^ 60 - 1 ->
  8 * (Z.abs z - 1) * P <= Z.abs (val x) * 2 ^ (s + 3) <= 8 * (Z.abs z + 1) * P /\
  8 * 2 ^ 60 * P <= Z.abs (val x) * 2 ^ (s + 3) /\
  (forall M, z < M -> - M <= z -> Z.abs (val x) * 2 ^ (s + 3) <= 8 * M * P) /\ (0 < z <-> 0 < val x).
Proof.
  intros EP (Hs & H1) Hz. rewrite <- EP in H1. assert (PP : 0 < P) by (subst P; apply Bn_pos).
  assert (PS : 0 < 2 ^ (s + 3)) by (apply Z.pow_pos_nonneg; lia). set (S := 2 ^ (s + 3)) in *.
  change (2 ^ 60) with 1152921504606846976 in *. set (v := val x) in *. clearbody v S. clear EP Hs.
  assert (Sg : 0 < z <-> 0 < v) by nia.
  assert (Z.abs v * S = Z.abs (v * S)) by (rewrite Z.abs_mul; lia). rewrite H. clear H. 
  destruct Hz as [Hz|Hz].
  - assert (0 < v * S) by nia. replace (Z.abs (v * S)) with (v * S) by lia. replace (Z.abs z) with z by lia.
    split; [nia|]. split; [nia|]. split; [|auto]. intros M HM _. nia.
  - assert (v * S < 0) by nia. replace (Z.abs (v * S)) with (- (v * S)) by lia. replace (Z.abs z) with (- z) by lia.
    split; [nia|]. split; [nia|]. split; [|auto]. intros M _ HM. nia. Qed.

Section Estimates.
  Variables A Y R S T P Q zr zy : Z.
  Hypothesis HA : 0 < A < 9223372036854775808.
  Hypothesis PS : 0 < S. Hypothesis PT : 0 < T. Hypothesis PP : 0 < P. Hypothesis PQ : 0 < Q.
  Hypothesis HY : 0 < Y. Hypothesis HR : 0 < R.
  Lemma est_main : 1152921504606846976 <= zr -> 1152921504606846976 <= zy ->
    16 * A * zy <= 17 * zr * 4611686018427387904 ->
    8 * (zr - 1) * P <= R * T -> Y * S <= 8 * (zy + 1) * Q ->
    4 * A * Y * (S * P) <= 5 * R * (4611686018427387904 * T * Q).
  Proof.
    intros Hzr Hzy Gb R1 Y1.
    assert (K1 : 4 * (A * (zy + 1)) <= 5 * 4611686018427387904 * (zr - 1)) by lia.
    assert (K2 : 4 * A * Y * (S * P) <= 4 * A * (8 * (zy + 1) * Q) * P).
    { replace (4 * A * Y * (S * P)) with (4 * A * (Y * S) * P) by ring. apply Z.mul_le_mono_nonneg_r; [lia|]. apply Z.mul_le_mono_nonneg_l; lia. }
    assert (K3 : 5 * 4611686018427387904 * (8 * (zr - 1) * P) * Q <= 5 * R * (4611686018427387904 * T * Q)).
    { replace (5 * R * (4611686018427387904 * T * Q)) with (5 * 4611686018427387904 * (R * T) * Q) by ring. apply Z.mul_le_mono_nonneg_r; [lia|]. apply Z.mul_le_mono_nonneg_l; lia. }
    assert (K4 : 4 * A * (8 * (zy + 1) * Q) * P <= 5 * 4611686018427387904 * (8 * (zr - 1) * P) * Q).
    { replace (4 * A * (8 * (zy + 1) * Q) * P) with (4 * (A * (zy + 1)) * (8 * P * Q)) by ring.
      replace (5 * 4611686018427387904 * (8 * (zr - 1) * P) * Q) with (5 * 4611686018427387904 * (zr - 1) * (8 * P * Q)) by ring.
      apply Z.mul_le_mono_nonneg_r; [|exact K1]. apply Z.mul_nonneg_nonneg; lia. }
    eapply Z.le_trans; [exact K2|]. eapply Z.le_trans; [exact K4|exact K3]. Qed.
  Lemma est_up : Y <= R -> R * T <= 8 * 2305843009213693952 * P -> 8 * 1152921504606846976 * Q <= Y * S ->
    4611686018427387904 * T * Q <= 9223372036854775808 * (S * P).
  Proof.
    intros Ayr R3 Y2.
    assert (K : R * (4611686018427387904 * T * Q) <= R * (9223372036854775808 * (S * P))).
    { assert (A1 : 4611686018427387904 * Q * (R * T) <= 4611686018427387904 * Q * (8 * 2305843009213693952 * P)) by (apply Z.mul_le_mono_nonneg_l; lia).
      assert (A2 : 9223372036854775808 * P * (8 * 1152921504606846976 * Q) <= 9223372036854775808 * P * (Y * S)) by (apply Z.mul_le_mono_nonneg_l; lia).
      assert (A3 : 9223372036854775808 * P * S * Y <= 9223372036854775808 * P * S * R) by (apply Z.mul_le_mono_nonneg_l; [|lia]; apply Z.mul_nonneg_nonneg; lia).
      lia. }
    apply Z.mul_le_mono_pos_l in K; [exact K|exact HR]. Qed.
  Lemma est_down : R <= Y * B -> 8 * 1152921504606846976 * P <= R * T -> Y * S <= 8 * 4611686018427387904 * Q ->
    S * P <= 16 * (4611686018427387904 * T * Q).
  Proof.
    intros Ary R2 Y3.
    assert (K : 8 * 1152921504606846976 * (S * P) <= 8 * 1152921504606846976 * (16 * (4611686018427387904 * T * Q))).
    { assert (A1 : S * (8 * 1152921504606846976 * P) <= S * (R * T)) by (apply Z.mul_le_mono_nonneg_l; lia).
      assert (A2 : S * T * R <= S * T * (Y * B)) by (apply Z.mul_le_mono_nonneg_l; [|lia]; apply Z.mul_nonneg_nonneg; lia).
      assert (A3 : T * B * (Y * S) <= T * B * (8 * 4611686018427387904 * Q)) by (apply Z.mul_le_mono_nonneg_l; [unfold B; lia|lia]).
      unfold B in *. lia. }
    apply Z.mul_le_mono_pos_l in K; [exact K|lia]. Qed.
End Estimates.

Lemma sg_mul gg F : 1 <= F -> gg <> 0 -> (0 < gg * F <-> 0 < gg) /\ gg * F <> 0 /\ Z.abs gg <= Z.abs gg * F.
Proof. intros. split; [|split]; nia. Qed.
Lemma left_shift gg F : word gg -> gg <> 0 -> gg <> MinWord -> 1 <= F ->
  let z := wrap (gg * F) in
  exists g, (if negb (eqb (neg z) (neg gg)) || ((if 0 <=? z then z else wrap (- z)) <? (if 0 <=? gg then gg else wrap (- gg)))
       then Some (if neg gg then MinWord else MaxWord) else Some z) = Some g /\ word g /\ g <> 0 /\ (0 < g <-> 0 < gg) /\ Z.abs g <= Z.abs gg * F.
Proof.
  intros Wg G0 Ng HF z. pose proof (wrap_word (gg * F)) as Wz. fold z in Wz.
  destruct (sg_mul gg F HF G0) as (Sm & Nm & Lm). assert (EA : Z.abs gg * F = Z.abs (gg * F)) by (rewrite Z.abs_mul; lia).
  assert (Wag : (if 0 <=? gg then gg else wrap (- gg)) = Z.abs gg).
  { destruct (Z.leb_spec 0 gg); [lia|]. rewrite wrap_id; bz. }
  rewrite Wag, EA in *. set (V := gg * F) in *. clearbody V. clear Wag EA.
  destruct (Z.ltb_spec (Z.abs V) HB) as [Small|Large].
  - assert (Ez : z = V) by (subst z; apply wrap_id; bz). clearbody z. subst z.
    assert (Waz : (if 0 <=? V then V else wrap (- V)) = Z.abs V).
    { destruct (Z.leb_spec 0 V); [lia|]. rewrite wrap_id; bz. }
    rewrite Waz. unfold neg. replace (Z.abs V <? Z.abs gg) with false by (symmetry; apply Z.ltb_ge; lia).
    replace (eqb (V <? 0) (gg <? 0)) with true by (symmetry; apply eqb_true_iff; destruct (Z.ltb_spec V 0), (Z.ltb_spec gg 0); auto; lia).
    cbn [negb orb]. exists V. repeat split; auto; try apply Wz; try apply Sm; lia.
  - clearbody z. destruct (_ || _) eqn:Eb.
    + exists (if neg gg then MinWord else MaxWord). split; [auto|]. unfold neg. destruct (Z.ltb_spec gg 0); bz.
    + apply orb_false_iff in Eb. destruct Eb as [Eb1 Eb2]. apply negb_false_iff, eqb_prop in Eb1. unfold neg in Eb1.
      exists z. split; [auto|]. split; [auto|].
      assert (Nz : z <> 0). { intros E0. rewrite E0 in Eb2. simpl in Eb2. apply Z.ltb_ge in Eb2. lia. }
      split; [auto|]. split; [|bz]. destruct (Z.ltb_spec z 0), (Z.ltb_spec gg 0); try discriminate; lia. Qed.
Lemma right_round gg F : 1 <= F ->
  exists d, gg / (2 * F) + Z.land (gg / F) 1 = d /\ 2 * F * d - F <= gg < 2 * F * d + F.
Proof.
  intros HF. exists (gg / (2 * F) + Z.land (gg / F) 1). split; [auto|].
  replace (Z.land (gg / F) 1) with ((gg / F) mod 2) by (symmetry; apply (Z.land_ones _ 1); lia).
  pose proof (Z.div_mod gg F ltac:(lia)). pose proof (Z.mod_pos_bound gg F ltac:(lia)).
  assert (E2' : gg / (2 * F) = gg / F / 2) by (rewrite Z.div_div by lia; f_equal; lia). rewrite E2'.
  set (q := gg / F) in *. pose proof (Z.div_mod q 2 ltac:(lia)). pose proof (Z.mod_pos_bound q 2 ltac:(lia)).
  set (m := q mod 2) in *. set (h := q / 2) in *. set (e := gg mod F) in *. clearbody e m h q. nia. Qed.
Lemma round_facts gg F d : 1 <= F -> word gg -> 2 * F * d - F <= gg < 2 * F * d + F ->
  word d /\ (d <> 0 -> (0 < d <-> 0 < gg)) /\ 2 * F * Z.abs d <= Z.abs gg + F.
Proof. intros HF Hg Hd. unfold word, HB in *. split; [nia|]. split; [nia|]. nia. Qed.
Lemma round_bound A F d Y R : 1 <= F -> 0 < Y <= R -> 0 <= d -> 2 * F * d <= A + F -> 4 * A * Y <= 5 * R * (2 * F) -> d * Y < 2 * R.
Proof.
  intros HF HY Hd H1 H2.
  assert (2 * F * d * Y <= (A + F) * Y) by (apply Z.mul_le_mono_nonneg_r; lia).
  assert (F * Y <= F * R) by (apply Z.mul_le_mono_nonneg_l; lia).
  assert (K : 2 * F * (4 * (d * Y)) <= 2 * F * (7 * R)) by lia.
  apply Z.mul_le_mono_pos_l in K; lia. Qed.
Lemma scale_left A Y R E2 F : 0 < E2 -> 4 * A * Y * (E2 * F) <= 5 * R * E2 -> 4 * (A * F) * Y <= 5 * R.
Proof. intros HE Main. replace (4 * A * Y * (E2 * F)) with (4 * (A * F) * Y * E2) in Main by ring.
  apply Z.mul_le_mono_pos_r in Main; [exact Main|lia]. Qed.
Lemma scale_right A Y R E1 F : 0 < E1 -> 4 * A * Y * E1 <= 5 * R * (E1 * F) -> 4 * A * Y <= 5 * R * F.
Proof. intros HE Main. replace (5 * R * (E1 * F)) with (5 * R * F * E1) in Main by ring.
  apply Z.mul_le_mono_pos_r in Main; [exact Main|lia]. Qed.
Lemma Bn_pow2 n : Bn n = 2 ^ (64 * Z.of_nat n).
Proof. Transparent Bn. unfold Bn. Opaque Bn. change B with (2 ^ 64). rewrite <- Z.pow_mul_r by lia. reflexivity. Qed.

(** The scale of the guess. *)
Lemma gs_facts (r y : arbi) ys zy rs zr A : ok r -> ok y -> 2 <= Z.abs (val y) -> Z.abs (val y) <= Z.abs (val r) ->
  Z.abs (val r) <= Z.abs (val y) * B -> lead y ys zy -> zy_range zy -> lead r rs zr -> zr_range zr ->
  0 < A < HB -> 16 * A * Z.abs zy <= 17 * Z.abs zr * 2 ^ 62 ->
  let gs := 62 - 64 * (Z.of_nat (length r) - Z.of_nat (length y)) + (rs - ys) in
  -4 <= gs <= 63 /\
  (gs < 0 -> 4 * (A * 2 ^ (- gs)) * Z.abs (val y) <= 5 * Z.abs (val r)) /\
  (0 <= gs -> 4 * A * Z.abs (val y) <= 5 * Z.abs (val r) * 2 ^ gs) /\
  (0 < zr <-> 0 < val r) /\ (0 < zy <-> 0 < val y).
Proof.
  intros Hr Hy Ay Ayr Ary Ly Ry Lr Rr HA Gb gs.
  set (P := Bn (length r - 1)). set (Q := Bn (length y - 1)).
  unfold zr_range, zy_range in *.
  change (2 ^ 60) with 1152921504606846976 in *. change (2 ^ 61) with 2305843009213693952 in *. change (2 ^ 62) with 4611686018427387904 in *.
  destruct (lead_abs r rs zr P eq_refl Lr) as (R1 & R2 & R3 & R4). { change (2 ^ 60) with 1152921504606846976. lia. }
  destruct (lead_abs y ys zy Q eq_refl Ly) as (Y1 & Y2 & Y3 & Y4). { change (2 ^ 60) with 1152921504606846976. lia. }
  change (2 ^ 60) with 1152921504606846976 in *.
  specialize (R3 2305843009213693952 ltac:(lia) ltac:(lia)). specialize (Y3 4611686018427387904 ltac:(lia) ltac:(lia)).
  assert (PP : 0 < P) by apply Bn_pos. assert (PQ : 0 < Q) by apply Bn_pos.
  assert (Rs : -2 <= rs <= 62) by apply Lr. assert (Ys : -2 <= ys <= 62) by apply Ly. clear Lr Ly.
  assert (Prs : 0 < 2 ^ (rs + 3)) by (apply Z.pow_pos_nonneg; lia).
  assert (Pys : 0 < 2 ^ (ys + 3)) by (apply Z.pow_pos_nonneg; lia).
  assert (Zy : 1152921504606846976 <= Z.abs zy) by lia. assert (Zr : 1152921504606846976 <= Z.abs zr) by lia.
  destruct R1 as [R1 R1'], Y1 as [Y1' Y1].
  pose proof (est_main A (Z.abs (val y)) (Z.abs (val r)) (2 ^ (ys + 3)) (2 ^ (rs + 3)) P Q (Z.abs zr) (Z.abs zy)) as Main. repeat specialize (Main ltac:(first [assumption|lia])).
  pose proof (est_up (Z.abs (val y)) (Z.abs (val r)) (2 ^ (ys + 3)) (2 ^ (rs + 3)) P Q) as Up. repeat specialize (Up ltac:(first [assumption|lia])).
  pose proof (est_down (Z.abs (val y)) (Z.abs (val r)) (2 ^ (ys + 3)) (2 ^ (rs + 3)) P Q) as Dn. repeat specialize (Dn ltac:(first [assumption|lia])).
  clear R1 R2 R3 Y1 Y2 Y3 Rr Ry Gb Zy Zr R1' Y1'.
  set (R := Z.abs (val r)) in *. set (Y := Z.abs (val y)) in *. clearbody R Y.
  pose proof (len_pos r Hr) as Plr. pose proof (len_pos y Hy) as Ply.
  assert (EE1 : 2 ^ (ys + 3) * P = 2 ^ (ys + 3 + 64 * Z.of_nat (length r - 1))) by (subst P; rewrite Bn_pow2, <- Z.pow_add_r by lia; reflexivity).
  assert (EE2 : 4611686018427387904 * 2 ^ (rs + 3) * Q = 2 ^ (62 + (rs + 3) + 64 * Z.of_nat (length y - 1))).
  { subst Q. change 4611686018427387904 with (2 ^ 62). rewrite Bn_pow2, <- !Z.pow_add_r by lia. reflexivity. }
  rewrite EE1, EE2 in *. clear EE1 EE2 PP PQ Prs Pys P Q.
  assert (Egs : gs = (62 + (rs + 3) + 64 * Z.of_nat (length y - 1)) - (ys + 3 + 64 * Z.of_nat (length r - 1))) by (subst gs; lia).
  set (e1 := ys + 3 + 64 * Z.of_nat (length r - 1)) in *. set (e2 := 62 + (rs + 3) + 64 * Z.of_nat (length y - 1)) in *.
  assert (Pe1 : 0 <= e1) by (subst e1; lia). assert (Pe2 : 0 <= e2) by (subst e2; lia). clearbody gs e1 e2.
  change 9223372036854775808 with (2 ^ 63) in Up. change 16 with (2 ^ 4) in Dn. rewrite <- Z.pow_add_r in Up, Dn by lia.
  apply Z.pow_le_mono_r_iff in Up; [|lia|lia]. apply Z.pow_le_mono_r_iff in Dn; [|lia|lia].
  split; [lia|]. split; [|split; [|split; [exact R4|exact Y4]]]; intros Hg.
  - apply (scale_left A Y R (2 ^ e2)); [apply Z.pow_pos_nonneg; lia|]. rewrite <- Z.pow_add_r by lia. replace (e2 + - gs) with e1 by lia. exact Main.
  - apply (scale_right A Y R (2 ^ e1)); [apply Z.pow_pos_nonneg; lia|]. rewrite <- Z.pow_add_r by lia. replace (e1 + gs) with e2 by lia. exact Main.
Qed.

(** arb_prec.c 703-727: a guess has the right sign and is not too large. *)
Lemma guess_spec r y ys zy : canon r -> canon y -> 2 <= Z.abs (val y) -> Z.abs (val y) <= Z.abs (val r) ->
  Z.abs (val r) <= Z.abs (val y) * B -> lead y ys zy -> zy_range zy ->
  exists g, guess r y ys (zy / 2 ^ 31) (zy mod 2 ^ 31) = Some g /\ word g /\ g <> 0 /\
    (0 < g <-> (0 < val r <-> 0 < val y)) /\ Z.abs (g * val y) < 2 * Z.abs (val r).
Proof.
  intros Hr Hy Ay Ayr Ary Ly Ry. unfold guess.
  destruct (lead_r_spec r Hr ltac:(lia)) as (rs & zr & Er & Lr & Rr). rewrite Er. cbn [obind].
  destruct (gg_spec zr zy Rr Ry) as (Nh & Nh1 & W1 & W2 & W3 & HG).
  rewrite cdiv_ok, cmod_ok by auto. cbn [obind]. rewrite shl_ok by lia. rewrite (wrap_id (_ * 2 ^ 31)) by auto. cbn [obind].
  rewrite (wrap_id (_ * Z.quot _ _)) by auto. rewrite cdiv_ok by auto. cbn [obind]. rewrite shl_ok by lia. cbn [obind]. rewrite (wrap_id (_ * 2 ^ 31)) by auto.
  specialize (HG _ (wrap_word (Z.rem zr (zy / 2 ^ 31) * 2 ^ 31 - zy mod 2 ^ 31 * Z.quot zr (zy / 2 ^ 31)))). cbn zeta in HG.
  set (gg := Z.quot _ _ + _) in *. clearbody gg. destruct HG as (Wg & Ng & Sg & G0 & Gb). rewrite (wrap_id gg) by auto.
  clear W1 W2 W3 Nh Nh1.
  assert (HA : 0 < Z.abs gg < HB) by bz.
  destruct (gs_facts r y ys zy rs zr (Z.abs gg) (proj1 Hr) (proj1 Hy) Ay Ayr Ary Ly Ry Lr Rr HA Gb) as (Hgs & ML & MR & S1 & S2).
  set (gs := 62 - _ + _) in *. clearbody gs. assert (Sgg : 0 < gg <-> (0 < val r <-> 0 < val y)) by (rewrite Sg, S1, S2; reflexivity).
  pose proof (val_sign r (proj1 Hr)) as Sr. pose proof (val_sign y (proj1 Hy)) as Sy.
  clear Er Lr Ly Rr Ry Gb Sg S1 S2 Ary Hr Hy.
  destruct (Z.ltb_spec gs 0) as [Gn|Gp].
  - rewrite shl_ok by lia. cbn [obind]. specialize (ML Gn).
    assert (P2 : 1 <= 2 ^ (- gs)) by (assert (0 < 2 ^ (- gs)) by (apply Z.pow_pos_nonneg; lia); lia).
    destruct (left_shift gg (2 ^ (- gs)) Wg G0 Ng P2) as (g & Eg & Wg' & Ng0 & Sg' & Bg). exists g. split; [exact Eg|]. split; [auto|]. split; [auto|].
    split; [rewrite Sg'; exact Sgg|]. rewrite Z.abs_mul.
    assert (Z.abs g * Z.abs (val y) <= Z.abs gg * 2 ^ (- gs) * Z.abs (val y)) by (apply Z.mul_le_mono_nonneg_r; [lia|exact Bg]). lia.
  - specialize (MR Gp). destruct (Z.eqb_spec gs 0) as [->|Ngs].
    + exists gg. split; [auto|]. split; [auto|]. split; [auto|]. split; [exact Sgg|]. rewrite Z.abs_mul. change (2 ^ 0) with 1 in MR. lia.
    + rewrite (shr_ok gg gs), (shr_ok gg (gs - 1)) by lia. cbn [obind].
      set (F := 2 ^ (gs - 1)). assert (EF : 2 ^ gs = 2 * F) by (subst F; replace gs with (Z.succ (gs - 1)) at 1 by lia; apply Z.pow_succ_r; lia).
      assert (PF : 1 <= F) by (assert (0 < F) by (apply Z.pow_pos_nonneg; lia); lia). rewrite EF in *. clearbody F.
      destruct (right_round gg F PF) as (d & -> & Hd). destruct (round_facts gg F d PF Wg Hd) as (Wd & Sd & Ad). rewrite wrap_id by auto.
      destruct (Z.eqb_spec d 0) as [E0|N0].
      * unfold neg. rewrite Sr, Sy. assert (Hr0 : val r <> 0) by lia. assert (Hy0 : val y <> 0) by lia.
        eexists. split; [reflexivity|].
        destruct (Z.ltb_spec (val r) 0), (Z.ltb_spec (val y) 0); cbn [eqb]; (split; [bz|]; split; [lia|]; split; [lia|]); lia.
      * exists d. split; [auto|]. split; [auto|]. split; [auto|].
        split; [rewrite <- Sgg; apply Sd; auto|]. rewrite Z.abs_mul.
        apply (round_bound (Z.abs gg) F); auto; lia.
Qed.
