(** Arbitrary precision integers: multiplication. *)
From Coq Require Import ZArith Bool List Lia.
From Verif Require Import ArbModel ArbBase.
Import ListNotations.
Open Scope Z_scope.

Fixpoint uval (x : list Z) : Z := match x with [] => 0 | w :: r => uw w + B * uval r end.
Lemma uval_range x : 0 <= uval x < Bn (length x).
Proof. induction x as [|w r IH]; simpl; [rewrite Bn_0; lia|]. rewrite Bn_S. pose proof (uw_range w). nia. Qed.
Lemma uval_app x y : uval (x ++ y) = uval x + Bn (length x) * uval y.
Proof. induction x as [|w r IH]; simpl; [rewrite Bn_0; lia|]. rewrite Bn_S, IH. ring. Qed.
Lemma val_uval x : ok x -> val x = uval x - (if val x <? 0 then Bn (length x) else 0).
Proof.
  intros Hx. rewrite <- val_sign by auto. destruct Hx as [Hne Hf]. revert Hf. pattern x.
  apply list_ind2; [| | exact Hne]; clear x Hne.
  - intros w Hf. apply Forall_cons_iff in Hf; destruct Hf as [Hw _]. simpl. unfold top; simpl. rewrite Bn_S, Bn_0, uw_word by auto.
    destruct (w <? 0); lia.
  - intros w r Hne IH Hf. apply Forall_cons_iff in Hf; destruct Hf as [Hw Hr].
    rewrite val_cons, top_cons by auto. rewrite (IH Hr). cbn [uval length]. rewrite Bn_S. destruct (_ <? 0); lia. Qed.
Lemma uval_nonneg x : ok x -> 0 <= val x -> uval x = val x.
Proof. intros Hx Hv. pose proof (val_uval x Hx). destruct (Z.ltb_spec (val x) 0); lia. Qed.
(** Fewer words are enough for a small value. *)
Lemma uval_firstn n x : ok x -> 0 <= val x < Bn n -> (n <= length x)%nat -> uval (firstn n x) = val x.
Proof.
  intros Hx Hv Hl. assert (E : uval x = uval (firstn n x) + Bn n * uval (skipn n x)).
  { rewrite <- (firstn_skipn n x) at 1. rewrite uval_app, firstn_length_le by lia. reflexivity. }
  rewrite (uval_nonneg x) in E by (auto; lia).
  pose proof (uval_range (firstn n x)) as R1. rewrite firstn_length_le in R1 by lia. pose proof (uval_range (skipn n x)).
  assert (uval (skipn n x) = 0) by nia. lia. Qed.

(** one column *)
Definition accval (a : acc4) : Z := p0 a + H32 * p1 a + H32 * H32 * p2 a + H32 * H32 * H32 * p3 a.
Definition le4 (a : acc4) (c0 c1 c2 c3 : Z) : Prop :=
  0 <= p0 a <= c0 /\ 0 <= p1 a <= c1 /\ 0 <= p2 a <= c2 /\ 0 <= p3 a <= c3.
Lemma u64_small z : 0 <= z < B -> u64 z = z.
Proof. intros. unfold u64. apply Z.mod_small. auto. Qed.
Lemma half_prod a b : 0 <= a < H32 -> 0 <= b < H32 -> 0 <= a * b < B.
Proof. intros. split; [nia|]. replace B with (H32 * H32) by reflexivity. nia. Qed.
Lemma mul_step_spec xx yy a c0 c1 c2 c3 : le4 a c0 c1 c2 c3 ->
  c0 + H32 <= B -> c1 + 3 * H32 <= B -> c2 + 3 * H32 <= B -> c3 + H32 <= B ->
  le4 (mul_step xx yy a) (c0 + H32) (c1 + 3 * H32) (c2 + 3 * H32) (c3 + H32) /\
  accval (mul_step xx yy a) = accval a + uw xx * uw yy.
Proof.
  intros Ha L0 L1 L2 L3. unfold mul_step, Acc01, Acc12, Acc23.
  pose proof (uw_range xx) as Hx. pose proof (uw_range yy) as Hy.
  set (X := uw xx) in *. set (Y := uw yy) in *.
  assert (HX : X = H32 * (X / H32) + X mod H32) by (apply Z.div_mod; bz).
  assert (HY : Y = H32 * (Y / H32) + Y mod H32) by (apply Z.div_mod; bz).
  pose proof (Z.mod_pos_bound X H32 ltac:(bz)) as Bxl. pose proof (Z.mod_pos_bound Y H32 ltac:(bz)) as Byl.
  assert (Bxh : 0 <= X / H32 < H32) by (split; [apply Z.div_pos; bz | apply Z.div_lt_upper_bound; bz]).
  assert (Byh : 0 <= Y / H32 < H32) by (split; [apply Z.div_pos; bz | apply Z.div_lt_upper_bound; bz]).
  set (xl := X mod H32) in *. set (xh := X / H32) in *. set (yl := Y mod H32) in *. set (yh := Y / H32) in *.
  pose proof (half_prod xl yl Bxl Byl) as R1. pose proof (half_prod xl yh Bxl Byh) as R2.
  pose proof (half_prod xh yl Bxh Byl) as R3. pose proof (half_prod xh yh Bxh Byh) as R4.
  rewrite (u64_small (xl * yl)), (u64_small (xl * yh)), (u64_small (xh * yl)), (u64_small (xh * yh)) by assumption.
  assert (Hm : X * Y = xl * yl + H32 * (xl * yh) + H32 * (xh * yl) + H32 * H32 * (xh * yh)) by (rewrite HX, HY; ring).
  rewrite Hm. clear Hm HX HY Hx Hy. clearbody X Y xl xh yl yh.
  set (q1 := xl * yl) in *. set (q2 := xl * yh) in *. set (q3 := xh * yl) in *. set (q4 := xh * yh) in *. clearbody q1 q2 q3 q4.
  assert (Q : forall q, 0 <= q < B -> q = H32 * (q / H32) + q mod H32 /\ 0 <= q mod H32 < H32 /\ 0 <= q / H32 < H32).
  { intros q Hq. split; [apply Z.div_mod; bz|]. split; [apply Z.mod_pos_bound; bz|]. split; [apply Z.div_pos; bz | apply Z.div_lt_upper_bound; bz]. }
  destruct (Q q1 R1) as (E1 & M1 & D1), (Q q2 R2) as (E2 & M2 & D2), (Q q3 R3) as (E3 & M3 & D3), (Q q4 R4) as (E4 & M4 & D4).
  clear Q. set (m1 := q1 mod H32) in *. set (m2 := q2 mod H32) in *. set (m3 := q3 mod H32) in *. set (m4 := q4 mod H32) in *.
  set (d1 := q1 / H32) in *. set (d2 := q2 / H32) in *. set (d3 := q3 / H32) in *. set (d4 := q4 / H32) in *.
  clearbody m1 m2 m3 m4 d1 d2 d3 d4. subst q1 q2 q3 q4.
  destruct a as [a0 a1 a2 a3]. unfold le4, accval in *. simpl in *.
  rewrite (u64_small (a0 + m1)) by lia. rewrite (u64_small (a1 + d1)) by lia.
  rewrite (u64_small (a1 + d1 + m2)) by lia. rewrite (u64_small (a2 + d2)) by lia.
  rewrite (u64_small (a1 + d1 + m2 + m3)) by lia. rewrite (u64_small (a2 + d2 + d3)) by lia.
  rewrite (u64_small (a2 + d2 + d3 + m4)) by lia. rewrite (u64_small (a3 + d4)) by lia.
  split; [lia | ring]. Qed.

Definition zsum (l : list Z) : Z := fold_right Z.add 0 l.
Definition term (X Y : list Z) (i j : nat) : Z := uw (nth j X 0) * uw (nth (i - j) Y 0).
Lemma mul_col_spec X Y i js : forall a c0 c1 c2 c3, le4 a c0 c1 c2 c3 ->
  Forall (fun j => (j < length X)%nat /\ (i - j < length Y)%nat) js ->
  let n := Z.of_nat (length js) in
  c0 + n * H32 <= B -> c1 + 3 * n * H32 <= B -> c2 + 3 * n * H32 <= B -> c3 + n * H32 <= B ->
  exists a', mul_col X Y i js a = Some a' /\
    le4 a' (c0 + n * H32) (c1 + 3 * n * H32) (c2 + 3 * n * H32) (c3 + n * H32) /\
    accval a' = accval a + zsum (map (term X Y i) js).
Proof.
  induction js as [|j js IH]; intros a c0 c1 c2 c3 Ha Hf n L0 L1 L2 L3.
  - exists a. split; [reflexivity|]. subst n. simpl in *. replace (c0 + 0 * H32) with c0 by lia. 
    replace (c1 + 3 * 0 * H32) with c1 by lia. replace (c2 + 3 * 0 * H32) with c2 by lia. replace (c3 + 0 * H32) with c3 by lia.
    split; [exact Ha | lia].
  - apply Forall_cons_iff in Hf; destruct Hf as [[Hj1 Hj2] Hf].
    assert (En : n = 1 + Z.of_nat (length js)) by (subst n; simpl length; lia). clearbody n. subst n.
    set (n := Z.of_nat (length js)) in *. assert (0 <= n) by lia.
    destruct (mul_step_spec (nth j X 0) (nth (i - j) Y 0) a c0 c1 c2 c3) as [Hs He]; try (unfold H32 in *; lia); [exact Ha|].
    destruct (IH _ _ _ _ _ Hs Hf) as (a' & E1 & E2 & E3); try (unfold H32 in *; lia).
    exists a'. cbn [mul_col]. rewrite (nth_error_nth' X 0 Hj1), (nth_error_nth' Y 0 Hj2). split; [exact E1|].
    split.
    + replace (c0 + (1 + n) * H32) with (c0 + H32 + n * H32) by ring.
      replace (c1 + 3 * (1 + n) * H32) with (c1 + 3 * H32 + 3 * n * H32) by ring.
      replace (c2 + 3 * (1 + n) * H32) with (c2 + 3 * H32 + 3 * n * H32) by ring.
      replace (c3 + (1 + n) * H32) with (c3 + H32 + n * H32) by ring. exact E2.
    + rewrite E3, He. simpl. unfold term at 2. fold (term X Y i). lia. Qed.

(** all columns *)
Definition colsum (X Y : list Z) (lx ly i : nat) : Z := zsum (map (term X Y i) (col_js lx ly i)).
Fixpoint colssum (X Y : list Z) (lx ly : nat) (s n : nat) : Z :=
  match n with O => 0 | S n => colsum X Y lx ly s + B * colssum X Y lx ly (S s) n end.
Lemma col_js_in (X Y : list Z) lx ly i : (lx <= length X)%nat -> (ly <= length Y)%nat -> (1 <= lx)%nat -> (1 <= ly)%nat ->
  Forall (fun j => (j < length X)%nat /\ (i - j < length Y)%nat) (col_js lx ly i).
Proof.
  intros. apply Forall_forall. intros j Hj. unfold col_js in Hj. apply in_seq in Hj.
  destruct (Nat.ltb_spec i lx), (Nat.ltb_spec i ly); lia. Qed.
Lemma col_js_len lx ly i : (1 <= lx)%nat -> (1 <= ly)%nat -> (length (col_js lx ly i) <= lx + ly)%nat.
Proof. intros. unfold col_js. rewrite seq_length. destruct (Nat.ltb_spec i lx), (Nat.ltb_spec i ly); lia. Qed.
Lemma merge_uw a b : 0 <= a -> 0 <= b -> uw (merge a b) = a mod H32 + H32 * (b mod H32).
Proof.
  intros. unfold merge. rewrite uw_wrap. pose proof (Z.mod_pos_bound a H32 ltac:(bz)). pose proof (Z.mod_pos_bound b H32 ltac:(bz)).
  set (m := a mod H32) in *. set (n := b mod H32) in *.
  assert (G : 0 <= m + H32 * n < B) by (unfold B; unfold H32 in *; lia).
  Transparent uw. unfold uw. Opaque uw. apply Z.mod_small. exact G. Qed.
Lemma mul_cols_spec (X Y : list Z) lx ly : (lx <= length X)%nat -> (ly <= length Y)%nat -> (1 <= lx)%nat -> (1 <= ly)%nat ->
  let N := Z.of_nat (lx + ly) in N <= 32767 ->
  forall n s q0 q1, 0 <= q0 <= 3 * N * H32 + H32 -> 0 <= q1 <= N * H32 ->
  exists r c, mul_cols X Y lx ly (seq s n) q0 q1 = Some r /\ length r = n /\ Forall word r /\ 0 <= c /\
    uval r + Bn n * c = q0 + H32 * q1 + colssum X Y lx ly s n.
Proof.
  intros HX HY H1 H2 N HN. induction n as [|n IH]; intros s q0 q1 Hq0 Hq1.
  - exists [], (q0 + H32 * q1). cbn [seq mul_cols colssum uval length]. rewrite Bn_0. repeat split; auto; unfold H32 in *; lia.
  - cbn [seq mul_cols]. set (js := col_js lx ly s).
    pose proof (col_js_len lx ly s H1 H2) as Hlen. fold js in Hlen.
    destruct (mul_col_spec X Y s js (mkAcc q0 q1 0 0) (3 * N * H32 + H32) (N * H32) 0 0) as (a & E & Hle & Hv).
    { unfold le4; simpl; unfold H32 in *; lia. }
    { apply col_js_in; auto. }
    1-4: unfold B, H32; lia.
    rewrite E. cbn [obind].
    assert (Hjs : Z.of_nat (length js) <= N) by lia. assert (0 <= Z.of_nat (length js)) by lia.
    set (m := Z.of_nat (length js)) in *.
    destruct a as [a0 a1 a2 a3]. unfold le4, accval in *. cbn [p0 p1 p2 p3] in *.
    destruct Hle as (G0 & G1 & G2 & G3).
    assert (Hd0 : a0 = H32 * (a0 / H32) + a0 mod H32) by (apply Z.div_mod; bz).
    assert (Hr0 : 0 <= a0 mod H32 < H32) by (apply Z.mod_pos_bound; bz).
    assert (Hc1 : u64 (a1 + a0 / H32) = a1 + a0 / H32) by (apply u64_small; unfold B, H32 in *; lia).
    rewrite Hc1. set (e1 := a1 + a0 / H32) in *.
    assert (Hd1 : e1 = H32 * (e1 / H32) + e1 mod H32) by (apply Z.div_mod; bz).
    assert (Hr1 : 0 <= e1 mod H32 < H32) by (apply Z.mod_pos_bound; bz).
    assert (He1 : 0 <= e1 < H32 * H32) by (unfold B, H32 in *; lia).
    assert (He1' : 0 <= e1 / H32 <= H32) by (unfold H32 in *; lia).
    assert (Hc2 : u64 (a2 + e1 / H32) = a2 + e1 / H32) by (apply u64_small; unfold B, H32 in *; lia).
    rewrite Hc2. set (e2 := a2 + e1 / H32) in *.
    destruct (IH (S s) e2 a3) as (r & c & Er & Lr & Fr & Hc & Hu); [unfold H32 in *; lia..|].
    rewrite Er. cbn [obind]. exists (merge a0 e1 :: r), c. split; [reflexivity|]. split; [simpl; lia|].
    split; [constructor; [apply wrap_word|auto]|]. split; [exact Hc|].
    cbn [uval colssum]. rewrite merge_uw by lia. rewrite Bn_S.
    replace (B * Bn n * c) with (B * (Bn n * c)) by ring. replace (uval r) with (e2 + H32 * a3 + colssum X Y lx ly (S s) n - Bn n * c) by lia.
    set (bc := Bn n * c) in *. unfold colsum. fold js.
    set (S1 := zsum _) in *. set (S2 := colssum _ _ _ _ _ _) in *.
    replace (B * (e2 + H32 * a3 + S2 - bc)) with (H32 * H32 * e2 + H32 * H32 * H32 * a3 + B * S2 - B * bc) by (change B with (H32 * H32); ring).
    set (m0 := a0 mod H32) in *. set (m1 := e1 mod H32) in *. set (d0 := a0 / H32) in *. set (d1 := e1 / H32) in *.
    subst e1 e2. unfold H32 in *. lia.
Qed.

(** The sum over the columns is the product. *)
Fixpoint conv (X Y : list Z) (i : nat) : Z :=
  match X with
  | [] => 0
  | x :: X => uw x * uw (nth i Y 0) + match i with O => 0 | S i => conv X Y i end
  end.
Lemma zsum_app a b : zsum (a ++ b) = zsum a + zsum b.
Proof. unfold zsum. induction a; simpl; lia. Qed.
Lemma zsum_zero l : Forall (fun z => z = 0) l -> zsum l = 0.
Proof. unfold zsum. induction 1; simpl; lia. Qed.
Lemma uw_0 : uw 0 = 0. Proof. reflexivity. Qed.
Definition term' (X Y : list Z) (i j : nat) : Z := if (j <=? i)%nat then term X Y i j else 0.
Lemma conv_sum X Y i : conv X Y i = zsum (map (term' X Y i) (seq 0 (length X))).
Proof.
  revert i. induction X as [|x X IH]; intros i; [reflexivity|]. cbn [length seq map conv zsum fold_right].
  fold (zsum (map (term' (x :: X) Y i) (seq 1 (length X)))).
  replace (term' (x :: X) Y i 0) with (uw x * uw (nth i Y 0)) by (unfold term', term; simpl; rewrite Nat.sub_0_r; reflexivity).
  f_equal. rewrite <- seq_shift, map_map. destruct i as [|i].
  - symmetry. apply zsum_zero. apply Forall_forall. intros z Hz. apply in_map_iff in Hz. destruct Hz as (j & <- & _). reflexivity.
  - rewrite IH. f_equal. Qed.
Lemma colsum_conv X Y i : X <> [] -> Y <> [] -> colsum X Y (length X) (length Y) i = conv X Y i.
Proof.
  intros HX HY. rewrite conv_sum. unfold colsum, col_js.
  assert (1 <= length X)%nat by (destruct X; simpl; [congruence|lia]).
  assert (1 <= length Y)%nat by (destruct Y; simpl; [congruence|lia]).
  set (jmax := if (i <? length X)%nat then i else (length X - 1)%nat).
  set (kmax := if (i <? length Y)%nat then i else (length Y - 1)%nat).
  assert (Hj : (jmax < length X /\ jmax <= i)%nat) by (subst jmax; destruct (Nat.ltb_spec i (length X)); lia).
  assert (Hk : (kmax < length Y /\ kmax <= i)%nat) by (subst kmax; destruct (Nat.ltb_spec i (length Y)); lia).
  assert (Ez : forall j, (j <= i)%nat -> (kmax < i - j)%nat -> term X Y i j = 0).
  { intros j ? ?. unfold term. rewrite (nth_overflow Y); [rewrite uw_0; lia|]. subst kmax. destruct (Nat.ltb_spec i (length Y)); lia. }
  set (a := (i - kmax)%nat). set (m := (S jmax - a)%nat).
  destruct (le_lt_dec a (S jmax)) as [La|La].
  - replace (length X) with (a + (m + (length X - (a + m))))%nat by lia.
    rewrite !seq_app, !map_app, !zsum_app, Nat.add_0_l.
    replace (map (term' X Y i) (seq a m)) with (map (term X Y i) (seq a m)).
    2:{ apply map_ext_in. intros j Hin. apply in_seq in Hin. unfold term'. destruct (Nat.leb_spec j i); [reflexivity|lia]. }
    rewrite (zsum_zero (map _ (seq 0 a))).
    2:{ apply Forall_forall. intros z Hz. apply in_map_iff in Hz. destruct Hz as (j & <- & Hin). apply in_seq in Hin.
        unfold term'. destruct (Nat.leb_spec j i); [|reflexivity]. apply Ez; lia. }
    rewrite (zsum_zero (map _ (seq (a + m) _))); [lia|].
    apply Forall_forall. intros z Hz. apply in_map_iff in Hz. destruct Hz as (j & <- & Hin). apply in_seq in Hin.
    unfold term'. destruct (Nat.leb_spec j i); [|reflexivity]. subst jmax. destruct (Nat.ltb_spec i (length X)); lia.
  - replace m with 0%nat by lia. cbn [seq map]. symmetry. apply zsum_zero.
    apply Forall_forall. intros z Hz. apply in_map_iff in Hz. destruct Hz as (j & <- & Hin). apply in_seq in Hin.
    unfold term'. destruct (Nat.leb_spec j i); [|reflexivity]. apply Ez; [lia|].
    subst jmax. destruct (Nat.ltb_spec i (length X)); lia. Qed.
Fixpoint wsum (f : nat -> Z) (n : nat) : Z := match n with O => 0 | S n => f O + B * wsum (fun i => f (S i)) n end.
Lemma wsum_ext f g n : (forall i, f i = g i) -> wsum f n = wsum g n.
Proof. revert f g. induction n; simpl; intros; [reflexivity|]. rewrite H. f_equal. f_equal. apply IHn. auto. Qed.
Lemma wsum_add f g n : wsum (fun i => f i + g i) n = wsum f n + wsum g n.
Proof. revert f g. induction n; simpl; intros; [lia|]. rewrite IHn. lia. Qed.
Lemma wsum_digits k Y n : (length Y <= n)%nat -> wsum (fun i => k * uw (nth i Y 0)) n = k * uval Y.
Proof.
  revert n. induction Y as [|y Y IH]; intros n Hn.
  - simpl. rewrite (wsum_ext _ (fun _ => 0)).
    + clear. induction n; simpl in *; lia.
    + intros [|i]; simpl; rewrite uw_0; lia.
  - destruct n as [|n]; [simpl in Hn; lia|]. cbn [wsum uval nth]. rewrite IH by (simpl in Hn; lia). ring. Qed.
Lemma conv_prod X Y n : (length X + length Y <= n)%nat -> wsum (conv X Y) n = uval X * uval Y.
Proof.
  revert n. induction X as [|x X IH]; intros n Hn.
  - replace (uval [] * uval Y) with 0 by (simpl; lia). clear. induction n as [|n IH]; [reflexivity|]. cbn [wsum]. rewrite (wsum_ext _ (conv [] Y)) by reflexivity. rewrite IH. reflexivity.
  - rewrite (wsum_ext (conv (x :: X) Y) (fun i => uw x * uw (nth i Y 0) + match i with O => 0 | S i => conv X Y i end)) by reflexivity.
    rewrite wsum_add, wsum_digits by (simpl in Hn; lia). destruct n as [|n]; [simpl in Hn; lia|].
    cbn [wsum uval]. rewrite IH by (simpl in Hn; lia). ring. Qed.
Lemma colssum_prod X Y : X <> [] -> Y <> [] ->
  colssum X Y (length X) (length Y) 0 (length X + length Y) = uval X * uval Y.
Proof.
  intros HX HY. rewrite <- (conv_prod X Y (length X + length Y)) by lia.
  assert (G : forall n s, colssum X Y (length X) (length Y) s n = wsum (fun i => conv X Y (s + i)) n).
  { induction n as [|n IH]; intros s; cbn [colssum wsum]; [reflexivity|].
    rewrite colsum_conv, Nat.add_0_r, IH by auto. f_equal. f_equal. apply wsum_ext. intros i. f_equal. lia. }
  rewrite G. apply wsum_ext. reflexivity. Qed.

(** Only the first words are read. *)
Lemma mul_col_firstn X Y lx ly i js a : Forall (fun j => (j < lx)%nat /\ (i - j < ly)%nat) js ->
  mul_col X Y i js a = mul_col (firstn lx X) (firstn ly Y) i js a.
Proof.
  revert a. induction js as [|j js IH]; intros a Hf; [reflexivity|]. apply Forall_cons_iff in Hf; destruct Hf as [[H1 H2] Hf].
  assert (G : forall (Z0 : list Z) n k, (k < n)%nat -> nth_error (firstn n Z0) k = nth_error Z0 k).
  { clear. intros Z0 n k. revert Z0 k. induction n; intros [|z Z0] [|k] Hk; try lia; simpl; auto. apply IHn. lia. }
  cbn [mul_col]. rewrite !G by auto. destruct (nth_error X j), (nth_error Y (i - j)); auto. Qed.
Lemma mul_cols_firstn X Y lx ly is q0 q1 : (1 <= lx)%nat -> (1 <= ly)%nat ->
  mul_cols X Y lx ly is q0 q1 = mul_cols (firstn lx X) (firstn ly Y) lx ly is q0 q1.
Proof.
  intros H1 H2. revert q0 q1. induction is as [|i is IH]; intros q0 q1; [reflexivity|]. cbn [mul_cols].
  rewrite (mul_col_firstn X Y lx ly) at 1.
  2:{ apply Forall_forall. intros j Hj. unfold col_js in Hj. apply in_seq in Hj.
      destruct (Nat.ltb_spec i lx), (Nat.ltb_spec i ly); lia. }
  destruct (mul_col _ _ _ _ _); [|reflexivity]. cbn [obind]. rewrite IH. reflexivity. Qed.

Lemma len_pos x : ok x -> (1 <= length x)%nat.
Proof. intros [Hn _]. destruct x; simpl; [congruence|lia]. Qed.
Lemma abs_words x : canon x ->
  let ax := if cmp0 x <? 0 then arbi__neg x else x in
  (length x <= length ax)%nat /\ uval (firstn (length x) ax) = Z.abs (val x) /\
  (cmp0 x <? 0) = (val x <? 0).
Proof.
  intros Hx ax. pose proof (cmp0_spec x Hx) as Hc.
  assert (Hs : (cmp0 x <? 0) = (val x <? 0)) by (rewrite Hc; destruct (Z.ltb_spec (Z.sgn (val x)) 0), (Z.ltb_spec (val x) 0); lia).
  assert (Ha : canon ax /\ val ax = Z.abs (val x)).
  { subst ax. rewrite Hs. destruct (Z.ltb_spec (val x) 0); [|split; auto; lia].
    destruct (neg_spec x (proj1 Hx)); split; auto; lia. }
  destruct Ha as [Ca Va]. pose proof (val_range x (proj1 Hx)) as Hr. pose proof (len_pos x (proj1 Hx)).
  assert (Hl : (length x <= length ax)%nat).
  { destruct (le_lt_dec (length x) (length ax)) as [|Hl]; [auto|exfalso].
    pose proof (len_pos ax (proj1 Ca)).
    pose proof (val_trimmed x (proj1 Hx) (proj2 Hx) ltac:(lia)). pose proof (val_range ax (proj1 Ca)).
    pose proof (Bn_le (length ax - 1) (length x - 2) ltac:(lia)). bz. }
  split; [auto|]. split; [|auto]. rewrite uval_firstn; [auto|apply Ca| |auto].
  rewrite Va. assert (E : Bn (length x) = B * Bn (length x - 1)) by (rewrite <- Bn_S; f_equal; lia).
  pose proof (Bn_pos (length x - 1)). rewrite E. bz. Qed.
Lemma mlt_slow_spec x y : canon x -> canon y -> Z.of_nat (length x + length y) <= 32767 ->
  exists z, mlt_slow x y = Some z /\ canon z /\ val z = val x * val y.
Proof.
  intros Hx Hy HL. unfold mlt_slow.
  destruct (abs_words x Hx) as (Lx & Ux & Sx), (abs_words y Hy) as (Ly & Uy & Sy).
  set (ax := if cmp0 x <? 0 then _ else _) in *. set (ay := if cmp0 y <? 0 then _ else _) in *.
  pose proof (len_pos x (proj1 Hx)) as Px. pose proof (len_pos y (proj1 Hy)) as Py.
  rewrite mul_cols_firstn by auto. set (X := firstn (length x) ax) in *. set (Y := firstn (length y) ay) in *.
  assert (LX : length X = length x) by (apply firstn_length_le; auto).
  assert (LY : length Y = length y) by (apply firstn_length_le; auto).
  destruct (mul_cols_spec X Y (length x) (length y) ltac:(lia) ltac:(lia) Px Py HL (length x + length y) 0 0 0) as (r & c & E & Lr & Fr & Hc & Hu).
  1-2: unfold H32; lia.
  rewrite E. cbn [obind]. eexists. split; [reflexivity|].
  rewrite <- LX, <- LY in Hu. rewrite colssum_prod in Hu.
  2:{ intros E0. rewrite E0 in LX. simpl in LX. lia. }
  2:{ intros E0. rewrite E0 in LY. simpl in LY. lia. }
  rewrite Ux, Uy in Hu.
  assert (Hr : ok r) by (split; [intros ->; simpl in Lr; lia | auto]).
  pose proof (val_range x (proj1 Hx)) as Rx. pose proof (val_range y (proj1 Hy)) as Ry.
  assert (EB : Bn (length X + length Y) = B * B * (Bn (length x - 1) * Bn (length y - 1))).
  { rewrite LX, LY. rewrite Bn_add. replace (length x) with (S (length x - 1)) at 1 by lia. replace (length y) with (S (length y - 1)) at 1 by lia.
    rewrite !Bn_S. ring. }
  pose proof (Bn_pos (length x - 1)). pose proof (Bn_pos (length y - 1)).
  assert (HP : 0 <= Z.abs (val x) * Z.abs (val y) <= HB * Bn (length x - 1) * (HB * Bn (length y - 1))) by (split; nia).
  set (Q := Bn (length x - 1) * Bn (length y - 1)) in *. assert (0 < Q) by (subst Q; nia).
  replace (HB * Bn (length x - 1) * (HB * Bn (length y - 1))) with (HB * HB * Q) in HP by (subst Q; ring).
  pose proof (uval_range r) as Ru. rewrite Lr, <- LX, <- LY in Ru.
  assert (c = 0). { rewrite EB in *. unfold B, HB in *. set (P := Z.abs _ * _) in *. clearbody P. nia. }
  subst c. pose proof (val_uval r Hr) as Hv. rewrite Lr, <- LX, <- LY in Hv.
  pose proof (val_range r Hr) as Rr.
  assert (EB' : Bn (length X + length Y) = B * Bn (length r - 1)) by (rewrite <- Bn_S; f_equal; lia).
  assert (Hvr : val r = Z.abs (val x) * Z.abs (val y)).
  { destruct (Z.ltb_spec (val r) 0); [exfalso|lia].
    rewrite EB in *. set (P := Z.abs _ * _) in *. clearbody P. unfold B, HB in *. lia. }
  rewrite Sx, Sy. destruct (xorb _ _) eqn:Ex.
  - destruct (neg_spec r Hr) as [C1 V1]. rewrite (trim_canon _ C1). split; [auto|]. rewrite V1, Hvr.
    destruct (Z.ltb_spec (val x) 0), (Z.ltb_spec (val y) 0); try discriminate; nia.
  - destruct (trim_spec r Hr) as [C1 V1]. split; [auto|]. rewrite V1, Hvr.
    destruct (Z.ltb_spec (val x) 0), (Z.ltb_spec (val y) 0); try discriminate; nia.
Qed.

Lemma quot_exact wx wy k : word wx -> wx <> 0 -> wy = Z.quot (wx * wy + k * B) wx -> k = 0.
Proof.
  intros Hx Hn Hq. pose proof (Z.quot_rem (wx * wy + k * B) wx Hn) as E. rewrite <- Hq in E.
  pose proof (Z.rem_bound_abs (wx * wy + k * B) wx Hn). bz. Qed.
Lemma mlt_spec x y : canon x -> canon y -> Z.of_nat (length x + length y) <= 32767 ->
  ~ (val x = -1 /\ val y = MinWord) ->
  exists z, arbi__mlt x y = Some z /\ canon z /\ val z = val x * val y.
Proof.
  intros Hx Hy HL Ht. pose proof (mlt_slow_spec x y Hx Hy HL) as Hs. unfold arbi__mlt.
  destruct x as [|wx [|]], y as [|wy [|]]; try exact Hs. simpl val in *.
  destruct Hx as [Hx _], Hy as [Hy _]. apply ok_one in Hx. apply ok_one in Hy.
  assert (C0 : canon [0]) by (apply canon_one; bz).
  destruct (Z.eqb_spec wx 0) as [->|Nx]; [exists [0]; split; [reflexivity|]; split; [auto|simpl; lia]|].
  destruct (Z.eqb_spec wy 0) as [->|Ny]; [exists [0]; split; [reflexivity|]; split; [auto|simpl; lia]|].
  cbn [orb]. pose proof (wrap_word (wx * wy)) as Hw. destruct (wrap_eq (wx * wy)) as [k Hk]. set (wp := wrap _) in *.
  unfold cdiv at 1. destruct (Z.eqb_spec wx 0) as [|_]; [congruence|]. cbn [orb].
  destruct (Z.eqb_spec wp MinWord) as [Em|Em]; cbn [andb].
  - destruct (Z.eqb_spec wx (-1)) as [->|Nm].
    + exfalso. apply Ht. split; [auto|]. rewrite Em in Hk. bz.
    + cbn [obind]. destruct (Z.eqb_spec wy (Z.quot wp wx)) as [Eq|Eq]; [|exact Hs].
      rewrite Hk in Eq. assert (k = 0) by exact (quot_exact wx wy k Hx Nx Eq). subst k.
      unfold cdiv. destruct (Z.eqb_spec wy 0) as [|_]; [congruence|]. cbn [orb].
      destruct (Z.eqb_spec wp MinWord); [|congruence]. destruct (Z.eqb_spec wy (-1)) as [->|]; cbn [andb obind].
      * exfalso. rewrite Em in Hk. assert (wx = HB) by bz. bz.
      * destruct (_ =? _); [|exact Hs]. exists [wp]. split; [reflexivity|]. split; [apply canon_one; auto|]. simpl. lia.
  - cbn [obind]. destruct (Z.eqb_spec wy (Z.quot wp wx)) as [Eq|Eq]; [|exact Hs].
    rewrite Hk in Eq. assert (k = 0) by exact (quot_exact wx wy k Hx Nx Eq). subst k.
    unfold cdiv. destruct (Z.eqb_spec wy 0) as [|_]; [congruence|]. cbn [orb].
    destruct (Z.eqb_spec wp MinWord); [congruence|]. cbn [andb obind].
    destruct (_ =? _); [|exact Hs]. exists [wp]. split; [reflexivity|]. split; [apply canon_one; auto|]. simpl. lia.
Qed.
