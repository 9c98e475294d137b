(* Proofs on bits needed and ranges of integers. *)
From Coq Require Import List ZArith Lia Sorting.Sorted.
From Verif Require Import RandModel RandSpec RandThms BitsModel BitsSpec.
Import ListNotations.
Local Open Scope Z_scope.

Lemma lo n j : 0 < n -> 0 <= j -> n < 2 ^ j -> Z.log2 n < j.
Proof. intros P J L. now apply Z.log2_lt_pow2. Qed.

Lemma sbits n : exists k, sbits_needed n = Some k /\ least (signed_fits n) k.
Proof.
  unfold sbits_needed. destruct (Z.eqb_spec n 0) as [->|N].
  { exists 1. split; [reflexivity|]. split; [|intros j [J _]; exact J].
    split; [lia|]. cbn. lia. }
  destruct (Z.ltb_spec 0 n) as [P|P].
  - rewrite log2_spec by exact P. rewrite ipow_spec by apply Z.log2_nonneg.
    destruct (Z.log2_spec n P) as [A B]. rewrite <- Z.add_1_r in B.
    pose proof (Z.log2_nonneg n) as G.
    destruct (Z.leb_spec (2 ^ Z.log2 n) n) as [_|F]; [|lia].
    exists (Z.log2 n + 2). split; [reflexivity|]. split.
    + split; [lia|]. replace (Z.log2 n + 2 - 1) with (Z.log2 n + 1) by lia. lia.
    + intros j (J & _ & L). apply lo in L; lia.
  - cbv zeta. set (m := -1 * n). assert (M : 0 < m) by (unfold m; lia).
    rewrite log2_spec by exact M. rewrite ipow_spec by apply Z.log2_nonneg.
    destruct (Z.log2_spec m M) as [A B]. rewrite <- Z.add_1_r in B.
    pose proof (Z.log2_nonneg m) as G.
    destruct (Z.ltb_spec (2 ^ Z.log2 m) m) as [L|L].
    + exists (Z.log2 m + 2). split; [reflexivity|]. split.
      * split; [lia|]. replace (Z.log2 m + 2 - 1) with (Z.log2 m + 1) by lia. unfold m in *. lia.
      * intros j (J & K & _).
        assert (Q : 2 ^ Z.log2 m < 2 ^ (j - 1)) by (unfold m in *; lia).
        apply Z.pow_lt_mono_r_iff in Q; lia.
    + exists (Z.log2 m + 1). split; [reflexivity|]. split.
      * split; [lia|]. replace (Z.log2 m + 1 - 1) with (Z.log2 m) by lia. unfold m in *. lia.
      * intros j (J & K & _).
        assert (Q : 2 ^ Z.log2 m <= 2 ^ (j - 1)) by (unfold m in *; lia).
        apply Z.pow_le_mono_r_iff in Q; lia.
Qed.

Lemma ubits n : 0 <= n -> exists k, ubits_needed n = Some k /\ least (unsigned_fits n) k.
Proof.
  intros P. unfold ubits_needed. destruct (Z.ltb_spec n 0); [lia|].
  destruct (Z.eqb_spec n 0) as [->|N].
  { exists 1. split; [reflexivity|]. split; [|intros j [J _]; exact J].
    split; [lia|]. cbn. lia. }
  assert (M : 0 < n) by lia.
  rewrite log2_spec by exact M. rewrite ipow_spec by apply Z.log2_nonneg.
  destruct (Z.log2_spec n M) as [A B]. rewrite <- Z.add_1_r in B.
  pose proof (Z.log2_nonneg n) as G.
  destruct (Z.leb_spec (2 ^ Z.log2 n) n) as [_|F]; [|lia].
  exists (Z.log2 n + 1). split; [reflexivity|]. split; [split; lia|].
  intros j (J & _ & L). apply lo in L; lia.
Qed.

Lemma ubits_none n : n < 0 -> ubits_needed n = None.
Proof. intros L. unfold ubits_needed. destruct (Z.ltb_spec n 0); [reflexivity|lia]. Qed.

Lemma nearest n : 0 < n ->
  exists p, nearest_power_of_2 n = Some p /\ power_of_two p /\ n <= p < 2 * n.
Proof.
  intros P. unfold nearest_power_of_2. pose proof (Z.log2_nonneg n) as G.
  rewrite log2_spec by exact P. rewrite ipow_spec by exact G. rewrite ipow_spec by lia.
  destruct (Z.log2_spec n P) as [A B]. rewrite <- Z.add_1_r in B.
  destruct (Z.eqb_spec (2 ^ Z.log2 n) n) as [E|E].
  - exists n. split; [reflexivity|]. split; [|lia]. exists (Z.log2 n). split; [exact G|now symmetry].
  - exists (2 ^ (Z.log2 n + 1)). split; [reflexivity|]. split.
    + exists (Z.log2 n + 1). split; [lia|reflexivity].
    + rewrite Z.pow_add_r in * by lia. lia.
Qed.

Lemma nearest_none n : n <= 0 -> nearest_power_of_2 n = None.
Proof. intros L. unfold nearest_power_of_2, log2. destruct (Z.leb_spec n 0); [reflexivity|lia]. Qed.

Lemma gen_up_spec fuel : forall i t, t - i + 1 <= Z.of_nat fuel ->
  exists l, gen_up fuel i t = Some l /\ increasing l i t.
Proof.
  induction fuel as [|fuel IH]; intros i t H; cbn [gen_up]; destruct (Z.ltb_spec t i) as [L|L].
  1,3: exists []; split; [reflexivity|]; split; [constructor|]; intros x; cbn; lia.
  - lia.
  - destruct (IH (i + 1) t) as (l & E & S & I); [lia|]. rewrite E.
    exists (i :: l). split; [reflexivity|]. split.
    + constructor; [exact S|]. apply Forall_forall. intros x X. apply I in X. lia.
    + intros x. cbn. rewrite I. lia.
Qed.
Lemma gen_down_spec fuel : forall i t, i - t + 1 <= Z.of_nat fuel ->
  exists l, gen_down fuel i t = Some l /\ decreasing l t i.
Proof.
  induction fuel as [|fuel IH]; intros i t H; cbn [gen_down]; destruct (Z.ltb_spec i t) as [L|L].
  1,3: exists []; split; [reflexivity|]; split; [constructor|]; intros x; cbn; lia.
  - lia.
  - destruct (IH (i - 1) t) as (l & E & S & I); [lia|]. rewrite E.
    exists (i :: l). split; [reflexivity|]. split.
    + constructor; [exact S|]. apply Forall_forall. intros x X. apply I in X. lia.
    + intros x. cbn. rewrite I. lia.
Qed.

Lemma upto_spec f t : exists l, upto f t = Some l /\ increasing l f t.
Proof. apply gen_up_spec. lia. Qed.
Lemma downto_spec f t : exists l, downto f t = Some l /\ decreasing l t f.
Proof. apply gen_down_spec. lia. Qed.
Lemma range_spec f t :
  exists l, BitsModel.range f t = Some l /\
    (f <= t -> increasing l f t) /\ (t <= f -> decreasing l t f).
Proof.
  unfold BitsModel.range. destruct (Z.ltb_spec f t) as [L|L].
  - destruct (upto_spec f t) as (l & E & I). exists l. split; [exact E|]. split; [intros _; exact I|lia].
  - destruct (downto_spec f t) as (l & E & I). exists l. split; [exact E|].
    split; [|intros _; exact I]. intros G. assert (f = t) as -> by lia.
    unfold downto in E. replace (t - t + 1) with 1 in E by lia.
    change (Z.to_nat 1) with 1%nat in E. cbn [gen_down] in E. rewrite Z.ltb_irrefl in E. destruct (Z.ltb_spec (t - 1) t); [|lia]. injection E as <-.
    split; [repeat constructor|apply I].
Qed.
