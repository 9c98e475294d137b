(* Lemmas on buffers. *)
From Coq Require Import List Arith NArith ZArith Bool Lia Permutation.
From Verif Require Import HashModel HashThms BufModel BufSpec.
Import ListNotations.
Local Open Scope N_scope.

Lemma w32_id x : x < 2 ^ 32 -> w32 x = x.
Proof. intros H. apply N.mod_small, H. Qed.
Lemma len_app {A} (a b : list A) : len (a ++ b) = len a + len b.
Proof. unfold len. rewrite app_length. lia. Qed.
Lemma len_cons {A} (a : A) b : len (a :: b) = len b + 1.
Proof. unfold len. cbn [length]. lia. Qed.
Lemma len_zeros n : len (zeros n) = n.
Proof. unfold len, zeros. rewrite repeat_length. lia. Qed.

Lemma read_app a x c : read_at (a ++ x ++ c) (len a) (len x) = Some x.
Proof.
  unfold read_at, len. rewrite !app_length.
  destruct (N.leb_spec (N.of_nat (length a) + N.of_nat (length x)) (N.of_nat (length a + (length x + length c)))); [|lia].
  rewrite !Nat2N.id. rewrite skipn_app, skipn_all, Nat.sub_diag. cbn [app skipn].
  rewrite firstn_app, firstn_all, Nat.sub_diag. cbn [firstn]. now rewrite app_nil_r.
Qed.
Lemma write_app a x c y : len y = len x -> write_at (a ++ x ++ c) (len a) y = Some (a ++ y ++ c).
Proof.
  unfold write_at, len. intros L. apply Nat2N.inj in L. rewrite !app_length.
  destruct (N.leb_spec (N.of_nat (length a) + N.of_nat (length y)) (N.of_nat (length a + (length x + length c)))); [|lia].
  rewrite !Nat2N.id. rewrite firstn_app, firstn_all, Nat.sub_diag. cbn [firstn]. rewrite app_nil_r.
  rewrite L. rewrite (app_assoc a x c), skipn_app, skipn_all2 by (rewrite app_length; lia).
  rewrite app_length. replace (length a + length x - (length a + length x))%nat with 0%nat by lia.
  reflexivity.
Qed.

Section Buf.
Variable s : N.
Hypothesis s_pos : 0 < s.

Definition sized (l : list bytes) : Prop := Forall (fun x => len x = s) l.
Lemma len_concat l : sized l -> len (concat l) = s * len l.
Proof using s_pos.
  induction 1 as [|x l E F IH]; [cbn; lia|]. cbn [concat]. rewrite len_app, len_cons, E, IH. lia.
Qed.
Lemma sized_app a b : sized (a ++ b) <-> sized a /\ sized b.
Proof using s_pos. apply Forall_app. Qed.
Lemma sized_repeat n : sized (repeat (blank s) n).
Proof using s_pos.
  apply Forall_forall. intros x I. apply repeat_spec in I. subst. apply len_zeros.
Qed.
Lemma concat_blank n : concat (repeat (blank s) n) = zeros (s * N.of_nat n).
Proof using s_pos.
  unfold blank, zeros. induction n as [|n IH]; [now rewrite N.mul_0_r|].
  cbn [repeat concat]. rewrite IH, <- repeat_app. f_equal. lia.
Qed.

(* The buffer holds the items *)
Definition rep (b : buffer) (l : list bytes) : Prop :=
  b_item b = s /\ b_size b = len l /\ sized l /\ len (b_data b) = b_alloc b /\
  0 < b_alloc b /\ b_alloc b < 2 ^ 32 /\ (exists c, b_alloc b = s * c) /\
  exists rest, b_data b = concat l ++ rest.

Lemma rep_new n : s * n < 2 ^ 32 -> s < 2 ^ 32 -> rep (new_buf n s) [].
Proof using s_pos.
  intros L Ls. unfold new_buf. set (m := if n <? 1 then 1 else n).
  assert (M : 1 <= m /\ s * m < 2 ^ 32) by (unfold m; destruct (N.ltb_spec n 1); lia).
  rewrite w32_id by lia. unfold rep. cbn [b_item b_size b_data b_alloc].
  split; [reflexivity|]. split; [reflexivity|]. split; [constructor|]. split; [apply len_zeros|].
  split; [nia|]. split; [lia|]. split; [exists m; lia|]. eexists. reflexivity.
Qed.
Lemma rep_len b l : rep b l -> s * len l <= b_alloc b.
Proof using s_pos.
  intros (E1 & E2 & Z & D & _ & _ & _ & rest & R). rewrite <- D, R, len_app, len_concat by assumption. lia.
Qed.

Lemma split_nth (l : list bytes) i : i < len l ->
  exists a x c, l = a ++ x :: c /\ len a = i /\ at_ l i = x /\ a = firstn (N.to_nat i) l /\
    c = skipn (S (N.to_nat i)) l.
Proof using s_pos.
  unfold len, at_. intros L. exists (firstn (N.to_nat i) l), (nth (N.to_nat i) l []), (skipn (S (N.to_nat i)) l).
  split; [|split; [rewrite firstn_length; lia|auto]].
  rewrite <- (firstn_skipn (N.to_nat i) l) at 1. f_equal.
  assert (L' : (N.to_nat i < length l)%nat) by lia. clear L. revert L'. generalize (N.to_nat i) as j.
  induction l as [|y l IH]; intros [|j] L'; cbn in *; try lia; [reflexivity|]. apply IH. lia.
Qed.

Lemma read_item b l i : rep b l -> i < len l ->
  read_at (b_data b) (w32 (i * b_item b)) (b_item b) = Some (at_ l i).
Proof using s_pos.
  intros H L. pose proof (rep_len b l H) as Lb.
  destruct H as (E1 & E2 & Z & D & Pa & La & C & rest & R).
  destruct (split_nth l i L) as (a & x & c & El & Ea & Ex & _). rewrite Ex, R, El, E1.
  rewrite El in Z. apply sized_app in Z. destruct Z as [Za Zx]. inversion Zx as [|y z Lx Zc]; subst y z.
  rewrite concat_app. cbn [concat]. rewrite <- app_assoc, <- app_assoc.
  rewrite w32_id by nia. replace (i * s) with (len (concat a)) by (rewrite len_concat, Ea by assumption; lia).
  rewrite <- Lx. apply read_app.
Qed.

Lemma grow_rep b l n : rep b l -> len l <= n -> 0 < n -> s * n < 2 ^ 32 ->
  exists b', grow b n = Some b' /\ rep b' l /\ b_alloc b' = s * n.
Proof using s_pos.
  intros H L P B. pose proof (rep_len b l H) as Lb.
  destruct H as (E1 & E2 & Z & D & Pa & La & C & rest & R). unfold grow. rewrite E1, E2, R.
  rewrite !w32_id by nia. replace (len l * s) with (len (concat l)) by (rewrite len_concat by assumption; lia).
  pose proof (read_app [] (concat l) rest) as Q. cbn [app] in Q. change (len (@nil N)) with 0 in Q. rewrite Q.
  assert (W : write_at (zeros (n * s)) 0 (concat l) = Some (concat l ++ zeros ((n - len l) * s))).
  { replace (zeros (n * s)) with ([] ++ zeros (len l * s) ++ zeros ((n - len l) * s)).
    - change 0 with (len (@nil N)). rewrite write_app; [reflexivity|]. rewrite len_zeros, len_concat by assumption. lia.
    - cbn [app]. unfold zeros. rewrite <- repeat_app. f_equal. nia. }
  rewrite W. eexists. split; [reflexivity|]. unfold rep. cbn [b_item b_size b_data b_alloc].
  split; [|lia]. split; [reflexivity|]. split; [reflexivity|]. split; [exact Z|].
  split; [rewrite len_app, len_concat, len_zeros by assumption; nia|].
  split; [nia|]. split; [lia|]. split; [exists n; lia|]. eexists. reflexivity.
Qed.

Lemma write_rest b l x n : rep b l -> len x = s * n -> s * (len l + n) <= b_alloc b ->
  exists rest', write_at (b_data b) (s * len l) x = Some (concat l ++ x ++ rest') /\
    len (concat l ++ x ++ rest') = b_alloc b.
Proof using s_pos.
  intros (E1 & E2 & Z & D & Pa & La & C & rest & R) Lx B.
  assert (Lr : s * len l + len rest = b_alloc b) by (rewrite <- D, R, len_app, len_concat by assumption; lia).
  exists (skipn (length x) rest).
  assert (Q : len (firstn (length x) rest) = len x).
  { unfold len in *. rewrite firstn_length. nia. }
  rewrite R. rewrite <- (firstn_skipn (length x) rest) at 1.
  replace (s * len l) with (len (concat l)) by (apply len_concat; assumption).
  rewrite write_app by (now rewrite Q). split; [reflexivity|].
  rewrite !len_app, len_concat by assumption.
  unfold len in *. rewrite skipn_length. nia.
Qed.

Lemma push_rep b l x : rep b l -> len x = s -> 2 * s * len l < 2 ^ 32 -> s * (len l + 1) < 2 ^ 32 ->
  exists b', push_buf b x = Some b' /\ rep b' (l ++ [x]).
Proof using s_pos.
  intros H Lx B B1. assert (G : exists b1, (if b_alloc b <=? w32 (b_item b * b_size b)
      then grow b (w32 (2 * b_size b)) else Some b) = Some b1 /\ rep b1 l /\ s * (len l + 1) <= b_alloc b1).
  { pose proof (rep_len b l H) as Lb. pose proof H as (E1 & E2 & Z & D & Pa & La & (c & C) & rest & R).
    rewrite E1, E2. rewrite !w32_id by nia.
    destruct (N.leb_spec (b_alloc b) (s * len l)) as [F|F].
    - assert (P : 1 <= len l) by (destruct (N.eq_dec (len l) 0) as [E0|]; [rewrite E0 in F; lia|lia]).
      destruct (grow_rep b l (2 * len l) H) as (b1 & Eg & Rg & Ag); [lia|lia|lia|].
      exists b1. split; [exact Eg|]. split; [exact Rg|]. rewrite Ag. apply N.mul_le_mono_l. lia.
    - exists b. split; [reflexivity|]. split; [exact H|]. rewrite C in *.
      apply N.mul_le_mono_l. apply N.mul_lt_mono_pos_l in F; lia. }
  destruct G as (b1 & E & H1 & L1). unfold push_buf. rewrite E.
  pose proof H1 as (E1 & E2 & Z & D & Pa & La & C & rest & R). rewrite E1, E2.
  destruct (write_rest b1 l x 1 H1) as (rest' & Wr & Lw); [lia|lia|].
  rewrite !w32_id by nia. rewrite Wr. eexists. split; [reflexivity|].
  unfold rep. cbn [b_item b_size b_data b_alloc]. split; [reflexivity|].
  split; [rewrite len_app; reflexivity|]. split; [apply sized_app; split; [exact Z|repeat constructor; exact Lx]|].
  split; [exact Lw|]. split; [exact Pa|]. split; [exact La|]. split; [exact C|].
  exists rest'. rewrite concat_app. cbn [concat]. now rewrite app_nil_r, <- app_assoc.
Qed.

Lemma at_last (l : list bytes) : l <> [] -> at_ l (len l - 1) = last l [].
Proof using s_pos.
  intros N. destruct (exists_last N) as (l' & x & ->). rewrite last_last.
  unfold at_, len. rewrite app_length. cbn [length].
  replace (N.to_nat (N.of_nat (length l' + 1) - 1)) with (length l') by lia.
  rewrite app_nth2 by lia. now rewrite Nat.sub_diag.
Qed.
Lemma len_pos (l : list bytes) : l <> [] -> 0 < len l.
Proof using s_pos. destruct l; [tauto|]. rewrite len_cons. lia. Qed.

Lemma shrink_rep b l n : rep b l -> n <= len l ->
  rep (mkB n (b_item b) (b_alloc b) (b_data b)) (firstn (N.to_nat n) l).
Proof using s_pos.
  intros (E1 & E2 & Z & D & Pa & La & C & rest & R) L. unfold rep. cbn [b_item b_size b_data b_alloc].
  pose proof (firstn_skipn (N.to_nat n) l) as FS. rewrite <- FS in Z. apply sized_app in Z.
  split; [exact E1|]. split; [unfold len in *; rewrite firstn_length; lia|]. split; [tauto|].
  split; [exact D|]. split; [exact Pa|]. split; [exact La|]. split; [exact C|].
  exists (concat (skipn (N.to_nat n) l) ++ rest). rewrite R. rewrite <- FS at 1.
  now rewrite concat_app, <- app_assoc.
Qed.

Lemma pop_rep b l : rep b l -> l <> [] ->
  exists b', pop_buf b = Some (last l [], b') /\ rep b' (removelast l).
Proof using s_pos.
  intros H N. pose proof (len_pos l N) as P. pose proof H as (E1 & E2 & _). unfold pop_buf. rewrite E2.
  destruct (N.eqb_spec (len l) 0); [lia|]. rewrite (read_item b l) by (assumption || lia).
  rewrite at_last by assumption. eexists. split; [reflexivity|].
  destruct (exists_last N) as (l' & x & ->). rewrite removelast_last.
  pose proof (shrink_rep b (l' ++ [x]) (len (l' ++ [x]) - 1) H) as Q.
  replace (firstn (N.to_nat (len (l' ++ [x]) - 1)) (l' ++ [x])) with l' in Q.
  - apply Q. lia.
  - rewrite len_app. unfold len. cbn [length]. replace (N.to_nat _) with (length l') by lia.
    rewrite firstn_app, firstn_all, Nat.sub_diag. cbn [firstn]. now rewrite app_nil_r.
Qed.

Lemma store_rep b l i x : rep b l -> len x = s -> i < len l ->
  exists b', store_buf b i x = Some b' /\ rep b' (set_nth l i x).
Proof using s_pos.
  intros H Lx L. pose proof (rep_len b l H) as Lb. pose proof H as (E1 & E2 & Z & D & Pa & La & C & rest & R).
  unfold store_buf. rewrite E1, E2. destruct (N.ltb_spec i (len l)); [|lia].
  destruct (split_nth l i L) as (a & y & c & El & Ea & Ey & Fa & Fc).
  unfold set_nth. rewrite <- Fa, <- Fc. rewrite w32_id by nia.
  rewrite El in Z. apply sized_app in Z. destruct Z as [Za Zy]. inversion Zy as [|u v Ly Zc]; subst u v.
  assert (R' : b_data b = concat a ++ y ++ concat c ++ rest).
  { rewrite R, El, concat_app. cbn [concat]. now rewrite <- !app_assoc. }
  rewrite R'. replace (i * s) with (len (concat a)) by (rewrite len_concat, Ea by assumption; lia).
  rewrite write_app by congruence. eexists. split; [reflexivity|]. unfold rep. cbn [b_item b_size b_data b_alloc].
  split; [reflexivity|]. split; [rewrite El, !len_app, !len_cons; reflexivity|].
  split; [apply sized_app; split; [exact Za|constructor; assumption]|].
  split; [rewrite <- D, R', !len_app, Lx, Ly; reflexivity|]. split; [exact Pa|]. split; [exact La|].
  split; [exact C|]. exists rest. rewrite concat_app. cbn [concat]. now rewrite <- !app_assoc.
Qed.

Lemma resized_small l n : n <= len l -> resized s l n = firstn (N.to_nat n) l.
Proof using s_pos.
  intros L. unfold resized, len in *. rewrite firstn_app.
  replace (N.to_nat n - length l)%nat with 0%nat by lia. cbn. apply app_nil_r.
Qed.
Lemma resized_big l n : len l <= n -> resized s l n = l ++ repeat (blank s) (N.to_nat n - length l).
Proof using s_pos.
  intros L. unfold resized, len in *. rewrite firstn_all2; [reflexivity|].
  rewrite app_length, repeat_length. lia.
Qed.

Lemma resize_rep b l n : rep b l -> s * n < 2 ^ 32 ->
  exists b', resize_buf b n = Some b' /\ rep b' (resized s l n).
Proof using s_pos.
  intros H B. pose proof (rep_len b l H) as Lb. pose proof H as (E1 & E2 & Z & D & Pa & La & C & rest & R).
  unfold resize_buf. rewrite E2. destruct (N.ltb_spec n (len l)) as [L|L].
  { eexists. split; [reflexivity|]. rewrite resized_small by lia. apply shrink_rep; [exact H|lia]. }
  assert (G : exists b1, (if b_alloc b <=? w32 (b_item b * n) then grow b n else Some b) = Some b1 /\
    rep b1 l /\ s * n <= b_alloc b1).
  { rewrite E1. rewrite w32_id by lia. destruct (N.leb_spec (b_alloc b) (s * n)) as [F|F].
    - destruct (grow_rep b l n H) as (b1 & Eg & Rg & Ag); [lia|nia|lia|]. exists b1.
      split; [exact Eg|]. split; [exact Rg|]. lia.
    - exists b. split; [reflexivity|]. split; [exact H|lia]. }
  destruct G as (b1 & -> & H1 & L1). rewrite resized_big by exact L.
  clear E1 E2 Z D Pa La C rest R Lb H. pose proof H1 as (E1 & E2 & Z & D & Pa & La & C & rest & R).
  rewrite E1, E2. rewrite !w32_id by nia.
  replace (len l * s) with (s * len l) by lia.
  destruct (write_rest b1 l (zeros ((n - len l) * s)) (n - len l) H1) as (rest' & Wr & Lw).
  { rewrite len_zeros. lia. }
  { nia. }
  rewrite Wr. eexists. split; [reflexivity|]. unfold rep. cbn [b_item b_size b_data b_alloc].
  split; [reflexivity|]. split; [rewrite len_app; unfold len in *; rewrite repeat_length; lia|].
  split; [apply sized_app; split; [exact Z|apply sized_repeat]|]. split; [exact Lw|].
  split; [exact Pa|]. split; [exact La|]. split; [exact C|]. exists rest'.
  rewrite concat_app, concat_blank, <- app_assoc. do 2 f_equal. f_equal. unfold len. lia.
Qed.

Lemma locate_rep b l i : rep b l -> s * (i + 1) < 2 ^ 32 ->
  exists b', locate_buf b i = Some (fst (sp_step s (BLocate i) l), b') /\
    rep b' (snd (sp_step s (BLocate i) l)).
Proof using s_pos.
  intros H B. unfold locate_buf. cbn [sp_step]. pose proof H as (E1 & E2 & _). rewrite E2.
  assert (RD : forall b l, rep b l -> i < len l ->
    match locate b i with
    | Some off => match read_at (b_data b) off (b_item b) with Some x => Some (x, b) | None => None end
    | None => None end = Some (at_ l i, b)).
  { intros b0 l0 H0 L0. unfold locate. pose proof H0 as (F1 & F2 & _). rewrite F2.
    destruct (N.leb_spec i (len l0)); [|lia]. now rewrite (read_item b0 l0). }
  destruct (N.leb_spec (len l) i) as [L|L].
  - rewrite w32_id by nia. destruct (resize_rep b l (i + 1) H B) as (b1 & -> & H1).
    cbn [fst snd]. exists b1. split; [|exact H1]. rewrite resized_big in * by lia.
    rewrite (RD b1 _ H1) by (rewrite len_app; unfold len in *; rewrite repeat_length; lia).
    do 2 f_equal. unfold at_, len in *. rewrite app_nth2 by lia.
    apply (repeat_spec (N.to_nat (i + 1) - length l)). apply nth_In. rewrite repeat_length. lia.
  - cbn [fst snd]. exists b. split; [|exact H]. now apply RD.
Qed.

Lemma step_rep o b l : rep b l -> allowed s o l -> (match o with BPush _ => s * (len l + 1) < 2 ^ 32 | _ => True end) ->
  exists b', bstep o b = Some (fst (sp_step s o l), b') /\ rep b' (snd (sp_step s o l)).
Proof using s_pos.
  intros H A X. pose proof H as (E1 & E2 & _).
  destruct o as [x| |i x|i|n|i| | |]; cbn [allowed bstep] in *.
  - destruct A as [Lx B]. unfold blank in Lx. rewrite len_zeros in Lx.
    destruct (push_rep b l x H Lx B X) as (b' & -> & H'). exists b'. split; [reflexivity|exact H'].
  - exact (pop_rep b l H A).
  - destruct A as [Lx B]. unfold blank in Lx. rewrite len_zeros in Lx.
    destruct (store_rep b l i x H Lx B) as (b' & -> & H'). exists b'. split; [reflexivity|exact H'].
  - exists b. split; [|exact H]. cbn [sp_step fst]. unfold fetch_buf, locate. rewrite E2.
    destruct (N.leb_spec i (len l)) as [L|L].
    + rewrite (read_item b l) by (assumption || lia). reflexivity.
    + unfold at_. rewrite nth_overflow by (unfold len in L; lia). reflexivity.
  - destruct (resize_rep b l n H A) as (b' & -> & H'). exists b'. split; [reflexivity|exact H'].
  - exact (locate_rep b l i H A).
  - exists b. split; [|exact H]. cbn [sp_step fst]. unfold top_of_buf, locate. rewrite E2.
    pose proof (len_pos l A). destruct (N.eqb_spec (len l) 0); [lia|].
    destruct (N.leb_spec (len l - 1) (len l)); [|lia]. rewrite (read_item b l) by (assumption || lia).
    now rewrite at_last.
  - exists b. cbn [sp_step fst snd]. now rewrite E2.
  - exists b. cbn [sp_step fst snd]. now rewrite E2.
Qed.

Hypothesis s_small : s < 2 ^ 32.
Lemma run_rep o : forall b l, rep b l -> proper s o l ->
  exists b', brun o b = Some (fst (sp_run s o l), b') /\ rep b' (snd (sp_run s o l)).
Proof using s_pos s_small.
  induction o as [|a o IH]; intros b l H P; cbn [brun sp_run].
  { exists b. split; [reflexivity|exact H]. }
  destruct P as [A P].
  destruct (step_rep a b l H A) as (b1 & E1 & H1).
  { destruct a; auto. destruct A as [_ A]. destruct (N.eq_dec (len l) 0) as [E0|N0].
    - rewrite E0. lia.
    - apply N.le_lt_trans with (2 * s * len l); [|exact A].
      replace (2 * s * len l) with (s * (2 * len l)) by lia. apply N.mul_le_mono_l. lia. }
  rewrite E1. destruct (IH b1 _ H1 P) as (b2 & E2 & H2). rewrite E2.
  destruct (sp_step s a l) as [x l1]. cbn [fst snd] in *.
  destruct (sp_run s o l1) as [r l2]. exists b2. split; [reflexivity|exact H2].
Qed.

(* Pushing on a full block of 2 GB *)
Lemma push_wraps b l x : rep b l -> s * len l = 2 ^ 31 -> b_alloc b = s * len l ->
  push_buf b x = None.
Proof using s_pos s_small.
  intros H F A. pose proof H as (E1 & E2 & Z & D & _ & _ & _ & rest & R).
  unfold push_buf. rewrite E1, E2, A. rewrite w32_id by (rewrite F; reflexivity).
  rewrite N.leb_refl. unfold grow. rewrite E1, E2.
  assert (W : w32 (w32 (2 * len l) * s) = 0).
  { unfold w32. rewrite N.mul_mod_idemp_l by discriminate.
    replace (2 * len l * s) with (2 * (s * len l)) by lia. rewrite F. reflexivity. }
  rewrite W. replace (len l * s) with (s * len l) by lia. rewrite (w32_id (s * len l)) by (rewrite F; reflexivity).
  pose proof (read_app [] (concat l) rest) as Q. cbn [app] in Q. change (len (@nil N)) with 0 in Q.
  rewrite len_concat in Q by assumption. rewrite R, Q. unfold write_at.
  change (N.of_nat (length (zeros 0))) with 0. fold (len (concat l)). rewrite len_concat, F by assumption.
  reflexivity.
Qed.

Lemma resize_alloc b l n b' : rep b l -> len l <= n -> s * n < 2 ^ 32 -> b_alloc b <= s * n ->
  resize_buf b n = Some b' -> b_alloc b' = s * n.
Proof using s_pos s_small.
  intros (E1 & E2 & _) L B A. unfold resize_buf. rewrite E2.
  destruct (N.ltb_spec n (len l)); [lia|]. rewrite E1, (w32_id (s * n)) by exact B.
  destruct (N.leb_spec (b_alloc b) (s * n)); [|lia]. unfold grow. rewrite E1, E2.
  replace (n * s) with (s * n) by lia. rewrite (w32_id (s * n)) by exact B.
  destruct (read_at _ _ _); [|discriminate]. destruct (write_at _ _ _); [|discriminate].
  destruct (write_at _ _ _); [|discriminate]. intros E. injection E as <-. reflexivity.
Qed.

(* Distinct items *)
Lemma chars_id x : len x = s -> chars (N.to_nat s) x = x.
Proof using s_pos s_small.
  intros L. replace (N.to_nat s) with (length x) by (unfold len in L; lia). clear L.
  induction x as [|c x IH]; cbn; [reflexivity|]. now rewrite IH.
Qed.
Lemma equ_chars n : forall x y, item_equ n x y = true <-> chars n x = chars n y.
Proof using s_pos s_small.
  induction n as [|n IH]; intros x y; cbn; [tauto|].
  rewrite andb_true_iff, N.eqb_eq, IH. split; [intros [-> ->]; reflexivity|].
  intros E. injection E as E1 E2. auto.
Qed.
Notation hf := (item_hash s).
Notation he := (item_equ (N.to_nat s)).
Lemma good : good_hash hf he.
Proof using s_pos s_small.
  split.
  - intros k n P. apply N.mod_lt. lia.
  - intros k. now apply equ_chars.
  - intros a b. rewrite !equ_chars. congruence.
  - intros a b c. rewrite !equ_chars. congruence.
  - intros a b n E. apply equ_chars in E. unfold item_hash. now rewrite E.
Qed.
Lemma equ_dec x y : len x = s -> len y = s ->
  he x y = if list_eq_dec N.eq_dec x y then true else false.
Proof using s_pos s_small.
  intros Lx Ly. destruct (list_eq_dec N.eq_dec x y) as [->|D].
  - now apply equ_chars.
  - destruct (he x y) eqn:E; [|reflexivity]. apply equ_chars in E.
    rewrite !chars_id in E by assumption. contradiction.
Qed.

Fixpoint idxs (k : N) (l : list bytes) : list (bytes * N) :=
  match l with [] => [] | x :: l => (x, k + 1) :: idxs (k + 1) l end.
Lemma idxs_app l x : forall k, idxs k (l ++ [x]) = idxs k l ++ [(x, k + len l + 1)].
Proof using s_pos s_small.
  induction l as [|y l IH]; intros k; cbn [idxs app].
  - change (len (@nil bytes)) with 0. now rewrite N.add_0_r.
  - rewrite IH, len_cons. do 4 f_equal. lia.
Qed.
Lemma idxs_len l : forall k, length (idxs k l) = length l.
Proof using s_pos s_small. induction l as [|y l IH]; intros k; cbn; [reflexivity|]. now rewrite IH. Qed.
Lemma place_min x l : (-1 <= place x l)%Z.
Proof using s_pos s_small.
  induction l as [|y l IH]; cbn [place]; [lia|]. destruct (list_eq_dec _ x y); [lia|].
  destruct (Z.eqb_spec (place x l) (-1)); lia.
Qed.
Lemma find_idxs x l : len x = s -> sized l -> forall k,
  sp_find he x (idxs k l) = if (place x l =? -1)%Z then 0 else Z.to_N (place x l + Z.of_N k + 1).
Proof using s_pos s_small.
  intros Lx Z. induction Z as [|y l Ly Z IH]; intros k; cbn [idxs sp_find place]; [reflexivity|].
  rewrite equ_dec by assumption. destruct (list_eq_dec _ x y) as [E|E].
  - change (0 =? -1)%Z with false. cbv iota. lia.
  - rewrite IH. pose proof (place_min x l). destruct (Z.eqb_spec (place x l) (-1)); [reflexivity|].
    destruct (Z.eqb_spec (place x l + 1) (-1)); lia.
Qed.
Lemma bound_idxs x l : len x = s -> sized l -> forall k,
  bound he x (idxs k l) = negb (place x l =? -1)%Z.
Proof using s_pos s_small.
  intros Lx Z. unfold bound. induction Z as [|y l Ly Z IH]; intros k; cbn [idxs existsb place fst]; [reflexivity|].
  rewrite equ_dec by assumption. destruct (list_eq_dec _ x y) as [E|E]; [reflexivity|].
  rewrite IH. pose proof (place_min x l). destruct (Z.eqb_spec (place x l) (-1)); [reflexivity|].
  destruct (Z.eqb_spec (place x l + 1) (-1)); [lia|reflexivity].
Qed.

Definition urep (u : ubuf) (l : list bytes) : Prop :=
  rep (u_buf u) l /\ u_items u = len l /\ HashThms.inv hf (u_idx u) (idxs 0 l) /\ uniq he (idxs 0 l).

Lemma ufind u l x : urep u l -> len x = s ->
  u_find u x = Some (if (place x l =? -1)%Z then 0 else Z.to_N (place x l + 1)).
Proof using s_pos s_small.
  intros (R & I & H & U) Lx. pose proof R as (E1 & _ & Z & _). unfold u_find, hfn, heq. rewrite E1.
  rewrite (find_inv _ _ good _ _ x H U), find_idxs by assumption. do 2 f_equal.
  destruct (place x l =? -1)%Z; [reflexivity|]. f_equal. lia.
Qed.
Lemma uadd u l x : urep u l -> len x = s -> place x l = (-1)%Z ->
  2 * s * len l < 2 ^ 32 -> len l <= 2147483629 ->
  exists u', u_add u x = Some u' /\ urep u' (l ++ [x]) /\ u_items u' = len l + 1.
Proof using s_pos s_small.
  intros (R & I & H & U) Lx P B B2. pose proof R as (E1 & _ & Z & _). unfold u_add, hfn. rewrite E1.
  destruct (push_rep (u_buf u) l x R Lx B) as (b' & -> & R').
  { destruct (N.eq_dec (len l) 0) as [E0|N0]; [rewrite E0; lia|].
    apply N.le_lt_trans with (2 * s * len l); [|exact B].
    replace (2 * s * len l) with (s * (2 * len l)) by lia. apply N.mul_le_mono_l. lia. }
  destruct (insert_inv _ _ good (u_idx u) (idxs 0 l) x (u_items u + 1) H) as (t & -> & H').
  { unfold room. rewrite idxs_len. exact B2. }
  eexists. split; [reflexivity|]. cbn [u_items]. rewrite I in *. split; [|reflexivity].
  assert (Pm : Permutation ((x, len l + 1) :: idxs 0 l) (idxs 0 (l ++ [x]))).
  { rewrite idxs_app. rewrite N.add_0_l. apply Permutation_cons_append. }
  split; [exact R'|]. cbn [u_items u_idx]. split; [rewrite len_app; reflexivity|]. split.
  - destruct H' as (Q1 & Q2 & Q3 & Q4 & Q5). split; [exact Q1|]. split; [exact Q2|].
    split; [rewrite Q3; f_equal; now apply Permutation_length|]. split; [exact Q4|].
    eapply Permutation_trans; [exact Q5|exact Pm].
  - eapply uniq_perm; [|exact Pm]. apply (uniq_cons _ _ good); [exact U|].
    rewrite bound_idxs, P by assumption. reflexivity.
Qed.

Lemma ustep_rep o u l : urep u l -> u_allowed s o l ->
  exists u', ustep o u = Some (fst (us_step o l), u') /\ urep u' (snd (us_step o l)).
Proof using s_pos s_small.
  intros H A. assert (BL : len (blank s) = s) by apply len_zeros.
  destruct o as [x|x|x|i|i]; cbn [u_allowed ustep us_step] in *.
  - destruct A as (Lx & B & B2). rewrite BL in Lx. unfold push_uniq_buf. rewrite (ufind u l x H Lx).
    pose proof (place_min x l). destruct (Z.eqb_spec (place x l) (-1)) as [P|P].
    + destruct (uadd u l x H Lx P B B2) as (u' & E & H' & _). cbn [N.eqb]. rewrite E.
      exists u'. split; [reflexivity|exact H'].
    + destruct (N.eqb_spec (Z.to_N (place x l + 1)) 0); [lia|]. exists u. split; [reflexivity|exact H].
  - rewrite BL in A. unfold get_uniq_buf_index. rewrite (ufind u l x H A). exists u. split; [|exact H].
    pose proof (place_min x l). cbn [fst]. do 3 f_equal. destruct (Z.eqb_spec (place x l) (-1)); lia.
  - destruct A as (Lx & B & B2). rewrite BL in Lx. unfold find_insert_uniq_buf. rewrite (ufind u l x H Lx).
    pose proof (place_min x l). destruct (Z.eqb_spec (place x l) (-1)) as [P|P].
    + destruct (uadd u l x H Lx P B B2) as (u' & E & H' & I'). cbn [N.eqb]. rewrite E.
      exists u'. split; [|exact H']. rewrite I'. cbn [fst]. do 3 f_equal. lia.
    + destruct (N.eqb_spec (Z.to_N (place x l + 1)) 0); [lia|]. exists u. split; [|exact H].
      cbn [fst]. do 3 f_equal. lia.
  - destruct H as (R & I & H & U). unfold locate_uniq_buf.
    pose proof (rep_len _ _ R) as Lb. pose proof R as (_ & _ & _ & _ & _ & La & _).
    destruct (locate_rep (u_buf u) l i R) as (b' & E & R').
    { apply N.le_lt_trans with (s * len l); [apply N.mul_le_mono_l; lia|lia]. }
    cbn [sp_step] in E, R'. destruct (N.leb_spec (len l) i); [lia|]. cbn [fst snd] in *. rewrite E.
    eexists. split; [reflexivity|]. split; [exact R'|]. cbn [u_items u_idx]. auto.
  - pose proof H as (R & _). unfold fetch_uniq_buf.
    destruct (step_rep (BFetch i) (u_buf u) l R A Logic.I) as (b' & E & _). cbn [bstep sp_step fst] in E.
    destruct (fetch_buf (u_buf u) i) as [x|]; [|discriminate]. cbn [option_map] in E. injection E as E _.
    exists u. split; [|exact H]. cbn [fst]. now rewrite E.
Qed.
Lemma urun_rep o : forall u l, urep u l -> u_proper s o l ->
  exists u', urun o u = Some (fst (us_run o l), u') /\ urep u' (snd (us_run o l)).
Proof using s_pos s_small.
  induction o as [|a o IH]; intros u l H P; cbn [urun us_run].
  { exists u. split; [reflexivity|exact H]. }
  destruct P as [A P]. destruct (ustep_rep a u l H A) as (u1 & E1 & H1). rewrite E1.
  destruct (IH u1 _ H1 P) as (u2 & E2 & H2). rewrite E2.
  destruct (us_step a l) as [x l1]. cbn [fst snd] in *.
  destruct (us_run o l1) as [r l2]. exists u2. split; [reflexivity|exact H2].
Qed.
Lemma unew n : s * n < 2 ^ 32 -> n <= 2147483629 ->
  exists u, new_uniq_buf n s = Some u /\ urep u [].
Proof using s_pos s_small.
  intros L B. unfold new_uniq_buf. destruct (create_inv hf n B) as (t & E & I).
  rewrite E. eexists. split; [reflexivity|]. split; [apply rep_new; assumption|].
  split; [reflexivity|]. split; [exact I|]. intros k. cbn. lia.
Qed.
End Buf.
