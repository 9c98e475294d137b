(* The string functions compute what they should. *)
From Coq Require Import ZArith List Bool Ascii Lia.
From Verif Require Import TextModel TextSpec.
Import ListNotations.
Open Scope list_scope.

(* --- memory ----------------------------------------------------------------------- *)

Lemma clean_cons c s : clean (c :: s) -> c <> NUL /\ clean s.
Proof. unfold clean. simpl. intros H. split; intros E; apply H; auto. Qed.
Lemma clean_app s t : clean (s ++ t) <-> clean s /\ clean t.
Proof. unfold clean. rewrite in_app_iff. tauto. Qed.
Lemma clean_skipn n s : clean s -> clean (skipn n s).
Proof. intros H I. apply H. rewrite <- (firstn_skipn n s). apply in_app_iff. auto. Qed.
Lemma clean_firstn n s : clean s -> clean (firstn n s).
Proof. intros H I. apply H. rewrite <- (firstn_skipn n s). apply in_app_iff. auto. Qed.

Lemma cstr_ok s j : clean s -> cstr (s ++ NUL :: j) = Ok s.
Proof.
  induction s as [|c s IH]; intros H; [reflexivity|].
  apply clean_cons in H. destruct H as [N H]. cbn [cstr app].
  destruct (Ascii.eqb_spec c NUL); [contradiction|]. rewrite (IH H). reflexivity.
Qed.
Lemma text_ok s j i : clean s -> (0 <= i <= strlen s)%Z ->
  text (s ++ NUL :: j) i = Ok (skipn (Z.to_nat i) s).
Proof.
  intros C H. unfold text, strlen in *. destruct (Z.ltb_spec i 0); [lia|].
  rewrite skipn_app. replace (Z.to_nat i - length s)%nat with O by lia.
  cbn [skipn]. apply cstr_ok. apply clean_skipn. exact C.
Qed.

Lemma put_app_l s : forall t i c, (i < length s)%nat -> put (s ++ t) i c = put s i c ++ t.
Proof.
  induction s as [|d s IH]; intros t [|i] c H; simpl in *; try lia; auto.
  rewrite IH by lia. reflexivity.
Qed.
Lemma put_split c : forall b i, (i < length b)%nat -> put b i c = firstn i b ++ c :: skipn (S i) b.
Proof.
  induction b as [|d b IH]; intros [|i] H; cbn [length] in *; try lia; [reflexivity|].
  cbn [put firstn skipn app]. rewrite IH by lia. reflexivity.
Qed.
Lemma poke_ok b i c : (0 <= i < Z.of_nat (length b))%Z ->
  poke b i c = Ok (firstn (Z.to_nat i) b ++ c :: skipn (S (Z.to_nat i)) b).
Proof.
  intros H. unfold poke. destruct (Z.ltb_spec i 0); [lia|]. destruct (Z.leb_spec (Z.of_nat (length b)) i); [lia|].
  cbn [orb]. rewrite put_split by lia. reflexivity.
Qed.
Lemma cut_text s j i : clean s -> (0 <= i <= strlen s)%Z ->
  (do b <- poke (s ++ NUL :: j) i NUL; text b 0) = Ok (firstn (Z.to_nat i) s).
Proof.
  intros C H. unfold strlen in *. rewrite poke_ok by (rewrite app_length; cbn [length]; lia).
  rewrite firstn_app. replace (Z.to_nat i - length s)%nat with O by lia. cbn [firstn].
  rewrite app_nil_r. rewrite text_ok; [reflexivity|apply clean_firstn; exact C|unfold strlen; lia].
Qed.

(* --- searching -------------------------------------------------------------------- *)

Lemma prefixb_spec p : forall s, prefixb p s = true <-> exists r, s = p ++ r.
Proof.
  induction p as [|c p IH]; intros s; simpl.
  - split; eauto.
  - destruct s as [|d s].
    + split; [discriminate|]. intros (r & H). discriminate.
    + rewrite andb_true_iff, Ascii.eqb_eq, IH. split.
      * intros (-> & r & ->). exists r. reflexivity.
      * intros (r & H). inversion H; subst. eauto.
Qed.

Lemma at_place_0 h n : at_place h n 0 <-> exists r, h = n ++ r.
Proof.
  split.
  - intros (a & b & -> & H). destruct a; [|discriminate]. simpl. eauto.
  - intros (r & ->). exists [], r. auto.
Qed.
Lemma at_place_S c h n i : at_place (c :: h) n (S i) <-> at_place h n i.
Proof.
  split.
  - intros (a & b & E & H). destruct a as [|d a]; [discriminate|]. simpl in *.
    inversion E; subst. exists a, b. auto.
  - intros (a & b & -> & H). exists (c :: a), b. simpl. auto.
Qed.
Lemma at_place_nil n i : at_place [] n i -> i = O /\ n = [].
Proof.
  intros (a & b & E & H). destruct a; [|discriminate]. destruct n; [|discriminate]. auto.
Qed.

Lemma strstr_spec n : forall h,
  match strstr h n with Some i => first_place h n i | None => forall i, ~ at_place h n i end.
Proof.
  induction h as [|c h IH]; simpl.
  - destruct (prefixb n []) eqn:E.
    + apply prefixb_spec in E. split; [apply at_place_0; exact E|]. lia.
    + intros i H. destruct (at_place_nil _ _ H) as [-> ->]. discriminate.
  - destruct (prefixb n (c :: h)) eqn:E.
    + apply prefixb_spec in E. split; [apply at_place_0; exact E|]. lia.
    + assert (Z0 : ~ at_place (c :: h) n 0).
      { rewrite at_place_0, <- prefixb_spec. congruence. }
      destruct (strstr h n) as [i|]; simpl.
      * destruct IH as [A B]. split; [apply at_place_S; exact A|].
        intros [|j] L; [exact Z0|]. rewrite at_place_S. apply B. lia.
      * intros [|j]; [exact Z0|]. rewrite at_place_S. apply IH.
Qed.
Lemma first_place_unique h n i j : first_place h n i -> first_place h n j -> i = j.
Proof.
  intros [A B] [C D]. destruct (lt_eq_lt_dec i j) as [[L|E]|L]; auto.
  - destruct (D i L A).
  - destruct (B j L C).
Qed.
Lemma strstr_first h n i : first_place h n i -> strstr h n = Some i.
Proof.
  intros H. pose proof (strstr_spec n h) as S. destruct (strstr h n) as [j|].
  - f_equal. eapply first_place_unique; eauto.
  - destruct (S i (proj1 H)).
Qed.
Lemma strstr_none h n : (forall i, ~ at_place h n i) -> strstr h n = None.
Proof.
  intros H. pose proof (strstr_spec n h) as S. destruct (strstr h n) as [j|]; auto.
  destruct (H j (proj1 S)).
Qed.
Lemma at_place_split h n i : at_place h n i -> h = firstn i h ++ n ++ skipn (i + length n) h /\ (i + length n <= length h)%nat.
Proof.
  intros (a & b & -> & <-). split; [|rewrite !app_length; lia].
  rewrite firstn_app, Nat.sub_diag, firstn_all. cbn [firstn]. rewrite app_nil_r.
  do 2 f_equal. rewrite app_assoc, <- app_length, skipn_app, skipn_all, Nat.sub_diag. reflexivity.
Qed.

Lemma eqb_spec s t : eqb s t = true <-> s = t.
Proof. unfold eqb. destruct (list_eq_dec ascii_dec s t); split; auto; discriminate. Qed.

Theorem prefix_ok p s : is_prefix p s = true <-> exists r, s = p ++ r.
Proof. apply prefixb_spec. Qed.
Theorem suffix_ok p s : clean s -> exists b, is_suffix p s = Ok b /\ (b = true <-> exists r, s = r ++ p).
Proof.
  intros C. unfold is_suffix. destruct (Z.leb_spec (strlen p) (strlen s)) as [L|L].
  - unfold in_string. unfold strlen in L. rewrite text_ok by (auto; unfold strlen; lia).
    eexists. split; [reflexivity|]. rewrite eqb_spec. split.
    + intros <-. exists (firstn (length s - length p) s).
      unfold strlen. replace (Z.to_nat _) with (length s - length p)%nat by lia.
      symmetry. apply firstn_skipn.
    + intros (r & ->). unfold strlen. rewrite app_length.
      replace (Z.to_nat _) with (length r) by lia.
      rewrite skipn_app, skipn_all, Nat.sub_diag. reflexivity.
  - exists false. split; [reflexivity|]. split; [discriminate|].
    intros (r & ->). unfold strlen in L. rewrite app_length in L. lia.
Qed.
Theorem substr_test_ok n h : is_substr n h = true <-> exists a b, h = a ++ n ++ b.
Proof.
  unfold is_substr. pose proof (strstr_spec n h) as S. destruct (strstr h n) as [i|].
  - split; auto. intros _. destruct S as [(a & b & E & _) _]. eauto.
  - split; [discriminate|]. intros (a & b & E). destruct (S (length a)). exists a, b. auto.
Qed.
Theorem position_ok h n :
  (position h n = 0 /\ (forall i, ~ at_place h n i))%Z \/
  exists i, position h n = (1 + Z.of_nat i)%Z /\ first_place h n i.
Proof.
  unfold position. pose proof (strstr_spec n h) as S. destruct (strstr h n) as [i|]; eauto.
Qed.

(* --- ends ------------------------------------------------------------------------- *)

Theorem ends_ok junk s n : clean s -> (0 <= n)%Z ->
  exists t u, lastn junk s n = Ok t /\ butlastn junk s n = Ok u /\ s = u ++ t /\
    strlen t = Z.min n (strlen s).
Proof.
  intros C H. unfold lastn, butlastn. destruct (Z.leb_spec (strlen s) n) as [L|L].
  - exists s, []. repeat split; auto. lia.
  - unfold strtemp. rewrite text_ok, cut_text by (auto; lia).
    do 2 eexists. split; [reflexivity|]. split; [reflexivity|]. split.
    + symmetry. apply firstn_skipn.
    + unfold strlen in *. rewrite skipn_length. lia.
Qed.
Theorem butfirstn_ok s n : clean s -> (0 <= n)%Z ->
  ((n <= strlen s)%Z /\ exists a t, butfirstn s n = Ok t /\ s = a ++ t /\ strlen a = n) \/
  ((strlen s < n)%Z /\ butfirstn s n = Fail).
Proof.
  intros C H. unfold butfirstn. destruct (Z.ltb_spec (strlen s) n) as [L|L]; auto.
  left. split; [exact L|]. unfold in_string. rewrite text_ok by (auto; lia).
  exists (firstn (Z.to_nat n) s), (skipn (Z.to_nat n) s). split; [reflexivity|].
  split; [symmetry; apply firstn_skipn|]. unfold strlen in *. rewrite firstn_length. lia.
Qed.

Theorem substr_ok junk s loc cnt : clean s -> (1 <= loc)%Z -> (loc + cnt <= 2147483647)%Z ->
  ((strlen s < loc)%Z /\ substr junk s loc cnt = Ok []) \/
  ((loc <= strlen s)%Z /\ (cnt < 0)%Z /\
     exists a t, substr junk s loc cnt = Ok t /\ s = a ++ t /\ strlen a = (loc - 1)%Z) \/
  ((loc <= strlen s)%Z /\ (0 <= cnt)%Z /\ (loc + cnt - 1 <= strlen s)%Z /\
     exists a t b, substr junk s loc cnt = Ok t /\ s = a ++ t ++ b /\ strlen a = (loc - 1)%Z /\ strlen t = cnt) \/
  ((loc <= strlen s)%Z /\ (0 <= cnt)%Z /\ (strlen s < loc + cnt - 1)%Z /\ substr junk s loc cnt = Fail).
Proof.
  intros C L1 LM. unfold substr. destruct (Z.ltb_spec loc 1); [lia|].
  destruct (Z.ltb_spec (strlen s) loc) as [L|L]; [auto|].
  unfold in_string. rewrite text_ok by (auto; lia).
  assert (LA : strlen (firstn (Z.to_nat (loc - 1)) s) = (loc - 1)%Z).
  { unfold strlen in *. rewrite firstn_length. lia. }
  destruct (Z.ltb_spec cnt 0) as [N|N].
  - right; left. split; [exact L|]. split; [exact N|].
    exists (firstn (Z.to_nat (loc - 1)) s). eexists. split; [reflexivity|].
    split; [symmetry; apply firstn_skipn|exact LA].
  - unfold int. destruct (Z.leb_spec (-2147483648) (loc + cnt)); [|lia].
    destruct (Z.leb_spec (loc + cnt) 2147483647); [|lia]. cbn [andb].
    destruct (Z.ltb_spec (strlen s) (loc + cnt - 1)) as [M|M].
    + right; right; right. auto.
    + right; right; left. repeat split; auto.
      assert (LT : strlen (skipn (Z.to_nat (loc - 1)) s) = (strlen s - (loc - 1))%Z).
      { unfold strlen in *. rewrite skipn_length. lia. }
      unfold strtemp. rewrite cut_text; [|apply clean_skipn; exact C|rewrite LT; lia].
      exists (firstn (Z.to_nat (loc - 1)) s). eexists.
      exists (skipn (Z.to_nat cnt) (skipn (Z.to_nat (loc - 1)) s)). split; [reflexivity|].
      split; [rewrite firstn_skipn; symmetry; apply firstn_skipn|]. split; [exact LA|].
      unfold strlen in *. rewrite firstn_length. lia.
Qed.

(* --- trimming --------------------------------------------------------------------- *)

Lemma is_space_spec c : is_space c = true <-> spaces [c].
Proof.
  unfold spaces. rewrite Forall_cons_iff. split.
  - intros H. split; [|constructor]. destruct c as [[] [] [] [] [] [] [] []]; vm_compute in H; try discriminate; simpl; auto 10.
  - intros [H _]. simpl in H. repeat (destruct H as [<-|H]; [reflexivity|]). contradiction.
Qed.
Lemma spaces_app s t : spaces s -> spaces t -> spaces (s ++ t).
Proof. apply Forall_app_intro || (unfold spaces; rewrite Forall_app; auto). Qed.
Lemma spaces_cons c s : is_space c = true -> spaces s -> spaces (c :: s).
Proof. intros H S. apply is_space_spec in H. inversion H; subst. constructor; auto. Qed.

Lemma skip_space_spec s : exists a, s = a ++ skip_space s /\ spaces a /\
  forall c r, skip_space s = c :: r -> is_space c = false.
Proof.
  induction s as [|c s IH]; simpl.
  - exists []. repeat split; [constructor|]. discriminate.
  - destruct (is_space c) eqn:E.
    + destruct IH as (a & H & S & N). exists (c :: a). simpl. rewrite <- H.
      repeat split; auto. apply spaces_cons; auto.
    + exists []. repeat split; [constructor|]. intros d r H. inversion H; subst. exact E.
Qed.

Lemma trim_end_spec f : forall t, (t < length f)%nat ->
  (trim_end f t <= t)%nat /\
  (forall i, (trim_end f t < i <= t)%nat -> exists c, nth_error f i = Some c /\ is_space c = true) /\
  ((0 < trim_end f t)%nat -> exists c, nth_error f (trim_end f t) = Some c /\ is_space c = false).
Proof.
  induction t as [|t IH]; intros L; cbn [trim_end].
  - repeat split; try lia.
  - destruct (nth_error f (S t)) as [c|] eqn:E.
    + destruct (is_space c) eqn:SP.
      * destruct (IH ltac:(lia)) as (A & B & D). split; [lia|]. split; [|exact D].
        intros i I. destruct (Nat.eq_dec i (S t)) as [->|N]; [eauto|]. apply B. lia.
      * split; [lia|]. split; [lia|]. eauto.
    + apply nth_error_None in E. lia.
Qed.

Theorem trim_ok s : exists a b, s = a ++ trim s ++ b /\ spaces a /\ spaces b /\ bare (trim s).
Proof.
  destruct (skip_space_spec s) as (a & E & A & N). unfold trim.
  destruct (skip_space s) as [|c r] eqn:F.
  - exists a, []. repeat split; auto; [constructor|discriminate|].
    intros r H1. destruct r; discriminate.
  - set (f := c :: r) in *. set (t := trim_end f (length f - 1)).
    destruct (trim_end_spec f (length f - 1)) as (T1 & T2 & T3). { simpl. lia. }
    fold t in T1, T2, T3.
    exists a, (skipn (S t) f). split; [rewrite firstn_skipn; exact E|]. split; [exact A|]. split.
    + apply Forall_forall. intros d I. apply In_nth_error in I. destruct I as (i & I).
      assert (L : (S t + i < length f)%nat).
      { assert (i < length (skipn (S t) f))%nat by (apply nth_error_Some; congruence).
        rewrite skipn_length in H. lia. }
      assert (nth_error f (S t + i) = Some d) as I2.
      { rewrite <- (firstn_skipn (S t) f). rewrite nth_error_app2 by (rewrite firstn_length; lia).
        rewrite firstn_length. replace (S t + i - min (S t) (length f))%nat with i by lia. exact I. }
      destruct (T2 (S t + i)%nat) as (d' & I3 & SP); [lia|]. rewrite I2 in I3. inversion I3; subst d'.
      apply is_space_spec in SP. inversion SP; auto.
    + intros d SP. apply is_space_spec in SP. split; intros q H.
      * unfold f in H. cbn [firstn] in H. inversion H; subst. rewrite (N _ _ eq_refl) in SP. discriminate.
      * assert (LEN : length (firstn (S t) f) = S t) by (rewrite firstn_length; simpl in *; lia).
        assert (LQ : length q = t). { rewrite H, app_length in LEN. simpl in LEN. lia. }
        assert (I : nth_error f t = Some d).
        { rewrite <- (firstn_skipn (S t) f), H, <- app_assoc.
          rewrite nth_error_app2 by lia. rewrite LQ, Nat.sub_diag. reflexivity. }
        destruct (Nat.eq_dec t 0) as [Z0|NZ].
        -- rewrite Z0 in I. unfold f in I. simpl in I. inversion I; subst.
           rewrite (N _ _ eq_refl) in SP. discriminate.
        -- destruct (T3 ltac:(lia)) as (d' & I' & SP'). rewrite I in I'. inversion I'; subst. congruence.
Qed.

Lemma at_place_skip h n k i : at_place (skipn k h) n i -> (k <= length h)%nat -> at_place h n (k + i).
Proof.
  intros (a & b & E & L) H. exists (firstn k h ++ a), b. split.
  - rewrite <- app_assoc, <- E. symmetry. apply firstn_skipn.
  - rewrite app_length, firstn_length. lia.
Qed.
Lemma at_place_unskip h n k i : at_place h n (k + i) -> at_place (skipn k h) n i.
Proof.
  revert h. induction k as [|k IH]; intros h H; [exact H|].
  destruct h as [|c h]; [destruct (at_place_nil _ _ H); lia|]. cbn [skipn].
  apply IH. apply (at_place_S c). exact H.
Qed.

Lemma last_occ_ok t junk suff : clean t -> suff <> [] -> forall gas last,
  at_place t suff last -> (length t < gas + last)%nat ->
  exists i, last_occ gas (t ++ NUL :: junk) suff (Z.of_nat last) = Ok (Z.of_nat i) /\ last_place t suff i.
Proof.
  intros C NE. induction gas as [|gas IH]; intros last A G.
  - destruct (at_place_split _ _ _ A) as [_ L]. lia.
  - destruct (at_place_split _ _ _ A) as [_ L].
    assert (0 < length suff)%nat as LS by (destruct suff; [contradiction|simpl; lia]).
    cbn [last_occ]. rewrite text_ok by (auto; unfold strlen; lia).
    replace (Z.to_nat (Z.of_nat last + 1)) with (S last) by lia.
    pose proof (strstr_spec suff (skipn (S last) t)) as SP.
    destruct (strstr (skipn (S last) t) suff) as [i|].
    + replace (Z.of_nat last + 1 + Z.of_nat i)%Z with (Z.of_nat (S last + i)) by lia.
      apply IH; [|lia]. apply at_place_skip; [apply SP|lia].
    + exists last. split; [reflexivity|]. split; [exact A|]. intros j Lj Hj.
      apply (SP (j - S last)%nat). apply at_place_unskip.
      replace (S last + (j - S last))%nat with j by lia. exact Hj.
Qed.

Lemma last_place_unique h n i j : last_place h n i -> last_place h n j -> i = j.
Proof.
  intros [A B] [C D]. destruct (lt_eq_lt_dec i j) as [[L|E]|L]; auto.
  - destruct (B j L C).
  - destruct (D i L A).
Qed.

Theorem gen_trim_ok junk p q s : clean s -> q <> [] ->
  (exists a t c, gen_trim junk p q s = Ok t /\ s = a ++ p ++ t ++ q ++ c /\
     first_place s p (length a) /\ last_place (t ++ q ++ c) q (length t)) \/
  (gen_trim junk p q s = Fail /\
     forall a t c, s = a ++ p ++ t ++ q ++ c -> ~ first_place s p (length a)).
Proof.
  intros C NE. unfold gen_trim. pose proof (strstr_spec p s) as SP.
  destruct (strstr s p) as [i|].
  - destruct (at_place_split _ _ _ (proj1 SP)) as [E L].
    set (t := skipn (i + length p) s) in *.
    assert (CT : clean t) by (apply clean_skipn; exact C).
    pose proof (strstr_spec q t) as SQ. destruct (strstr t q) as [j|].
    + unfold strtemp.
      destruct (last_occ_ok t junk q CT NE (S (length (t ++ NUL :: junk))) j (proj1 SQ)) as (k & -> & LP).
      { rewrite app_length. simpl. lia. }
      destruct (at_place_split _ _ _ (proj1 LP)) as [E2 L2].
      rewrite cut_text by (auto; unfold strlen; lia). rewrite Nat2Z.id.
      left. exists (firstn i s), (firstn k t), (skipn (k + length q) t).
      rewrite <- E2. rewrite !firstn_length. rewrite (Nat.min_l i), (Nat.min_l k) by lia.
      auto.
    + right. split; [reflexivity|]. intros a t' c H FP.
      pose proof (first_place_unique _ _ _ _ SP FP) as ->.
      apply (SQ (length t')). exists t', c. split; auto. unfold t. rewrite H.
      rewrite app_assoc, <- app_length, skipn_app, skipn_all, Nat.sub_diag. reflexivity.
  - right. split; [reflexivity|]. intros a t c H FP. destruct (SP _ (proj1 FP)).
Qed.

(* --- clusters --------------------------------------------------------------------- *)

Lemma peek_app s t : forall i, peek (s ++ t) (Z.of_nat (length s) + Z.of_nat i) =
  match nth_error t i with Some c => Ok c | None => Undef end.
Proof.
  intros i. unfold peek. destruct (Z.ltb_spec (Z.of_nat (length s) + Z.of_nat i) 0); [lia|].
  rewrite nth_error_app2 by lia. replace (Z.to_nat _ - length s)%nat with i by lia. reflexivity.
Qed.
Lemma poke_app s t i c : (i < length t)%nat ->
  poke (s ++ t) (Z.of_nat (length s) + Z.of_nat i) c = Ok (s ++ firstn i t ++ c :: skipn (S i) t).
Proof.
  intros H. rewrite poke_ok by (rewrite app_length; lia).
  replace (Z.to_nat _) with (length s + i)%nat by lia.
  rewrite firstn_app_2. replace (S (length s + i)) with (length s + S i)%nat by lia.
  rewrite <- app_assoc. do 3 f_equal. rewrite skipn_app, skipn_all2 by lia.
  replace (length s + S i - length s)%nat with (S i) by lia. reflexivity.
Qed.
Lemma text_app s t : text (s ++ t) (Z.of_nat (length s)) = cstr t.
Proof.
  unfold text. destruct (Z.ltb_spec (Z.of_nat (length s)) 0); [lia|]. rewrite Nat2Z.id.
  rewrite skipn_app, skipn_all, Nat.sub_diag. reflexivity.
Qed.

Lemma peek_at d c r : peek (d ++ c :: r) (Z.of_nat (length d)) = Ok c.
Proof.
  replace (Z.of_nat (length d)) with (Z.of_nat (length d) + Z.of_nat 0)%Z by lia.
  rewrite peek_app. reflexivity.
Qed.
Lemma poke_at d c r x : poke (d ++ c :: r) (Z.of_nat (length d)) x = Ok (d ++ x :: r).
Proof.
  replace (Z.of_nat (length d)) with (Z.of_nat (length d) + Z.of_nat 0)%Z by lia.
  rewrite poke_app by (simpl; lia). reflexivity.
Qed.

Lemma cluster_loop_ok sz junk : (0 < sz)%nat -> forall gas n done rest,
  clean rest -> length rest = (n * sz)%nat -> (n < gas)%nat ->
  exists l, cluster_loop gas (done ++ rest ++ NUL :: junk) (Z.of_nat (length done)) (Z.of_nat sz) = Ok l /\
    concat l = rest /\ Forall (fun x => length x = sz) l.
Proof.
  intros SZ. induction gas as [|gas IH]; intros n done rest C L G; [lia|].
  cbn [cluster_loop].
  destruct rest as [|c rest].
  - cbn [app]. rewrite peek_at. exists []. split; [reflexivity|]. split; [reflexivity|constructor].
  - cbn [app]. rewrite peek_at. destruct (clean_cons _ _ C) as [NC _].
    destruct (Ascii.eqb_spec c NUL); [contradiction|].
    destruct n as [|n]; [discriminate|].
    change (c :: rest ++ NUL :: junk) with ((c :: rest) ++ NUL :: junk).
    set (r := c :: rest) in *.
    assert (LR : length r = (sz + n * sz)%nat) by (rewrite L; reflexivity).
    set (x := firstn sz r). set (y := skipn sz r).
    assert (XY : r = x ++ y) by (symmetry; apply firstn_skipn).
    assert (LX : length x = sz) by (unfold x; rewrite firstn_length; lia).
    assert (LY : length y = (n * sz)%nat) by (unfold y; rewrite skipn_length; lia).
    assert (CX : clean x) by (apply clean_firstn; exact C).
    assert (CY : clean y) by (apply clean_skipn; exact C).
    rewrite peek_app. rewrite XY, <- app_assoc. rewrite nth_error_app2 by lia. rewrite LX, Nat.sub_diag.
    assert (exists d z, y ++ NUL :: junk = d :: z) as (d & z & EY) by (destruct y; simpl; eauto).
    rewrite EY. cbn [nth_error].
    rewrite poke_app by (rewrite app_length; simpl; lia).
    rewrite firstn_app, LX, Nat.sub_diag, firstn_all2 by lia. cbn [firstn]. rewrite app_nil_r.
    rewrite skipn_app, skipn_all2 by lia. replace (S sz - length x)%nat with 1%nat by lia. cbn [skipn app].
    rewrite text_app. rewrite cstr_ok by exact CX.
    rewrite poke_app by (rewrite app_length; simpl; lia).
    rewrite firstn_app, LX, Nat.sub_diag, firstn_all2 by lia. cbn [firstn]. rewrite app_nil_r.
    rewrite skipn_app, skipn_all2 by lia. replace (S sz - length x)%nat with 1%nat by lia. cbn [skipn app].
    rewrite <- EY.
    destruct (IH n (done ++ x) y CY LY ltac:(lia)) as (l & E & CO & FA).
    rewrite app_length, LX, Nat2Z.inj_add in E. rewrite app_assoc, E.
    exists (x :: l). split; [reflexivity|]. split; [simpl; rewrite CO; reflexivity|]. constructor; auto.
Qed.

Theorem cluster_ok junk s sz : clean s -> (0 < sz)%Z ->
  ((sz | strlen s)%Z /\ exists l, cluster junk s sz = Ok l /\ concat l = s /\ Forall (fun x => strlen x = sz) l) \/
  (~ (sz | strlen s)%Z /\ cluster junk s sz = Fail).
Proof.
  intros C H. unfold cluster. destruct (Z.eqb_spec sz 0) as [Q|_]; [lia|].
  assert (R : Z.rem (strlen s) sz = (strlen s mod sz)%Z) by (apply Z.rem_mod_nonneg; unfold strlen; lia).
  rewrite R. destruct (Z.eqb_spec (strlen s mod sz) 0) as [E|E]; cbn [negb].
  - left. apply Z.mod_divide in E; [|lia]. split; [exact E|]. destruct E as (n & E).
    unfold strlen in E. assert (0 <= n)%Z by nia.
    destruct (cluster_loop_ok (Z.to_nat sz) junk ltac:(lia) (S (length s)) (Z.to_nat n) [] s C) as (l & E2 & CO & FA).
    + rewrite <- Z2Nat.inj_mul by lia. lia.
    + assert (n <= n * sz)%Z by nia. lia.
    + exists l. cbn [app length] in E2. unfold strtemp. rewrite Z2Nat.id in E2 by lia.
      change (Z.of_nat 0) with 0%Z in E2. split; [exact E2|]. split; [exact CO|].
      eapply Forall_impl; [|exact FA]. intros x L. unfold strlen. cbn in L. lia.
  - right. split; [|reflexivity]. intros D. apply E. apply Z.mod_divide; [lia|exact D].
Qed.

(* --- splitting -------------------------------------------------------------------- *)

Lemma split_loop_ok sep : sep <> [] -> forall gas cur one, (length cur < gas)%nat -> (cur <> [] \/ one = true) ->
  exists l, split_loop gas cur sep one = Ok l /\ l <> [] /\ join sep l = cur /\ cut_at sep l.
Proof.
  intros NE. assert (0 < length sep)%nat as LS by (destruct sep; [contradiction|simpl; lia]).
  induction gas as [|gas IH]; intros cur one G H; [lia|].
  cbn [split_loop]. pose proof (strstr_spec sep cur) as SP. destruct (strstr cur sep) as [i|].
  - destruct (at_place_split _ _ _ (proj1 SP)) as [E L].
    destruct (IH (skipn (i + length sep) cur) true) as (l & E2 & N & J & CA); auto.
    { rewrite skipn_length. lia. }
    rewrite E2. exists (firstn i cur :: l). split; [reflexivity|]. split; [discriminate|].
    assert (JJ : join sep (firstn i cur :: l) = cur).
    { destruct l as [|x l]; [contradiction|]. change (firstn i cur ++ sep ++ join sep (x :: l) = cur).
      rewrite J. symmetry. exact E. }
    split; [exact JJ|]. destruct l as [|x l]; [contradiction|].
    split; [|exact CA].
    change (first_place (join sep (firstn i cur :: x :: l)) sep (length (firstn i cur))).
    rewrite JJ. rewrite firstn_length, Nat.min_l by lia. exact SP.
  - exists [cur]. split; [|split; [discriminate|split; [reflexivity|exact SP]]].
    destruct cur; [|reflexivity]. destruct one; [reflexivity|]. destruct H; [contradiction|discriminate].
Qed.
Theorem split_ok s sep : sep <> [] -> s <> [] ->
  exists l, split s sep = Ok l /\ join sep l = s /\ cut_at sep l.
Proof.
  intros NE NS. unfold split. destruct sep as [|c sep]; [contradiction|].
  destruct (split_loop_ok (c :: sep) NE (S (length s)) s false) as (l & E & _ & J & CA); auto. eauto.
Qed.
Theorem split_nil sep : split [] sep = Ok [].
Proof. destruct sep; reflexivity. Qed.
Theorem split_chars s : exists l, split s [] = Ok l /\ concat l = s /\ Forall (fun x => length x = 1%nat) l.
Proof.
  eexists. split; [reflexivity|]. induction s as [|c s [IH1 IH2]]; simpl; [auto|].
  split; [rewrite IH1; reflexivity|constructor; auto].
Qed.

Theorem implode_ok m l : (0 <= m)%Z ->
  ((strlen (concat l) <= m)%Z /\ implode m l = Ok (concat l)) \/
  ((m < strlen (concat l))%Z /\ implode m l = Fail).
Proof.
  assert (forall l len res, (len <= m)%Z ->
    ((len + strlen (concat l) <= m)%Z /\ implode_loop m len res l = Ok (res ++ concat l)) \/
    ((m < len + strlen (concat l))%Z /\ implode_loop m len res l = Fail)) as G.
  { clear l. induction l as [|s l IH]; intros len res H.
    - left. simpl. rewrite app_nil_r. unfold strlen. simpl. split; [lia|reflexivity].
    - cbn [implode_loop concat]. cbv zeta. unfold strlen in *. rewrite app_length.
      destruct (Z.ltb_spec m (len + Z.of_nat (length s))) as [L|L].
      + right. split; [lia|reflexivity].
      + destruct (IH (len + Z.of_nat (length s))%Z (res ++ s) L) as [[A B]|[A B]].
        * left. split; [lia|]. rewrite B, <- app_assoc. reflexivity.
        * right. split; [lia|exact B]. }
  intros H. destruct (G l 0%Z [] H) as [[A B]|[A B]]; [left|right]; split; auto; lia.
Qed.

(* --- Tcl lists -------------------------------------------------------------------- *)

Lemma len_snoc (d : list ascii) c : (Z.of_nat (length d) + 1)%Z = Z.of_nat (length (d ++ [c])).
Proof. rewrite app_length. simpl. lia. Qed.
Lemma app_snoc (d : list ascii) c r : d ++ c :: r = (d ++ [c]) ++ r.
Proof. rewrite <- app_assoc. reflexivity. Qed.

Ltac chars :=
  repeat match goal with |- context [Ascii.eqb ?x ?y] => destruct (Ascii.eqb_spec x y); [try congruence|] end.

Ltac decide_chars :=
  repeat match goal with
  | |- context [Ascii.eqb ?x ?y] =>
      let v := eval vm_compute in (Ascii.eqb x y) in change (Ascii.eqb x y) with v
  end; cbv iota beta.

Lemma scan_plain_1 c d r gas st lv : plain c ->
  tcl_loop (S gas) (d ++ c :: r) (Z.of_nat (length d)) st lv =
  tcl_loop gas ((d ++ [c]) ++ r) (Z.of_nat (length (d ++ [c]))) st lv.
Proof.
  intros (P0 & P1 & P2 & P3 & P4). cbn [tcl_loop]. rewrite peek_at. chars.
  rewrite len_snoc with (c := c), app_snoc. reflexivity.
Qed.
Lemma scan_plain w : Forall plain w -> forall d r gas st lv,
  tcl_loop (length w + gas) (d ++ w ++ r) (Z.of_nat (length d)) st lv =
  tcl_loop gas ((d ++ w) ++ r) (Z.of_nat (length (d ++ w))) st lv.
Proof.
  induction 1 as [|c w P F IH]; intros d r gas st lv.
  - simpl. rewrite app_nil_r. reflexivity.
  - cbn [length Nat.add app]. rewrite scan_plain_1 by exact P. rewrite IH.
    rewrite <- !app_assoc. reflexivity.
Qed.
Lemma scan_balanced w : balanced w -> forall d r gas st lv, (1 <= lv)%Z ->
  tcl_loop (length w + gas) (d ++ w ++ r) (Z.of_nat (length d)) st lv =
  tcl_loop gas ((d ++ w) ++ r) (Z.of_nat (length (d ++ w))) st lv.
Proof.
  induction 1 as [|c w P B IH|w v B1 IH1 B2 IH2]; intros d r gas st lv L.
  - simpl. rewrite app_nil_r. reflexivity.
  - cbn [length Nat.add app]. destruct P as [P| ->].
    + rewrite scan_plain_1 by exact P. rewrite IH by exact L. rewrite <- !app_assoc. reflexivity.
    + cbn [tcl_loop]. rewrite peek_at. decide_chars.
      destruct (Z.eqb_spec lv 0); [lia|]. rewrite len_snoc with (c := " "%char), app_snoc.
      rewrite IH by exact L. rewrite <- !app_assoc. reflexivity.
  - replace (length ("{"%char :: w ++ "}"%char :: v) + gas)%nat
      with (S (length w + (S (length v + gas))))%nat by (cbn [length]; rewrite app_length; cbn [length]; lia).
    cbn [app]. cbn [tcl_loop]. rewrite peek_at. decide_chars.
    destruct (Z.eqb_spec lv 0); [lia|]. rewrite len_snoc with (c := "{"%char), app_snoc, <- (app_assoc w).
    rewrite IH1 by lia. cbn [app]. cbn [tcl_loop]. rewrite peek_at. decide_chars.
    destruct (Z.ltb_spec 1 (lv + 1)); [|lia]. rewrite len_snoc with (c := "}"%char), (app_snoc ((d ++ ["{"%char]) ++ w)).
    replace (lv + 1 - 1)%Z with lv by lia. rewrite IH2 by exact L.
    rewrite <- !app_assoc. cbn [app]. rewrite <- !app_assoc. reflexivity.
Qed.

Lemma plain_clean e : Forall plain e -> clean e.
Proof.
  intros F I. rewrite Forall_forall in F. destruct (F _ I) as [N _]. congruence.
Qed.
Lemma balanced_clean e : balanced e -> clean e.
Proof.
  induction 1 as [|c w P B IH|w v B1 IH1 B2 IH2]; intros I.
  - destruct I.
  - destruct I as [E|I]; [|exact (IH I)]. destruct P as [[N _]| ->]; [congruence|discriminate].
  - destruct I as [E|I]; [discriminate|]. apply in_app_iff in I. destruct I as [I|[E|I]]; [exact (IH1 I)|discriminate|exact (IH2 I)].
Qed.

Lemma tcl_ok_at junk l ws : Forall2 element l ws -> forall d gas, (length (join [" "%char] ws) < gas)%nat ->
  tcl_loop gas (d ++ join [" "%char] ws ++ NUL :: junk) (Z.of_nat (length d)) (Z.of_nat (length d)) 0 = Ok l.
Proof.
  induction 1 as [|e w l ws EL F IH]; intros d gas G.
  - destruct gas as [|gas]; [simpl in G; lia|]. cbn [join app]. cbn [tcl_loop]. rewrite peek_at.
    cbn. rewrite Z.eqb_refl. reflexivity.
  - assert (exists t, join [" "%char] (w :: ws) = w ++ t /\
      ((ws = [] /\ t = []) \/ t = " "%char :: join [" "%char] ws)) as (t & JT & T).
    { destruct ws as [|v ws].
      - exists []. rewrite app_nil_r. auto.
      - exists (" "%char :: join [" "%char] (v :: ws)). auto. }
    rewrite JT in *. clear JT. rewrite app_length in G. rewrite <- app_assoc.
    destruct EL as [e NE P|e B].
    + replace gas with (length e + (gas - length e))%nat by lia.
      rewrite scan_plain by exact P.
      assert (CE : clean e) by (apply plain_clean; exact P).
      assert (LE : (0 < length e)%nat) by (destruct e; [contradiction|simpl; lia]).
      destruct (gas - length e)%nat as [|g] eqn:GE; [lia|].
      destruct T as [[-> ->]| ->].
      * cbn [app tcl_loop]. rewrite peek_at. decide_chars.
        destruct (Z.eqb_spec (Z.of_nat (length d)) (Z.of_nat (length (d ++ e)))) as [Q|Q].
        { rewrite app_length in Q. lia. }
        rewrite <- (app_assoc d e), text_app, cstr_ok by exact CE. inversion F; subst. reflexivity.
      * cbn [app tcl_loop]. rewrite peek_at. decide_chars. cbn [Z.eqb].
        rewrite poke_at. rewrite <- (app_assoc d e), text_app, cstr_ok by exact CE.
        rewrite (app_assoc d e), (app_snoc (d ++ e)), len_snoc with (c := NUL).
        rewrite IH; [reflexivity|]. simpl in G. lia.
    + assert (CE : clean e) by (apply balanced_clean; exact B).
      destruct gas as [|gas]; [lia|]. cbn [app tcl_loop]. rewrite peek_at. decide_chars.
      cbn [Z.eqb]. rewrite len_snoc with (c := "{"%char), app_snoc.
      cbn [length] in G. rewrite app_length in G. cbn [length] in G.
      replace gas with (length e + (gas - length e))%nat by lia.
      rewrite <- (app_assoc e). rewrite scan_balanced by (auto; lia).
      destruct (gas - length e)%nat as [|g] eqn:GE; [lia|].
      cbn [app tcl_loop]. rewrite peek_at. decide_chars.
      change (1 <? 0 + 1)%Z with false. cbv iota. rewrite poke_at.
      rewrite <- (app_assoc (d ++ ["{"%char])), text_app, cstr_ok by exact CE.
      rewrite (app_assoc (d ++ ["{"%char])), (app_snoc ((d ++ ["{"%char]) ++ e)), len_snoc with (c := NUL).
      change (0 + 1 - 1)%Z with 0%Z.
      destruct T as [[-> ->]| ->].
      * cbn [app]. rewrite peek_at. decide_chars.
        inversion F; subst. pose proof (IH (((d ++ ["{"%char]) ++ e) ++ [NUL]) g) as K.
        cbn [join app length] in K. rewrite K by lia. reflexivity.
      * cbn [app]. rewrite peek_at. decide_chars.
        replace (Z.of_nat (length ((d ++ ["{"%char]) ++ e)) + 2)%Z
          with (Z.of_nat (length ((((d ++ ["{"%char]) ++ e) ++ [NUL]) ++ [" "%char])))
          by (rewrite !app_length; simpl; lia).
        rewrite (app_snoc (((d ++ ["{"%char]) ++ e) ++ [NUL])). rewrite IH; [reflexivity|]. simpl in G. lia.
Qed.
Theorem tcl_ok junk l ws : Forall2 element l ws -> tcl2list junk (join [" "%char] ws) = Ok l.
Proof.
  intros F. unfold tcl2list, strtemp.
  apply (tcl_ok_at junk l ws F []). rewrite app_length. lia.
Qed.

(* --- regular expressions ---------------------------------------------------------- *)

Theorem regexp_first now ok p : compile_regexp now ok regexps p = Undef.
Proof. reflexivity. Qed.

(* --- what goes wrong -------------------------------------------------------------- *)

Lemma text_not_fail b i : text b i <> Fail.
Proof.
  unfold text. destruct (i <? 0)%Z; [discriminate|]. generalize (skipn (Z.to_nat i) b).
  induction l as [|c l IH]; simpl; [discriminate|]. destruct (Ascii.eqb c NUL); [discriminate|].
  destruct (cstr l); [discriminate|contradiction|discriminate].
Qed.
Lemma last_occ_nil gas : forall b last, last_occ gas b [] last = Undef.
Proof.
  induction gas as [|gas IH]; intros b last; [reflexivity|]. cbn [last_occ].
  pose proof (text_not_fail b (last + 1)) as N. destruct (text b (last + 1)) as [t| |]; [|contradiction|reflexivity].
  destruct t; simpl; apply IH.
Qed.
Theorem gen_trim_nil junk p a r : gen_trim junk p [] (a ++ p ++ r) = Undef.
Proof.
  unfold gen_trim. pose proof (strstr_spec p (a ++ p ++ r)) as SP.
  destruct (strstr (a ++ p ++ r) p) as [i|].
  - set (t := skipn _ _). assert (strstr t [] = Some O) as -> by (destruct t; reflexivity).
    rewrite last_occ_nil. reflexivity.
  - destruct (SP (length a)). exists a, r. auto.
Qed.
Theorem substr_overflow junk s : s <> [] -> substr junk s 1 2147483647 = Undef.
Proof.
  intros N. unfold substr. change (1 <? 1)%Z with false. cbv iota.
  destruct (Z.ltb_spec (strlen s) 1) as [L|L]; [|reflexivity].
  unfold strlen in L. destruct s; [contradiction|simpl in L; lia].
Qed.
