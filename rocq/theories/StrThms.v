(* Proofs about string interning. *)
From Coq Require Import List Arith NArith Bool Lia Permutation.
From Verif Require Import HashModel HashThms StrModel.
Import ListNotations.

Section S.
Variable B : nat.
Variable str_hash : list byte -> N -> N.
Hypothesis Hrange : forall s n, (0 < n -> str_hash s n < n)%N.

Notation shash := (shash str_hash).

Lemma seq_eqb_iff mem k1 k2 : seq_eqb mem k1 k2 = true <-> chars mem k1 = chars mem k2.
Proof.
  unfold seq_eqb. destruct (list_eq_dec N.eq_dec (chars mem k1) (chars mem k2));
    split; congruence.
Qed.
Lemma good mem : good_hash (shash mem) (seq_eqb mem).
Proof.
  split; intros; rewrite ?seq_eqb_iff in *; try congruence.
  - now apply Hrange.
  - unfold StrModel.shash. congruence.
Qed.

(* Saved strings *)
Definition saved (mem : list byte) (hi : nat) (p : N) (s : list byte) : Prop :=
  exists pre post, firstn hi mem = pre ++ s ++ [0%N] ++ post /\
    p = N.of_nat (length pre + 1) /\ cstring s.
Definition hi (m : smgr) : nat := Nat.min (s_cur m + s_used m) (length (s_mem m)).
Definition sinv (m : smgr) : Prop := s_cur m + B + 1 = length (s_mem m).

Lemma until0_app s l : cstring s -> until0 (s ++ [0%N] ++ l) = s.
Proof.
  induction s as [|c s IH]; cbn; auto. intros C. inversion C; subst.
  destruct (N.eqb_spec c 0); [tauto|]. f_equal. now apply IH.
Qed.
Lemma saved_read mem h p s : saved mem h p s -> read_str mem p = s.
Proof.
  intros (pre & post & E & -> & C). unfold read_str.
  rewrite <- (firstn_skipn h mem), E.
  replace (N.to_nat (N.of_nat (length pre + 1)) - 1) with (length pre) by lia.
  rewrite <- !app_assoc, skipn_app, skipn_all, Nat.sub_diag.
  change (until0 (s ++ [0%N] ++ (post ++ skipn h mem)) = s). now apply until0_app.
Qed.
Lemma saved_mono mem mem' h h' p s :
  h <= h' -> firstn h mem' = firstn h mem -> saved mem h p s -> saved mem' h' p s.
Proof.
  intros L E (pre & post & F & P & C).
  exists pre, (post ++ firstn (h' - h) (skipn h mem')). split; [|auto].
  transitivity (firstn h mem' ++ firstn (h' - h) (skipn h mem')).
  - replace h' with (h + (h' - h)) at 1 by lia. clear. revert mem'.
    induction h as [|h IH]; intros mem'; [reflexivity|].
    destruct mem' as [|c mem']; cbn; [now destruct (h' - S h)|]. f_equal.
    generalize (h' - S h). intros n. clear IH. revert mem'.
    induction h as [|h IH]; intros mem'; [reflexivity|]. destruct mem' as [|d mem']; cbn.
    + now destruct n.
    + f_equal. apply IH.
  - rewrite E, F. now rewrite <- !app_assoc.
Qed.
Lemma saved_le mem h p s : saved mem h p s -> (0 < p <= N.of_nat h)%N.
Proof.
  intros (pre & post & E & -> & C). apply (f_equal (@length byte)) in E.
  rewrite firstn_length, !app_length in E. cbn in E. lia.
Qed.

Lemma write_length mem o s :
  o + length s + 1 <= length mem -> length (write_str mem o s) = length mem.
Proof.
  intros L. unfold write_str. rewrite !app_length, firstn_length, skipn_length. cbn. lia.
Qed.
Lemma write_before mem o s h :
  h <= o -> o <= length mem -> firstn h (write_str mem o s) = firstn h mem.
Proof.
  intros L L2. unfold write_str. rewrite firstn_app, firstn_firstn, Nat.min_l by lia.
  rewrite firstn_length. replace (h - Nat.min o (length mem)) with 0 by lia.
  cbn. apply app_nil_r.
Qed.
Lemma write_at mem o s :
  o + length s + 1 <= length mem ->
  firstn (o + length s + 1) (write_str mem o s) = firstn o mem ++ s ++ [0%N].
Proof.
  intros L. unfold write_str. rewrite !app_assoc.
  replace (o + length s + 1) with (length ((firstn o mem ++ s) ++ [0%N])) at 1.
  - rewrite firstn_app, firstn_all, Nat.sub_diag. cbn. apply app_nil_r.
  - rewrite !app_length, firstn_length. cbn. lia.
Qed.

Lemma Strsave_spec g m s :
  sinv m -> cstring s -> length s <= B ->
  exists p m', Strsave B g m s = Some (p, m') /\ sinv m' /\
    firstn (hi m) (s_mem m') = firstn (hi m) (s_mem m) /\ hi m <= hi m' /\
    saved (s_mem m') (hi m') p s /\ (N.of_nat (hi m) < p)%N.
Proof.
  intros I C L. unfold Strsave. rewrite firstn_all2 by assumption.
  set (m1 := if Nat.leb B (s_used m + length s) then _ else m).
  assert (H1 : sinv m1 /\ s_used m1 + length s <= B /\ hi m <= s_cur m1 + s_used m1 /\
               firstn (hi m) (s_mem m1) = firstn (hi m) (s_mem m)).
  { unfold m1, hi. destruct (Nat.leb_spec B (s_used m + length s)); unfold sinv in *; cbn.
    - rewrite app_length, map_length, seq_length. repeat split; try lia.
      rewrite firstn_app, (proj2 (Nat.sub_0_le _ _)) by lia. cbn. apply app_nil_r.
    - repeat split; try lia. }
  destruct H1 as (I1 & U1 & H1 & F1). clearbody m1.
  destruct (Nat.ltb_spec B (s_used m1 + length s)); [lia|].
  do 2 eexists. split; [reflexivity|]. unfold sinv in *. cbn [s_mem s_cur s_used].
  assert (W : s_cur m1 + s_used m1 + length s + 1 <= length (s_mem m1)) by lia.
  rewrite (write_length _ _ _ W). split; [assumption|].
  rewrite write_before by lia. split; [assumption|].
  match goal with |- context [hi (mkS ?a ?b ?c)] =>
    assert (Hh : hi (mkS a b c) = s_cur m1 + s_used m1 + length s + 1) end.
  { unfold hi. cbn. rewrite (write_length _ _ _ W). lia. }
  rewrite Hh. split; [lia|]. split; [|lia].
  exists (firstn (s_cur m1 + s_used m1) (s_mem m1)), []. split; [|split; [|assumption]].
  - now rewrite write_at, app_nil_r.
  - rewrite firstn_length. f_equal. lia.
Qed.

Lemma WAstrsave_spec g m s :
  sinv m -> cstring s -> length s <= B ->
  exists p m', WAstrsave B g m s = Some (p, m') /\ sinv m' /\
    firstn (hi m) (s_mem m') = firstn (hi m) (s_mem m) /\ hi m <= hi m' /\
    saved (s_mem m') (hi m') p s /\ (N.of_nat (hi m) < p)%N.
Proof.
  intros I C L. destruct (Strsave_spec g m s I C L) as (p & m1 & E & I1 & F1 & H1 & S1 & P1).
  unfold WAstrsave. rewrite E. do 2 eexists. split; [reflexivity|].
  set (x := if Nat.ltb 0 (s_used m1 mod 4) then 4 - s_used m1 mod 4 else 0).
  assert (H2 : hi m1 <= hi (mkS (s_mem m1) (s_cur m1) (s_used m1 + x))) by (unfold hi; cbn; lia).
  split; [exact I1|]. cbn [s_mem]. split; [assumption|]. split; [lia|]. split; [|assumption].
  eapply saved_mono; [exact H2|reflexivity|exact S1].
Qed.

(* The table *)
Definition ent (ps : N * list byte) : skey * N := (KMem (fst ps), fst ps).
Definition iinv (x : istate) (L : list (N * list byte)) : Prop :=
  let (m, t) := x in
  sinv m /\ inv (shash (s_mem m)) t (map ent L) /\ NoDup (map snd L) /\
  forall p s, In (p, s) L -> saved (s_mem m) (hi m) p s.

Lemma hits_ent mem k L :
  (forall p s, In (p, s) L -> read_str mem p = s) ->
  hits (seq_eqb mem) k (map ent L) =
  map ent (filter (fun ps => if list_eq_dec N.eq_dec (chars mem k) (snd ps) then true else false) L).
Proof.
  intros R. unfold hits. induction L as [|[p s] L IH]; cbn; auto.
  unfold seq_eqb at 1. cbn. rewrite (R p s) by now left.
  rewrite IH by (intros; apply R; now right).
  now destruct (list_eq_dec N.eq_dec (chars mem k) s).
Qed.

Lemma filter_nodup (s : list byte) (L : list (N * list byte)) :
  NoDup (map snd L) ->
  let f := filter (fun ps => if list_eq_dec N.eq_dec s (snd ps) then true else false) L in
  f = [] /\ ~ In s (map snd L) \/ exists p, f = [(p, s)] /\ In (p, s) L.
Proof.
  cbn. induction L as [|[p s'] L IH]; cbn; [auto|]. intros N. inversion N; subst.
  specialize (IH H2). destruct (list_eq_dec N.eq_dec s s') as [->|D].
  - right. exists p. split; [|auto]. destruct IH as [[-> _]|(q & _ & I)]; [reflexivity|].
    destruct H1. now apply (in_map snd) in I.
  - destruct IH as [[-> I]|(q & -> & I)]; [left|right; eauto].
    split; [reflexivity|]. intros [E|E]; [congruence|tauto].
Qed.

Lemma uniq_ent mem L :
  (forall p s, In (p, s) L -> read_str mem p = s) -> NoDup (map snd L) ->
  uniq (seq_eqb mem) (map ent L).
Proof.
  intros R N k. rewrite (hits_ent mem k L R), map_length.
  destruct (filter_nodup (chars mem k) L N) as [[-> _]|(p & -> & _)]; cbn; lia.
Qed.

Lemma inv_mem mem mem' t L :
  (forall p s, In (p, s) L -> read_str mem' p = read_str mem p) ->
  inv (shash mem) t (map ent L) -> inv (shash mem') t (map ent L).
Proof.
  intros R (A & Bq & C & P & Q). split; [assumption|]. do 2 (split; [assumption|]).
  split; [|assumption]. intros i c Ei. specialize (P i c Ei).
  rewrite Forall_forall in *. intros x Ix. rewrite <- (P x Ix). f_equal.
  assert (Ix' : In x (map ent L)).
  { eapply Permutation_in; [exact Q|]. apply in_concat. exists c. split; [|assumption].
    now apply nth_error_In in Ei. }
  apply in_map_iff in Ix' as ((p & s) & <- & I). unfold StrModel.shash. cbn.
  now rewrite (R p s I).
Qed.

Lemma wastrsave_spec g x L s :
  iinv x L -> cstring s -> length s <= B -> (N.of_nat (length L) <= 2147483629)%N ->
  exists p x' L', wastrsave B str_hash g x s = Some (p, x') /\ iinv x' L' /\
    In (p, s) L' /\ (forall q, In q L -> In q L') /\ length L' <= S (length L).
Proof.
  destruct x as [m t]. intros (I & H & N & S0) C Ls Lr.
  assert (R : forall p s, In (p, s) L -> read_str (s_mem m) p = s).
  { intros p' s' J. eapply saved_read, S0, J. }
  unfold wastrsave.
  rewrite (find_inv _ _ (good (s_mem m)) t (map ent L)); [|assumption|now apply uniq_ent].
  rewrite sp_find_hits, (hits_ent _ _ L R). cbn [chars].
  destruct (filter_nodup s L N) as [[-> Ns]|(p & -> & Ip)]; cbn [map].
  - cbn. destruct (WAstrsave_spec g m s I C Ls) as (p & m' & E & I' & F & Hh & Sv & Lp).
    rewrite E.
    assert (S1 : forall p s, In (p, s) L -> saved (s_mem m') (hi m') p s).
    { intros q z J. eapply saved_mono; [exact Hh|exact F|auto]. }
    assert (H' : inv (shash (s_mem m')) t (map ent L)).
    { apply inv_mem with (mem := s_mem m); [|assumption]. intros q z J.
      rewrite (R q z J). eapply saved_read, S1, J. }
    destruct (insert_inv _ _ (good (s_mem m')) t (map ent L) (KMem p) p H') as (t' & Et & Ht).
    { unfold room. now rewrite map_length. }
    rewrite Et. exists p, (m', t'), ((p, s) :: L). split; [reflexivity|]. split.
    + split; [assumption|]. split; [exact Ht|]. split; [constructor; assumption|].
      intros q z [[= <- <-]|J]; auto.
    + split; [now left|]. split; [intros; now right|]. cbn. lia.
  - cbn. pose proof (saved_le _ _ _ _ (S0 p s Ip)).
    destruct (N.eqb_spec p 0); [lia|]. exists p, (m, t), L.
    split; [reflexivity|]. split; [exact (conj I (conj H (conj N S0)))|]. auto.
Qed.

Lemma wrun_spec g l : forall x L,
  iinv x L -> Forall (fun s => cstring s /\ length s <= B) l ->
  (N.of_nat (length L + length l) <= 2147483629)%N ->
  exists ps x' L', wrun B str_hash g l x = Some (ps, x') /\ iinv x' L' /\
    (forall q, In q L -> In q L') /\ Forall2 (fun s p => In (p, s) L') l ps.
Proof.
  induction l as [|s l IH]; intros x L I F Lr.
  { exists [], x, L. repeat split; auto. }
  inversion F as [|? ? [C Ls] F']; subst. cbn [wrun]. cbn [length] in Lr.
  destruct (wastrsave_spec g x L s I C Ls) as (p & x1 & L1 & E1 & I1 & J1 & K1 & N1); [lia|].
  rewrite E1. destruct (IH x1 L1 I1 F') as (ps & x2 & L2 & E2 & I2 & K2 & J2); [lia|].
  rewrite E2. exists (p :: ps), x2, L2. split; [reflexivity|]. split; [assumption|].
  split; [auto|]. constructor; auto.
Qed.

Lemma init_spec g : exists x, init_symb B g = Some x /\ iinv x [].
Proof.
  unfold init_symb. destruct (create_inv (shash (map g (seq 0 (B + 1)))) 10000%N) as (t & E & I); [lia|].
  rewrite E. eexists. split; [reflexivity|]. split.
  - unfold sinv. cbn [s_mem s_cur]. rewrite map_length, seq_length. lia.
  - split; [exact I|]. split; [constructor|]. intros p s [].
Qed.

Lemma intern_lemma g l :
  Forall (fun s => cstring s /\ length s <= B) l -> (N.of_nat (length l) <= 2147483629)%N ->
  exists x0 ps m t, init_symb B g = Some x0 /\ wrun B str_hash g l x0 = Some (ps, (m, t)) /\
    length ps = length l /\
    (forall i s p, nth_error l i = Some s -> nth_error ps i = Some p ->
       (0 < p)%N /\ read_str (s_mem m) p = s) /\
    (forall i j s1 s2 p1 p2,
       nth_error l i = Some s1 -> nth_error ps i = Some p1 ->
       nth_error l j = Some s2 -> nth_error ps j = Some p2 ->
       (p1 = p2 <-> s1 = s2)).
Proof.
  intros F Lr. destruct (init_spec g) as (x0 & E0 & I0).
  destruct (wrun_spec g l x0 [] I0 F) as (ps & [m t] & L & E & (I & H & N & S0) & _ & J); [cbn; lia|].
  exists x0, ps, m, t. split; [assumption|]. split; [assumption|].
  assert (Len : length ps = length l) by (clear - J; induction J; cbn; congruence).
  split; [assumption|].
  assert (K : forall i s p, nth_error l i = Some s -> nth_error ps i = Some p -> In (p, s) L).
  { clear - J. induction J; intros [|i] s p; cbn; try discriminate; [|apply IHJ].
    now intros [= <-] [= <-]. }
  split.
  - intros i s p Ei Ep. specialize (K i s p Ei Ep). apply S0 in K. split.
    + apply (saved_le _ _ _ _ K).
    + now apply saved_read in K.
  - intros i j s1 s2 p1 p2 A1 B1 A2 B2. pose proof (K _ _ _ A1 B1) as K1.
    pose proof (K _ _ _ A2 B2) as K2. split.
    + intros <-. apply S0, saved_read in K1. apply S0, saved_read in K2. congruence.
    + intros <-. clear - N K1 K2. induction L as [|[p s] L IH]; [destruct K1|].
      cbn in N. inversion N; subst. destruct K1 as [[= -> ->]|K1], K2 as [[= -> ]|K2]; auto.
      * destruct H1. now apply (in_map snd) in K2.
      * destruct H1. subst. now apply (in_map snd) in K1.
Qed.

(* A call does not change what earlier calls saved. *)
Lemma stable_lemma g x L s p x' :
  iinv x L -> cstring s -> length s <= B -> (N.of_nat (length L) <= 2147483629)%N ->
  wastrsave B str_hash g x s = Some (p, x') ->
  forall q z, In (q, z) L -> read_str (s_mem (fst x')) q = z.
Proof.
  intros I C Ls Lr E q z J.
  destruct (wastrsave_spec g x L s I C Ls Lr) as (p' & [m t] & L' & E' & (_ & _ & _ & S0) & _ & K & _).
  rewrite E in E'. injection E' as <- ->. cbn. eapply saved_read, S0, K, J.
Qed.
End S.
