(* Lemmas on tables with generations. *)
From Coq Require Import List Arith NArith Bool Lia Permutation.
From Verif Require Import HashModel HashThms GenModel GenSpec.
Import ListNotations.
Local Open Scope N_scope.

Section Thms.
Context {K : Type} (hash_fn : K -> N -> N) (hash_eq : K -> K -> bool) (word : K -> N).
Hypothesis G : good_hash hash_fn hash_eq.
Hypothesis W : forall k, word k <> 0.

Notation blist := (list (K * N)).
Notation look := (sp_find hash_eq).
Notation bd := (bound hash_eq).
Notation uq := (uniq hash_eq).
Notation hit := (hits hash_eq).
Notation del := (sp_del hash_eq).
Notation inv := (HashThms.inv hash_fn).
Definition nz (m : blist) : Prop := Forall (fun e => snd e <> 0) m.

Lemma bd_hits k m : bd k m = negb (Nat.eqb (length (hit k m)) 0).
Proof using.
  unfold bound, hits. induction m as [|[k' d] m IH]; cbn; [reflexivity|].
  destruct (hash_eq k k'); cbn; auto.
Qed.
Lemma bd_look k m : nz m -> bd k m = negb (look k m =? 0).
Proof using.
  induction 1 as [|[k' d] m N _ IH]; cbn; [reflexivity|]. cbn in N.
  destruct (hash_eq k k'); cbn; [|exact IH]. now destruct (N.eqb_spec d 0).
Qed.
Lemma look_app k a b : nz a -> look k (a ++ b) = if look k a =? 0 then look k b else look k a.
Proof using.
  induction 1 as [|[k' d] m N _ IH]; cbn; [reflexivity|]. cbn in N.
  destruct (hash_eq k k'); [|exact IH]. now destruct (N.eqb_spec d 0).
Qed.
Lemma bd_app k a b : bd k (a ++ b) = bd k a || bd k b.
Proof using. apply existsb_app. Qed.
Lemma look_unbound k m : bd k m = false -> look k m = 0.
Proof using.
  unfold bound. induction m as [|[k' d] m IH]; cbn; [reflexivity|].
  destruct (hash_eq k k'); cbn; [discriminate|exact IH].
Qed.
Lemma look_cong k j m : hash_eq j k = true -> look j m = look k m.
Proof using G.
  intros E. induction m as [|[k' d] m IH]; cbn; [reflexivity|].
  rewrite (eq_flip _ _ G j k'), (eq_flip _ _ G k k'), (eq_cong _ _ G k' j k E), IH. reflexivity.
Qed.
Lemma bd_cong k j m : hash_eq j k = true -> bd j m = bd k m.
Proof using G.
  intros E. unfold bound. induction m as [|[k' d] m IH]; cbn; [reflexivity|].
  rewrite (eq_flip _ _ G j k'), (eq_flip _ _ G k k'), (eq_cong _ _ G k' j k E), IH. reflexivity.
Qed.
Lemma uq_two k m : uq m -> bd k m = true -> length (hit k m) = 1%nat.
Proof using.
  intros U B. rewrite bd_hits in B. specialize (U k).
  destruct (length (hit k m)) as [|[|n]]; cbn in B; [discriminate|reflexivity|lia].
Qed.
Lemma uq_app a b : uq (a ++ b) <-> uq a /\ uq b /\ forall k, bd k a = true -> bd k b = false.
Proof using.
  unfold uniq. split.
  - intros U. split; [|split].
    + intros k. specialize (U k). rewrite hits_app, app_length in U. lia.
    + intros k. specialize (U k). rewrite hits_app, app_length in U. lia.
    + intros k B. specialize (U k). rewrite hits_app, app_length in U. rewrite bd_hits in *.
      destruct (length (hit k a)); [discriminate|]. destruct (length (hit k b)); [reflexivity|lia].
  - intros (A & B & C) k. specialize (A k). specialize (B k). specialize (C k).
    rewrite hits_app, app_length. rewrite !bd_hits in C.
    destruct (length (hit k a)); [cbn; lia|]. cbn in C. specialize (C eq_refl).
    destruct (length (hit k b)); [lia|discriminate].
Qed.

(* The same finite map, up to the choice of keys *)
Definition eqv (m m' : blist) : Prop :=
  uq m /\ uq m' /\ nz m /\ nz m' /\ length m = length m' /\ forall k, look k m = look k m'.

Lemma eqv_sym m m' : eqv m m' -> eqv m' m.
Proof using. intros (A & B & C & D & E & F). repeat split; auto. Qed.
Lemma eqv_trans a b c : eqv a b -> eqv b c -> eqv a c.
Proof using.
  intros (A & B & C & D & E & F) (A' & B' & C' & D' & E' & F').
  repeat split; auto; [congruence|]. intros k. now rewrite F.
Qed.
Lemma eqv_bd m m' k : eqv m m' -> bd k m = bd k m'.
Proof using. intros (A & B & C & D & E & F). now rewrite !bd_look, F. Qed.
Lemma nz_perm m m' : Permutation m m' -> nz m -> nz m'.
Proof using. intros P N. eapply Permutation_Forall; eauto. Qed.
Lemma eqv_perm m m' : uq m -> nz m -> Permutation m m' -> eqv m m'.
Proof using.
  intros U N P. split; [exact U|]. split; [eapply uniq_perm; eauto|]. split; [exact N|].
  split; [eapply nz_perm; eauto|]. split; [now apply Permutation_length|].
  intros k. rewrite !sp_find_hits. now rewrite (hits_perm _ k m m' U P).
Qed.
Lemma eqv_cons k d m m' : d <> 0 -> bd k m = false -> eqv m m' ->
  eqv ((k, d) :: m) ((k, d) :: m').
Proof using G.
  intros D B E. pose proof (eqv_bd m m' k E) as B'. rewrite B in B'.
  destruct E as (U & U' & Z & Z' & L & F).
  split; [now apply (uniq_cons _ _ G)|]. split; [now apply (uniq_cons _ _ G)|].
  split; [now constructor|]. split; [now constructor|]. split; [cbn; congruence|].
  intros j. cbn. now rewrite F.
Qed.
Lemma nz_del k m : nz m -> nz (del k m).
Proof using.
  unfold nz. rewrite !Forall_forall. intros H x I. apply H. eapply sp_del_in; eauto.
Qed.
Lemma length_del k m : bd k m = true -> length m = Datatypes.S (length (del k m)).
Proof using.
  intros B. apply bound_hits in B. destruct (sp_del_perm1 _ k m B) as (e & _ & _ & P).
  apply Permutation_length in P. exact P.
Qed.
Lemma look_del k m j : uq m -> look j (del k m) = if hash_eq j k then 0 else look j m.
Proof using G.
  intros U. induction m as [|[k' d] m IH]; cbn; [now destruct (hash_eq j k)|].
  assert (U' : uq m) by (intros i; specialize (U i); cbn in U; destruct (hash_eq i k'); cbn in U; unfold hits; lia).
  destruct (hash_eq k k') eqn:E.
  - assert (Z : bd k m = false).
    { specialize (U k). cbn in U. rewrite E in U. cbn in U. rewrite bd_hits. unfold hits.
      destruct (length _); [reflexivity|lia]. }
    destruct (hash_eq j k) eqn:J.
    + rewrite (look_cong k j m J). now apply look_unbound.
    + replace (hash_eq j k') with false; [reflexivity|]. rewrite <- J. apply (eq_cong _ _ G), E.
  - cbn. rewrite (IH U'). destruct (hash_eq j k) eqn:J; [|reflexivity].
    replace (hash_eq j k') with false; [reflexivity|].
    rewrite (eq_flip _ _ G j k'), (eq_cong _ _ G k' j k J), (eq_flip _ _ G k' k). now rewrite E.
Qed.
Lemma eqv_del k m m' : bd k m = true -> eqv m m' -> eqv (del k m) (del k m').
Proof using G.
  intros B E. pose proof (eqv_bd m m' k E) as B'. rewrite B in B'. symmetry in B'.
  destruct E as (U & U' & Z & Z' & L & F).
  split; [now apply uniq_del|]. split; [now apply uniq_del|].
  split; [now apply nz_del|]. split; [now apply nz_del|]. split.
  - apply length_del in B. apply length_del in B'. lia.
  - intros j. rewrite !look_del by assumption. now rewrite F.
Qed.
Lemma bd_del k m : uq m -> nz m -> bd k (del k m) = false.
Proof using G.
  intros U Z. rewrite bd_look by now apply nz_del. rewrite look_del by assumption.
  now rewrite (gh_refl _ _ G).
Qed.
Lemma eqv_move k m : uq m -> nz m -> bd k m = true -> eqv m ((k, look k m) :: del k m).
Proof using G.
  intros U Z B. split; [exact U|].
  split; [apply (uniq_cons _ _ G); [now apply uniq_del|now apply bd_del]|].
  split; [exact Z|]. split.
  { constructor; [|now apply nz_del]. cbn. rewrite (bd_look k m Z) in B.
    now destruct (N.eqb_spec (look k m) 0). }
  split; [cbn; now apply length_del|]. intros j. cbn. rewrite look_del by assumption.
  destruct (hash_eq j k) eqn:J; [now apply look_cong|reflexivity].
Qed.
Lemma eqv_app c a b : nz c -> uq (c ++ b) -> eqv a b -> eqv (c ++ a) (c ++ b).
Proof using.
  intros Z U E. pose proof E as (Ua & Ub & Za & Zb & L & F). split.
  { apply uq_app. apply uq_app in U. destruct U as (A & B & C). split; [exact A|].
    split; [exact Ua|]. intros k Bk. rewrite (eqv_bd a b k E). now apply C. }
  split; [exact U|]. split; [now apply Forall_app|]. split; [now apply Forall_app|].
  split; [rewrite !app_length; congruence|]. intros k. rewrite !look_app by assumption.
  now rewrite F.
Qed.
Lemma eqv_refl m : uq m -> nz m -> eqv m m.
Proof using. intros U Z. repeat split; auto. Qed.

(* The bindings in to_del *)
Definition tags (l : blist) : blist := map (fun e => (fst e, word (fst e))) l.
Lemma nz_tags l : nz (tags l).
Proof using W. apply Forall_forall. intros x I. apply in_map_iff in I. destruct I as (y & <- & _). apply W. Qed.
Lemma bd_tags k l : bd k (tags l) = bd k l.
Proof using. unfold bound, tags. induction l as [|e l IH]; cbn; [reflexivity|]. now rewrite IH. Qed.
Lemma hit_tags k l : length (hit k (tags l)) = length (hit k l).
Proof using.
  unfold hits, tags. induction l as [|e l IH]; cbn; [reflexivity|].
  destruct (hash_eq k (fst e)); cbn; congruence.
Qed.
Lemma uq_tags l : uq l -> uq (tags l).
Proof using. intros U k. rewrite hit_tags. apply U. Qed.
Lemma find_zero t m k : inv t m -> uq m -> nz m ->
  exists d, find_hash hash_fn hash_eq t k = Some d /\ negb (d =? 0) = bd k m /\ d = look k m.
Proof using G.
  intros I U Z. exists (look k m). split; [now apply find_inv|]. split; [|reflexivity].
  now rewrite bd_look.
Qed.

Lemma del_all_spec l : forall t m, inv t m -> uq m -> nz m -> uq l ->
  (forall k, bd k l = true -> bd k m = true) ->
  exists t' m', del_all hash_fn hash_eq l t = Some t' /\ inv t' m' /\ uq m' /\ nz m' /\
    (length m' + length l = length m)%nat /\
    forall k, look k m' = if bd k l then 0 else look k m.
Proof using G.
  induction l as [|[k d] l IH]; intros t m I U Z Ul S; cbn [del_all].
  { exists t, m. cbn. repeat split; auto; try lia; apply I. }
  assert (B : bd k m = true) by (apply S; cbn; now rewrite (gh_refl _ _ G)).
  destruct (delete_inv _ _ G t m k I U B) as (t1 & E1 & I1). rewrite E1.
  change ((k, d) :: l) with ([(k, d)] ++ l) in Ul. apply uq_app in Ul. destruct Ul as (_ & Ul & Di).
  assert (Dk : bd k l = false) by (apply Di; cbn; now rewrite (gh_refl _ _ G)).
  destruct (IH t1 (del k m) I1 (uniq_del _ k m U) (nz_del k m Z) Ul) as (t' & m' & E' & I' & U' & Z' & L' & F').
  { intros j Bj. rewrite bd_look by now apply nz_del. rewrite look_del by assumption.
    destruct (hash_eq j k) eqn:J.
    - rewrite (bd_cong k j l J) in Bj. congruence.
    - rewrite <- bd_look by assumption. apply S. cbn. now rewrite J. }
  exists t', m'. split; [exact E'|]. split; [exact I'|]. split; [exact U'|]. split; [exact Z'|].
  split; [apply length_del in B; cbn; lia|]. intros j. rewrite F', look_del by assumption.
  cbn. destruct (hash_eq j k) eqn:J; cbn; [now destruct (bd j l)|reflexivity].
Qed.

Lemma add_all_spec l : forall t m, inv t m ->
  N.of_nat (length l + length m) <= 2147483630 ->
  exists t' m', add_all hash_fn l t = Some t' /\ inv t' m' /\ Permutation m' (l ++ m).
Proof using G.
  induction l as [|[k d] l IH]; intros t m I L; cbn [add_all].
  { exists t, m. auto. }
  cbn [length] in L.
  destruct (insert_inv _ _ G t m k d I) as (t1 & E1 & I1); [unfold room; lia|]. rewrite E1.
  destruct (IH t1 ((k, d) :: m) I1) as (t' & m' & E' & I' & P'); [cbn [length]; lia|].
  exists t', m'. split; [exact E'|]. split; [exact I'|].
  eapply Permutation_trans; [exact P'|]. symmetry. cbn. apply Permutation_middle.
Qed.

(* The open generations *)
Fixpoint gens (b : nat) (cur : blist) (ds : list (htab K * htab K)) (ss : list (fmap (K := K)))
    (ts : list (list K)) : Prop :=
  (length cur <= b)%nat /\
  match ds, ss, ts with
  | [], [], [] => True
  | (td, ta) :: ds, f :: ss, T :: ts =>
      exists s I A C, inv td (tags I) /\ inv ta A /\ eqv cur (I ++ C) /\ eqv s (A ++ C) /\
        (forall k, bd k I || bd k A = existsb (hash_eq k) T) /\
        (forall k, look k s = f k) /\ gens b s ds ss ts
  | _, _, _ => False
  end.

Definition state (b : nat) (g : gtab K) (w : world (K := K)) (ts : list (list K)) : Prop :=
  exists m, inv (g_main g) m /\ uq m /\ nz m /\ (forall k, look k m = fst w k) /\
    gens b m (g_diffs g) (snd w) ts.

Lemma gens_mono b b' cur ds ss ts : (b <= b')%nat -> gens b cur ds ss ts -> gens b' cur ds ss ts.
Proof using.
  intros L. revert cur ss ts. induction ds as [|[td ta] ds IH]; intros cur [|f ss] [|T ts] [Lc H];
    (split; [lia|]); try exact H.
  destruct H as (s & I & A & C & H1 & H2 & H3 & H4 & H5 & H6 & H7).
  exists s, I, A, C. repeat (split; [assumption|]). now apply IH.
Qed.
Lemma gens_eqv b m m' ds ss ts : eqv m m' -> gens b m ds ss ts -> gens b m' ds ss ts.
Proof using.
  intros E H. assert (L : length m = length m') by apply E.
  destruct ds as [|[td ta] ds], ss as [|f ss], ts as [|T ts]; destruct H as [Lc H];
    (split; [lia|]); try exact H.
  destruct H as (s & I & A & C & H1 & H2 & H3 & H4 & H5 & H6 & H7).
  exists s, I, A, C. repeat (split; [assumption|]). split; [|tauto].
  eapply eqv_trans; [apply eqv_sym, E|exact H3].
Qed.

Lemma step_ins b g w ts k d : state b g w ts -> (N.of_nat b < 2147483630) -> d <> 0 ->
  fst w k = 0 -> touched hash_eq k ts = false ->
  exists g', gstep hash_fn hash_eq word (GIns k d) g = Some (0, g') /\
    state (b + 1) g' (put hash_eq k d (fst w), snd w) (touch k ts).
Proof using G W.
  intros (m & Im & U & Z & F & H) B D F0 T0. destruct g as [mt ds], w as [f ss]. cbn in *.
  unfold insert_gen_hash. cbn [g_diffs g_main].
  destruct ds as [|[td ta] ds], ss as [|s0 ss], ts as [|T ts]; destruct H as [Lc H]; try (now destruct H);
    try discriminate.
  destruct H as (s & I & A & C & H1 & H2 & H3 & H4 & H5 & H6 & H7). cbn in T0.
  rewrite <- H5 in T0. apply orb_false_iff in T0. destruct T0 as [TI TA].
  pose proof H3 as (_ & UIC & _ & ZIC & LIC & _). pose proof H4 as (_ & UAC & _ & ZAC & LAC & _).
  apply uq_app in UIC. destruct UIC as (UI & UC & DIC). apply uq_app in UAC. destruct UAC as (UA & _ & _).
  apply Forall_app in ZIC. apply Forall_app in ZAC. rewrite app_length in LIC, LAC.
  destruct (find_zero td (tags I) k H1 (uq_tags I UI) (nz_tags I)) as (d1 & E1 & N1 & _).
  destruct (find_zero ta A k H2 UA (proj1 ZAC)) as (d2 & E2 & N2 & _).
  destruct (find_zero mt m k Im U Z) as (d3 & E3 & N3 & V3).
  rewrite bd_tags in N1. rewrite E1, E2, E3, N1, N2, TI, TA. cbn [orb].
  assert (Bk : bd k m = false) by (rewrite bd_look, F, F0 by assumption; reflexivity).
  destruct (insert_inv _ _ G td (tags I) k (word k) H1) as (td' & E4 & I4).
  { unfold room, tags. rewrite map_length. lia. }
  rewrite E4, N3, Bk.
  destruct (insert_inv _ _ G mt m k d Im) as (mt' & E5 & I5); [unfold room; lia|].
  rewrite E5. cbn [option_map]. eexists. split; [reflexivity|].
  exists ((k, d) :: m). cbn [g_main g_diffs fst snd]. split; [exact I5|].
  split; [now apply (uniq_cons _ _ G)|]. split; [now constructor|].
  split; [intros j; cbn; unfold put; now rewrite F|].
  split; [cbn; lia|]. exists s, ((k, d) :: I), A, C. split; [exact I4|]. split; [exact H2|].
  split; [apply (eqv_cons k d m (I ++ C)); assumption|]. split; [exact H4|].
  split; [intros j; cbn; rewrite <- H5; unfold bound; destruct (hash_eq j k); reflexivity|].
  split; [exact H6|]. apply (gens_mono b); [lia|exact H7].
Qed.

Lemma step_del b g w ts k : state b g w ts -> (N.of_nat b <= 2147483630) ->
  fst w k <> 0 -> touched hash_eq k ts = false ->
  exists g', gstep hash_fn hash_eq word (GDel k) g = Some (0, g') /\
    state b g' (put hash_eq k 0 (fst w), snd w) (touch k ts).
Proof using G W.
  intros (m & Im & U & Z & F & H) B F0 T0. destruct g as [mt ds], w as [f ss]. cbn in *.
  unfold delete_gen_hash. cbn [g_diffs g_main].
  destruct ds as [|[td ta] ds], ss as [|s0 ss], ts as [|T ts]; destruct H as [Lc H]; try (now destruct H);
    try discriminate.
  destruct H as (s & I & A & C & H1 & H2 & H3 & H4 & H5 & H6 & H7). cbn in T0.
  rewrite <- H5 in T0. apply orb_false_iff in T0. destruct T0 as [TI TA].
  pose proof H3 as (_ & UIC & _ & ZIC & LIC & FIC). pose proof H4 as (_ & UAC & _ & ZAC & LAC & FAC).
  pose proof UAC as UAC'. pose proof ZAC as ZAC'.
  apply uq_app in UIC. destruct UIC as (UI & UC & DIC). apply uq_app in UAC. destruct UAC as (UA & _ & _).
  apply Forall_app in ZIC. apply Forall_app in ZAC. rewrite app_length in LIC, LAC.
  destruct (find_zero td (tags I) k H1 (uq_tags I UI) (nz_tags I)) as (d1 & E1 & N1 & _).
  destruct (find_zero ta A k H2 UA (proj1 ZAC)) as (d2 & E2 & N2 & _).
  destruct (find_zero mt m k Im U Z) as (d3 & E3 & N3 & V3).
  rewrite bd_tags in N1. rewrite E1, E2, E3, N1, N2, TI, TA. cbn [orb].
  assert (Bk : bd k m = true).
  { rewrite bd_look, F by assumption. now destruct (N.eqb_spec (f k) 0). }
  assert (BC : bd k C = true).
  { pose proof (eqv_bd _ _ k H3) as Q. rewrite Bk, bd_app, TI in Q. now symmetry. }
  assert (Ls : (length s <= b)%nat) by (destruct ds as [|[? ?] ?]; apply H7).
  pose proof (length_del k C BC) as LC.
  rewrite N3, Bk. destruct (insert_inv _ _ G ta A k d3 H2) as (ta' & E4 & I4).
  { unfold room. lia. }
  rewrite E4. destruct (delete_inv _ _ G mt m k Im U Bk) as (mt' & E5 & I5).
  rewrite E5. cbn [option_map]. eexists. split; [reflexivity|].
  exists (del k m). cbn [g_main g_diffs fst snd]. split; [exact I5|].
  split; [now apply uniq_del|]. split; [now apply nz_del|].
  split; [intros j; rewrite look_del by assumption; unfold put; now rewrite F|].
  split; [apply length_del in Bk; lia|]. exists s, I, ((k, d3) :: A), (del k C).
  split; [exact H1|]. split; [exact I4|].
  split.
  { rewrite <- (sp_del_app1 hash_eq k I C) by now apply bound_none. now apply eqv_del. }
  split.
  { eapply eqv_trans; [exact H4|]. cbn [app].
    rewrite <- (sp_del_app1 hash_eq k A C) by now apply bound_none.
    replace d3 with (look k (A ++ C)).
    - apply eqv_move; [assumption|assumption|]. rewrite bd_app, BC. apply orb_true_r.
    - rewrite V3, FIC, !look_app by tauto. rewrite (look_unbound k A TA), (look_unbound k I TI). reflexivity. }
  split; [intros j; cbn; rewrite <- H5; unfold bound; destruct (hash_eq j k), (existsb _ I); reflexivity|].
  split; [exact H6|exact H7].
Qed.

Lemma step_find b g w ts k : state b g w ts ->
  gstep hash_fn hash_eq word (GFind k) g = Some (fst w k, g).
Proof using G.
  intros (m & Im & U & Z & F & H). cbn. unfold find_gen_hash. now rewrite (find_inv _ _ G _ m k Im U), F.
Qed.

Lemma step_begin b g w ts : state b g w ts ->
  exists g', gstep hash_fn hash_eq word GBegin g = Some (0, g') /\
    state b g' (fst w, fst w :: snd w) ([] :: ts).
Proof using G W.
  intros (m & Im & U & Z & F & H). cbn [gstep]. unfold begin_generation.
  destruct (create_inv hash_fn 100) as (t & E & I); [lia|]. rewrite E. cbn [option_map].
  eexists. split; [reflexivity|]. exists m. cbn [g_main g_diffs fst snd gens]. split; [exact Im|]. split; [exact U|]. split; [exact Z|].
  split; [exact F|].
  assert (L : (length m <= b)%nat) by (destruct (g_diffs g) as [|[? ?] ?]; apply H).
  split; [exact L|]. exists m, [], [], m. split; [exact I|]. split; [exact I|].
  split; [now apply eqv_refl|]. split; [now apply eqv_refl|]. split; [reflexivity|]. split; [exact F|exact H].
Qed.

Lemma step_end b g w ts : state b g w ts -> (N.of_nat b <= 2147483630) -> ts <> [] ->
  exists g', gstep hash_fn hash_eq word GEnd g = Some (0, g') /\
    state b g' (snd (sp_step hash_eq GEnd w)) (tl ts).
Proof using G W.
  intros (m & Im & U & Z & F & H) B T0. destruct g as [mt ds], w as [f ss].
  cbn [gstep sp_step fst snd g_main g_diffs] in *. unfold end_generation. cbn [g_diffs g_main].
  destruct ds as [|[td ta] ds], ss as [|s0 ss], ts as [|T ts]; destruct H as [Lc H]; try (now destruct H).
  destruct H as (s & I & A & C & H1 & H2 & H3 & H4 & H5 & H6 & H7).
  pose proof H3 as (_ & UIC & _ & ZIC & LIC & FIC). pose proof H4 as (_ & UAC & _ & ZAC & LAC & FAC).
  pose proof UAC as UAC'. pose proof ZAC as ZAC'.
  apply uq_app in UIC. destruct UIC as (UI & UC & DIC). apply uq_app in UAC. destruct UAC as (UA & _ & _).
  apply Forall_app in ZIC. apply Forall_app in ZAC. rewrite app_length in LIC, LAC.
  assert (P1 : Permutation (tags I) (scan_hash td)) by (symmetry; apply H1).
  assert (P2 : Permutation A (scan_hash ta)) by (symmetry; apply H2).
  pose proof (eqv_perm _ _ (uq_tags I UI) (nz_tags I) P1) as V1.
  pose proof (eqv_perm _ _ UA (proj1 ZAC) P2) as V2.
  destruct (del_all_spec (scan_hash td) mt m Im U Z) as (t1 & m1 & E1 & I1 & U1 & Z1 & L1 & F1).
  { apply V1. }
  { intros k Bk. rewrite <- (eqv_bd _ _ k V1), bd_tags in Bk. rewrite (eqv_bd _ _ k H3), bd_app, Bk. reflexivity. }
  rewrite E1. apply Permutation_length in P1. unfold tags in P1. rewrite map_length in P1.
  assert (M1 : eqv m1 C).
  { split; [exact U1|]. split; [exact UC|]. split; [exact Z1|]. split; [tauto|]. split; [lia|].
    intros k. rewrite F1, <- (eqv_bd _ _ k V1), bd_tags, FIC, look_app by tauto.
    destruct (bd k I) eqn:Bk; [symmetry; now apply look_unbound, DIC|]. now rewrite (look_unbound k I Bk). }
  assert (Ls : (length s <= b)%nat) by (destruct ds as [|[? ?] ?]; apply H7).
  assert (L2 := Permutation_length P2).
  destruct (add_all_spec (scan_hash ta) t1 m1 I1) as (t2 & m2 & E2 & I2 & Pm); [lia|].
  rewrite E2. cbn [option_map]. eexists. split; [reflexivity|].
  assert (Q : eqv s m2).
  { eapply eqv_trans; [exact H4|]. apply eqv_sym.
    eapply eqv_trans; [|apply eqv_app; [tauto|exact UAC'|exact M1]]. apply eqv_sym.
    destruct (eqv_app A m1 C) as (Q1 & _ & Q2 & _); [tauto|exact UAC'|exact M1|].
    apply eqv_perm; [exact Q1|exact Q2|]. eapply Permutation_trans; [|symmetry; exact Pm].
    now apply Permutation_app_tail. }
  exists m2. cbn [g_main g_diffs fst snd tl]. split; [exact I2|]. split; [apply Q|]. split; [apply Q|].
  split; [|eapply gens_eqv; eassumption].
  intros k. rewrite <- H6. symmetry. apply Q.
Qed.

Lemma run_refines l : forall b g w ts, state b g w ts -> proper hash_eq l w ts ->
  N.of_nat b + inserts l <= 2147483630 ->
  exists g', grun hash_fn hash_eq word l g = Some (fst (sp_run hash_eq l w), g').
Proof using G W.
  induction l as [|o l IH]; intros b g w ts S P B; cbn [grun sp_run].
  { exists g. reflexivity. }
  assert (step : exists b' ts' g', gstep hash_fn hash_eq word o g = Some (fst (sp_step hash_eq o w), g') /\
    state b' g' (snd (sp_step hash_eq o w)) ts' /\ proper hash_eq l (snd (sp_step hash_eq o w)) ts' /\
    N.of_nat b' + inserts l <= 2147483630).
  { unfold inserts in *. destruct w as [m st].
    destruct o as [k d|k|k| |]; cbn [proper filter length fst] in *.
    - destruct P as (D & F0 & T0 & P). destruct (step_ins b g _ ts k d S) as (g' & E & S'); try assumption; [lia|].
      exists (b + 1)%nat, (touch k ts), g'. split; [exact E|]. split; [exact S'|]. split; [exact P|]. lia.
    - destruct P as (F0 & T0 & P). destruct (step_del b g _ ts k S) as (g' & E & S'); try assumption; [lia|].
      exists b, (touch k ts), g'. auto.
    - exists b, ts, g. split; [exact (step_find b g _ ts k S)|]. auto.
    - destruct (step_begin b g _ ts S) as (g' & E & S'). exists b, ([] :: ts), g'. auto.
    - destruct P as (T0 & P). destruct (step_end b g _ ts S) as (g' & E & S'); try assumption; [lia|].
      exists b, (tl ts), g'. split; [|auto]. cbn [sp_step fst]. exact E. }
  destruct step as (b' & ts' & g1 & E & S' & P' & B'). rewrite E.
  destruct (IH b' g1 _ ts' S' P' B') as (g2 & E2). rewrite E2.
  destruct (sp_step hash_eq o w) as [a w1]. cbn [fst snd] in *.
  destruct (sp_run hash_eq l w1) as [r w2]. exists g2. reflexivity.
Qed.

Lemma start_state size : size <= 2147483629 ->
  exists g, create_gen_hash size = Some g /\ state 0 g start [[]].
Proof using G W.
  intros L. unfold create_gen_hash, begin_generation.
  destruct (create_inv hash_fn size L) as (t & E & I). rewrite E.
  destruct (create_inv hash_fn 100) as (t1 & E1 & I1); [lia|]. rewrite E1.
  eexists. split; [reflexivity|]. exists []. cbn.
  assert (U : uq []) by (intros k; cbn; lia). assert (Z : nz []) by constructor.
  split; [exact I|]. split; [exact U|]. split; [exact Z|]. split; [reflexivity|]. split; [lia|].
  exists [], [], [], []. cbn. repeat (split; [first [assumption | now apply eqv_refl | reflexivity | lia]|]).
  exact Logic.I.
Qed.

Lemma gen_map size l : size <= 2147483629 -> inserts l <= 2147483630 ->
  proper hash_eq l start [[]] ->
  exists g g', create_gen_hash size = Some g /\
    grun hash_fn hash_eq word l g = Some (fst (sp_run hash_eq l start), g').
Proof using G W.
  intros L B P. destruct (start_state size L) as (g & E & S). exists g.
  destruct (run_refines l 0 g start [[]] S P) as (g' & E'); [cbn; lia|]. eauto.
Qed.
End Thms.

(* The specification restores *)
Section Restore.
Context {K : Type} (hash_eq : K -> K -> bool).

Lemma sp_run_app l1 l2 w : sp_run hash_eq (l1 ++ l2) w =
  (fst (sp_run hash_eq l1 w) ++ fst (sp_run hash_eq l2 (snd (sp_run hash_eq l1 w))),
   snd (sp_run hash_eq l2 (snd (sp_run hash_eq l1 w)))).
Proof using.
  revert w. induction l1 as [|o l1 IH]; intros w; cbn [app sp_run].
  { cbn [app fst snd]. destruct (sp_run hash_eq l2 w). reflexivity. }
  destruct (sp_step hash_eq o w) as [a w1]. rewrite IH.
  destruct (sp_run hash_eq l1 w1) as [r w2]. reflexivity.
Qed.
Lemma closes_stack l : forall n w (top rest : list (fmap (K := K))),
  closes n l = true -> snd w = top ++ rest -> length top = n ->
  snd (snd (sp_run hash_eq l w)) = rest.
Proof using.
  induction l as [|o l IH]; intros n w top rest C E L.
  { cbn in *. apply Nat.eqb_eq in C. subst n. destruct top; [exact E|discriminate]. }
  destruct w as [m st]. cbn [snd] in E. subst st.
  cbn [sp_run]. destruct o as [k d|k|k| |]; cbn [sp_step closes] in *.
  - pose proof (IH n (put hash_eq k d m, top ++ rest) top rest C eq_refl L) as H.
    destruct (sp_run hash_eq l _) as [r w]. exact H.
  - pose proof (IH n (put hash_eq k 0 m, top ++ rest) top rest C eq_refl L) as H.
    destruct (sp_run hash_eq l _) as [r w]. exact H.
  - pose proof (IH n (m, top ++ rest) top rest C eq_refl L) as H.
    destruct (sp_run hash_eq l _) as [r w]. exact H.
  - pose proof (IH (Datatypes.S n) (m, m :: top ++ rest) (m :: top) rest C eq_refl (f_equal Datatypes.S L)) as H.
    destruct (sp_run hash_eq l _) as [r w]. exact H.
  - destruct n as [|n]; [discriminate|]. destruct top as [|s top]; [discriminate|]. cbn [app] in *.
    injection L as L. pose proof (IH n (s, top ++ rest) top rest C eq_refl L) as H.
    destruct (sp_run hash_eq l _) as [r w]. exact H.
Qed.
Lemma sp_restore l1 w : closes 0 l1 = true ->
  snd (sp_run hash_eq (GBegin :: l1 ++ [GEnd]) w) = w.
Proof using.
  intros C. destruct w as [m st]. cbn [sp_run sp_step]. rewrite sp_run_app. cbn [fst snd].
  pose proof (closes_stack l1 0 (m, m :: st) [] (m :: st) C eq_refl eq_refl) as H.
  destruct (snd (sp_run hash_eq l1 (m, m :: st))) as [m1 st1]. cbn [snd] in H. subst st1. reflexivity.
Qed.
End Restore.
