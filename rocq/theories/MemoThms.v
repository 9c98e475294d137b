(* Cached functions have the answers of the functions without caches. *)
From Coq Require Import ZArith List Bool String Lia.
From Verif Require Import MemoModel MemoSpec.
Import ListNotations.
Open Scope Z_scope.

Lemma runs_det body c v n : runs body c v n -> forall v' n', runs body c v' n' -> v' = v /\ n' = n.
Proof.
  induction 1 as [v|f k next v w m n _ IH1 _ IH2]; intros v' n' H; inversion H; subst.
  - auto.
  - match goal with A : runs _ (body f k) _ _, B : runs _ (next _) _ _ |- _ =>
      destruct (IH1 _ _ A) as [-> ->]; destruct (IH2 _ _ B) as [-> ->]; auto end.
Qed.

Lemma runs_pos body c v n : runs body c v n -> 0 <= n.
Proof. induction 1; lia. Qed.

Section Eq.
Variable deref : nat -> val.
Variable ext_eq : Z -> Z -> Z -> bool.

Lemma cache_eq_mono n : forall v w b,
  cache_eq deref ext_eq n v w = Some b -> cache_eq deref ext_eq (S n) v w = Some b.
Proof.
  assert (CONS : forall n a b c d, cache_eq deref ext_eq n (Cons a b) (Cons c d) =
     match cache_eq deref ext_eq n a c with Some true => cache_eq deref ext_eq n b d | r => r end).
  { intros []; reflexivity. }
  induction n as [|n IHn]; intros v;
    induction v as [ |va IHa vb IHb| | | | | | | | |r1| ]; intros w x; destruct w as [ |wa wb| | | | | | | | |r2| ];
    try (intros H; exact H).
  - rewrite !CONS. destruct (cache_eq deref ext_eq 0 va wa) as [y|] eqn:E; [|discriminate].
    rewrite (IHa _ _ E). destruct y; auto.
  - simpl. destruct (Nat.eqb r1 r2); auto. discriminate.
  - rewrite !CONS. destruct (cache_eq deref ext_eq (S n) va wa) as [y|] eqn:E; [|discriminate].
    rewrite (IHa _ _ E). destruct y; auto.
  - change ((if Nat.eqb r1 r2 then Some true else cache_eq deref ext_eq n (deref r1) (deref r2)) = Some x ->
            (if Nat.eqb r1 r2 then Some true else cache_eq deref ext_eq (S n) (deref r1) (deref r2)) = Some x).
    destruct (Nat.eqb r1 r2); auto.
Qed.

Lemma args_eq_mono n : forall k l b,
  args_eq deref ext_eq n k l = Some b -> args_eq deref ext_eq (S n) k l = Some b.
Proof.
  induction k as [|v k IH]; intros [|w l] b; auto.
  cbn [args_eq]. destruct (cache_eq deref ext_eq n v w) as [x|] eqn:E; [|discriminate].
  rewrite (cache_eq_mono _ _ _ _ E). destruct x; auto.
Qed.

Hypothesis EXT : forall c a b, ext_eq c a b = true -> a = b.

Lemma cache_eq_similar n : forall v w, similar v w ->
  exists b, cache_eq deref ext_eq n v w = Some b /\ (b = true -> v = w).
Proof.
  assert (CONS : forall a b c d, cache_eq deref ext_eq n (Cons a b) (Cons c d) =
     match cache_eq deref ext_eq n a c with Some true => cache_eq deref ext_eq n b d | r => r end).
  { destruct n; reflexivity. }
  induction v; intros [] H; try (eexists; split; [destruct n; reflexivity|]; congruence);
    try (simpl in H; contradiction).
  - destruct H as [H1 H2]. rewrite CONS.
    destruct (IHv1 _ H1) as ([] & -> & E1).
    + destruct (IHv2 _ H2) as (b' & -> & E2). exists b'. split; [reflexivity|].
      intros B. rewrite (E1 eq_refl), (E2 B). reflexivity.
    + exists false. split; [reflexivity|]. discriminate.
  - exists (Z.eqb node node0). split; [destruct n; reflexivity|]. intros E. apply Z.eqb_eq in E. congruence.
  - exists (Z.eqb z z0). split; [destruct n; reflexivity|]. intros E. apply Z.eqb_eq in E. congruence.
  - exists (String.eqb s s0). split; [destruct n; reflexivity|]. intros E. apply String.eqb_eq in E. congruence.
  - exists (Z.eqb b b0). split; [destruct n; reflexivity|]. intros E. apply Z.eqb_eq in E. congruence.
  - exists (Z.eqb b b0). split; [destruct n; reflexivity|]. intros E. apply Z.eqb_eq in E. congruence.
  - exists (Z.eqb p p0). split; [destruct n; reflexivity|]. intros E. apply Z.eqb_eq in E. congruence.
  - exists (Z.eqb p p0 && Z.eqb d d0). split; [destruct n; reflexivity|].
    intros E. apply andb_true_iff in E. destruct E as [E1 E2].
    apply Z.eqb_eq in E1, E2. congruence.
  - simpl in H. subst class0. exists (ext_eq class obj obj0). split.
    + destruct n; simpl; rewrite Z.eqb_refl; reflexivity.
    + intros E. apply EXT in E. congruence.
Qed.

Lemma args_eq_similar n : forall k l, Forall2 similar k l ->
  exists b, args_eq deref ext_eq n k l = Some b /\ (b = true -> k = l).
Proof.
  induction k as [|v k IH]; intros l H; inversion H; subst.
  - exists true. auto.
  - cbn [args_eq]. destruct (cache_eq_similar n _ _ H2) as (b & -> & E).
    destruct b.
    + destruct (IH _ H4) as (b & -> & E2). exists b. split; [reflexivity|].
      intros B. rewrite (E eq_refl), (E2 B). reflexivity.
    + exists false. split; [reflexivity|]. discriminate.
Qed.
End Eq.

(* --- tables ----------------------------------------------------------------------- *)

Definition used (l : list (option (args * val))) : Z :=
  Z.of_nat (List.length (filter (fun x => match x with Some _ => true | None => false end) l)).

Lemma used_nonneg l : 0 <= used l.
Proof. unfold used. lia. Qed.
Lemma used_cons x l : used (x :: l) = (match x with Some _ => 1 | None => 0 end) + used l.
Proof. unfold used. destruct x; simpl filter; simpl List.length; lia. Qed.
Lemma used_le l : used l <= Z.of_nat (List.length l).
Proof. induction l as [|x l IH]; [unfold used; simpl; lia|]. rewrite used_cons. cbn [List.length]. destruct x; lia. Qed.
Lemma used_repeat n : used (repeat None n) = 0.
Proof. induction n as [|n IH]; [reflexivity|]. cbn [repeat]. rewrite used_cons. lia. Qed.

Lemma put_length {A} (x : A) : forall l i, List.length (put l i x) = List.length l.
Proof. induction l as [|y l IH]; intros [|i]; simpl; auto. Qed.
Lemma put_same {A} (x : A) : forall l i y, nth_error l i = Some y -> nth_error (put l i x) i = Some x.
Proof. induction l as [|z l IH]; intros [|i] y; simpl; try discriminate; auto. apply IH. Qed.
Lemma put_in {A} (x : A) : forall l i y, In y (put l i x) -> y = x \/ In y l.
Proof.
  induction l as [|z l IH]; intros [|i] y; simpl; auto.
  - intros [->|H]; auto.
  - intros [->|H]; auto. destruct (IH _ _ H); auto.
Qed.
Lemma put_used k v : forall l i x, nth_error l i = Some x ->
  used (put l i (Some (k, v))) = used l + (match x with Some _ => 0 | None => 1 end).
Proof.
  induction l as [|y l IH]; intros [|i] x; simpl nth_error; try discriminate.
  - intros H; inversion H; subst. cbn [put]. rewrite !used_cons. destruct x; lia.
  - intros H. cbn [put]. rewrite !used_cons, (IH _ _ H). lia.
Qed.

Definition sizes := 0 :: primes.

Lemma primes_pos : Forall (fun p => 0 < p) primes.
Proof. unfold primes. repeat constructor. Qed.
Lemma prime_pos p : In p primes -> 0 < p.
Proof. intros H. exact (proj1 (Forall_forall _ _) primes_pos _ H). Qed.

Lemma new_prime_size n : In n sizes -> n <> 2147483629 ->
  exists p, new_prime primes (n + 1) = Some p /\ In p primes.
Proof.
  intros H N.
  assert (forallb (fun n => Z.eqb n 2147483629 ||
    match new_prime primes (n + 1) with Some p => existsb (Z.eqb p) primes | None => false end) sizes = true) as C
    by (vm_compute; reflexivity).
  rewrite forallb_forall in C. specialize (C _ H). apply orb_true_iff in C. destruct C as [C|C].
  - apply Z.eqb_eq in C. contradiction.
  - destruct (new_prime primes (n + 1)) as [p|]; [|discriminate]. exists p. split; [reflexivity|].
    apply existsb_exists in C. destruct C as (q & I & E). apply Z.eqb_eq in E. subst q. exact I.
Qed.
Lemma new_prime_last : new_prime primes (2147483629 + 1) = None.
Proof. vm_compute. reflexivity. Qed.

Section Tables.
Variable hash : args -> Z -> Z.
Variable P : args -> val -> Prop.

Record good (c : cache) : Prop := Good {
  g_size : In (size c) sizes;
  g_len : List.length (tbl c) = Z.to_nat (size c);
  g_load : load c = used (tbl c);
  g_ok : forall k v, In (Some (k, v)) (tbl c) -> P k v }.

Lemma good_empty : good empty.
Proof. constructor; [left|..]; try reflexivity. intros k v []. Qed.

Lemma size_nonneg c : good c -> 0 <= size c.
Proof.
  intros G. destruct (g_size _ G) as [<-|H]; [lia|]. pose proof (prime_pos _ H). lia.
Qed.

Lemma line_in c k : good c -> 0 < size c -> exists x, nth_error (tbl c) (line_of hash k (size c)) = Some x.
Proof.
  intros G H. destruct (nth_error (tbl c) (line_of hash k (size c))) as [x|] eqn:E; [eauto|].
  apply nth_error_None in E. rewrite (g_len _ G) in E. unfold line_of in E.
  pose proof (Z.mod_pos_bound (hash k (size c)) (size c) H). lia.
Qed.

Lemma store_good c k v : good c -> 0 < size c -> P k v ->
  exists c', store hash k v c = Ok c' /\ good c' /\ size c' = size c /\
    load c <= load c' <= load c + 1 /\ nth_error (tbl c') (line_of hash k (size c)) = Some (Some (k, v)) /\ 0 < load c'.
Proof.
  intros G H HP. destruct (line_in c k G H) as (x & E). unfold store. rewrite E. cbv zeta.
  assert (U : (match x with None => load c + 1 | Some _ => load c end)
              = used (put (tbl c) (line_of hash k (size c)) (Some (k, v)))).
  { rewrite (put_used k v _ _ _ E), (g_load _ G). destruct x; lia. }
  eexists. split; [reflexivity|]. split; [|split; [reflexivity|split; [|split]]].
  - constructor; cbn [size load tbl].
    + exact (g_size _ G).
    + rewrite put_length. exact (g_len _ G).
    + exact U.
    + intros k' v' I. destruct (put_in _ _ _ _ I) as [I'|I'].
      * inversion I'; subst. exact HP.
      * exact (g_ok _ G _ _ I').
  - cbn [load]. destruct x; lia.
  - cbn [tbl]. apply (put_same _ _ _ _ E).
  - cbn [load]. rewrite U. rewrite (put_used k v _ _ _ E).
    destruct x as [y|]; [|pose proof (used_nonneg (tbl c)); lia].
    pose proof (nth_error_In _ _ E) as I. unfold used.
    assert (In (Some y) (filter (fun x => match x with Some _ => true | None => false end) (tbl c))) as F.
    { apply filter_In. auto. }
    destruct (filter _ (tbl c)); [destruct F|]. cbn [List.length]. lia.
Qed.

Lemma rehash_good : forall l c, good c -> 0 < size c -> (forall k v, In (Some (k, v)) l -> P k v) ->
  exists c', rehash hash l c = Ok c' /\ good c' /\ size c' = size c /\ load c' <= load c + used l.
Proof.
  induction l as [|[[k v]|] l IH]; intros c G H HP.
  - exists c. repeat split; try apply G; auto. unfold used. simpl. lia.
  - destruct (store_good c k v G H (HP _ _ (or_introl eq_refl))) as (c1 & E & G1 & S1 & L1 & _ & _).
    destruct (IH c1 G1 ltac:(lia) (fun k v I => HP k v (or_intror I))) as (c2 & E2 & G2 & S2 & L2).
    exists c2. cbn [rehash]. rewrite E. rewrite used_cons. repeat split; auto; try apply G2; lia.
  - destruct (IH c G H (fun k v I => HP k v (or_intror I))) as (c2 & E2 & G2 & S2 & L2).
    exists c2. cbn [rehash]. rewrite used_cons. repeat split; auto; try apply G2; lia.
Qed.

Lemma insert_good c k v : good c -> P k v ->
  (exists c', insert hash k v c = Ok c' /\ good c' /\ load c' <= load c + 1 /\
     0 < size c' /\ nth_error (tbl c') (line_of hash k (size c')) = Some (Some (k, v)) /\ 0 < load c') \/
  (insert hash k v c = Full /\ 1800000000 < load c).
Proof.
  intros G HP. unfold insert.
  destruct (Z.eqb (size c) 0 || (85 <? (100 * load c) / size c)) eqn:E.
  - destruct (Z.eq_dec (size c) 2147483629) as [L|N].
    + right. rewrite L in *. rewrite new_prime_last. split; [reflexivity|].
      change (Z.eqb 2147483629 0) with false in E. apply Z.ltb_lt in E.
      assert (86 <= 100 * load c / 2147483629) as E' by lia.
      pose proof (Z.mul_div_le (100 * load c) 2147483629 ltac:(lia)). lia.
    + left. destruct (new_prime_size _ (g_size _ G) N) as (p & -> & I).
      pose proof (prime_pos _ I) as Pp.
      assert (good (mkCache p 0 (repeat None (Z.to_nat p)))) as G0.
      { constructor; cbn [size load tbl].
        - right. exact I.
        - apply repeat_length.
        - rewrite used_repeat. reflexivity.
        - intros k' v' I'. apply repeat_spec in I'. discriminate. }
      destruct (rehash_good (tbl c) _ G0 Pp (g_ok _ G)) as (c1 & -> & G1 & S1 & L1).
      cbn [size load] in S1, L1.
      destruct (store_good c1 k v G1 ltac:(lia) HP) as (c2 & E2 & G2 & S2 & L2 & N2 & P2).
      exists c2. rewrite <- (g_load _ G) in L1. rewrite <- S2 in N2.
      repeat split; auto; try apply G2; lia.
  - left. apply orb_false_iff in E. destruct E as [E _]. apply Z.eqb_neq in E.
    pose proof (size_nonneg _ G).
    destruct (store_good c k v G ltac:(lia) HP) as (c2 & E2 & G2 & S2 & L2 & N2 & P2).
    exists c2. rewrite <- S2 in N2. repeat split; auto; try apply G2; lia.
Qed.
End Tables.

(* --- evaluation ------------------------------------------------------------------- *)

Section Eval.
Variable deref : nat -> val.
Variable ext_eq : Z -> Z -> Z -> bool.
Variable hash : args -> Z -> Z.
Variable body : nat -> args -> comp.
Variable lost : nat -> nat -> bool.
Variable K : nat -> args -> Prop.
Hypothesis EXT : forall c a b, ext_eq c a b = true -> a = b.
Hypothesis TYPED : typed body K.

Notation eval := (eval deref ext_eq hash body lost).
Notation find := (find deref ext_eq hash).
Notation runs := (runs body).

Definition entry (f : nat) (k : args) (v : val) : Prop := K f k /\ exists n, runs (body f k) v n.
Definition inv (s : caches) : Prop := forall f, good (entry f) (s f).

Lemma sweep_inv t s : inv s -> inv (sweep lost t s).
Proof. intros I f. unfold sweep. destruct (lost t f); [apply good_empty|apply I]. Qed.
Lemma set_inv s f c : inv s -> good (entry f) c -> inv (set s f c).
Proof.
  intros I G g. unfold set. destruct (Nat.eqb g f) eqn:E; [|apply I].
  apply Nat.eqb_eq in E. subst. exact G.
Qed.

Lemma find_inv n s f k : inv s -> K f k ->
  find n (s f) k = Ok None \/ exists v m, find n (s f) k = Ok (Some v) /\ runs (body f k) v m.
Proof.
  intros I HK. unfold MemoModel.find. specialize (I f).
  destruct (Z.eqb (load (s f)) 0) eqn:L; [auto|]. apply Z.eqb_neq in L.
  assert (0 < size (s f)) as S.
  { pose proof (used_le (tbl (s f))) as U. rewrite <- (g_load _ _ I), (g_len _ _ I) in U.
    pose proof (used_nonneg (tbl (s f))) as U2. rewrite <- (g_load _ _ I) in U2. lia. }
  destruct (line_in hash _ _ k I S) as (x & E). rewrite E.
  destruct x as [[k' v]|]; [|auto].
  destruct (g_ok _ _ I _ _ (nth_error_In _ _ E)) as [HK' (m & R)].
  destruct (args_eq_similar deref ext_eq EXT n k' k (proj1 TYPED f k' k HK' HK)) as ([] & -> & Q).
  - right. exists v, m. split; [reflexivity|]. rewrite <- (Q eq_refl). exact R.
  - auto.
Qed.

Lemma eval_sound n : forall t s c, inv s -> within body K c ->
  match eval n t s c with
  | Ok (v, _, s') => (exists m, runs c v m) /\ inv s'
  | Crash => False
  | _ => True
  end.
Proof.
  induction n as [|n IH]; intros t s c I W; [exact Logic.I|].
  destruct c as [v|f k next]; cbn [MemoModel.eval].
  - split; [|exact I]. exists 0. constructor.
  - destruct W as [HK W]. pose proof (sweep_inv t s I) as I1.
    destruct (find_inv n _ f k I1 HK) as [E|(v & m & E & R)]; rewrite E.
    + pose proof (IH (Datatypes.S t) _ (body f k) I1 (proj2 TYPED f k HK)) as H.
      destruct (eval n (Datatypes.S t) (sweep lost t s) (body f k)) as [[[v t1] s1]| | |]; auto.
      destruct H as [(m & R) I2].
      destruct (insert_good hash (entry f) (s1 f) k v (I2 f) (conj HK (ex_intro _ m R)))
        as [(c' & -> & G & _)|(-> & _)]; auto.
      pose proof (IH t1 _ (next v) (set_inv _ _ _ I2 G) (W v m R)) as H.
      destruct (eval n t1 (set s1 f c') (next v)) as [[[w t2] s2]| | |]; auto.
      destruct H as [(m2 & R2) I3]. split; [|exact I3].
      exists (1 + m + m2). econstructor; eauto.
    + pose proof (IH (Datatypes.S t) _ (next v) I1 (W v m R)) as H.
      destruct (eval n (Datatypes.S t) (sweep lost t s) (next v)) as [[[w t2] s2]| | |]; auto.
      destruct H as [(m2 & R2) I3]. split; [|exact I3].
      exists (1 + m + m2). econstructor; eauto.
Qed.

Lemma find_mono n c k r : find n c k = Ok r -> find (Datatypes.S n) c k = Ok r.
Proof.
  unfold MemoModel.find. destruct (Z.eqb (load c) 0); auto.
  destruct (nth_error _ _) as [[[k' v]|]|]; auto.
  destruct (args_eq deref ext_eq n k' k) as [b|] eqn:E; [|discriminate].
  rewrite (args_eq_mono _ _ _ _ _ _ E). auto.
Qed.

Lemma eval_mono n : forall t s c r, eval n t s c = Ok r -> eval (Datatypes.S n) t s c = Ok r.
Proof.
  induction n as [|n IH]; intros t s c r; [discriminate|].
  destruct c as [v|f k next]; [auto|].
  assert (STEP : forall m, eval (Datatypes.S m) t s (Call f k next) =
    match find m (sweep lost t s f) k with
    | Crash => Crash | Full => Full | More => More
    | Ok (Some v) => eval m (Datatypes.S t) (sweep lost t s) (next v)
    | Ok None =>
        match eval m (Datatypes.S t) (sweep lost t s) (body f k) with
        | Ok (v, t, s) =>
            match insert hash k v (s f) with
            | Ok c => eval m t (set s f c) (next v)
            | Crash => Crash | Full => Full | More => More
            end
        | r => r
        end
    end) by (intros m; reflexivity).
  rewrite !STEP.
  destruct (find n (sweep lost t s f) k) as [o| | |] eqn:E; try discriminate.
  rewrite (find_mono _ _ _ _ E).
  destruct o as [v|].
  - apply IH.
  - destruct (eval n (Datatypes.S t) (sweep lost t s) (body f k)) as [[[v t1] s1]| | |] eqn:E2; try discriminate.
    rewrite (IH _ _ _ _ E2).
    destruct (insert hash k v (s1 f)) as [c| | |]; try discriminate. apply IH.
Qed.
Lemma eval_le n m t s c r : (n <= m)%nat -> eval n t s c = Ok r -> eval m t s c = Ok r.
Proof. induction 1; auto. intros E. apply eval_mono. auto. Qed.

Definition limit := 1800000000.

Lemma eval_complete c v n : runs c v n -> forall t s, inv s -> within body K c ->
  (forall f, load (s f) + n <= limit) ->
  exists m t' s', eval m t s c = Ok (v, t', s') /\ inv s' /\ forall f, load (s' f) <= load (s f) + n.
Proof.
  induction 1 as [v|f k next v w m n R1 IH1 R2 IH2]; intros t s I W L.
  - exists 1%nat, t, s. split; [reflexivity|]. split; [exact I|]. intros f. lia.
  - destruct W as [HK W]. pose proof (sweep_inv t s I) as I1.
    pose proof (runs_pos _ _ _ _ R1). pose proof (runs_pos _ _ _ _ R2).
    assert (forall g, load (sweep lost t s g) <= load (s g)) as SW.
    { intros g. unfold sweep. destruct (lost t g); [|lia]. cbn [load empty].
      rewrite (g_load _ _ (I g)). apply used_nonneg. }
    destruct (find_inv 0 _ f k I1 HK) as [E|(v' & m' & E & R')].
    + destruct (IH1 (Datatypes.S t) _ I1 (proj2 TYPED f k HK)) as (m1 & t1 & s1 & E1 & I2 & L1).
      { intros g. specialize (L g). specialize (SW g). lia. }
      destruct (insert_good hash (entry f) (s1 f) k v (I2 f) (conj HK (ex_intro _ m R1)))
        as [(c' & EI & G & LC & _)|(_ & C)].
      2:{ exfalso. specialize (L1 f). specialize (L f). specialize (SW f). unfold limit in L. lia. }
      assert (forall g, load (set s1 f c' g) <= load (s g) + m + 1) as L2.
      { intros g. specialize (L1 g). specialize (SW g). unfold set.
        destruct (Nat.eqb g f) eqn:Q; [|lia]. apply Nat.eqb_eq in Q. subst g. lia. }
      destruct (IH2 t1 (set s1 f c') (set_inv _ _ _ I2 G) (W v m R1)) as (m2 & t2 & s2 & E2 & I3 & L3).
      { intros g. specialize (L g). specialize (L2 g). lia. }
      exists (Datatypes.S (Nat.max m1 m2)), t2, s2. split; [|split; [exact I3|]].
      * cbn [MemoModel.eval].
        assert (find (Nat.max m1 m2) (sweep lost t s f) k = Ok None) as F.
        { generalize (Nat.max m1 m2). intros q. induction q as [|q IHq]; [exact E|].
          apply find_mono. exact IHq. }
        rewrite F. rewrite (eval_le m1 _ _ _ _ _ (Nat.le_max_l _ _) E1). rewrite EI.
        exact (eval_le m2 _ _ _ _ _ (Nat.le_max_r _ _) E2).
      * intros g. specialize (L3 g). specialize (L2 g). lia.
    + destruct (runs_det _ _ _ _ R1 _ _ R') as [-> ->].
      destruct (IH2 (Datatypes.S t) _ I1 (W v m R1)) as (m2 & t2 & s2 & E2 & I3 & L3).
      { intros g. specialize (L g). specialize (SW g). lia. }
      exists (Datatypes.S m2), t2, s2. split; [|split; [exact I3|]].
      * cbn [MemoModel.eval].
        assert (find m2 (sweep lost t s f) k = Ok (Some v)) as F.
        { clear - E EXT TYPED. induction m2 as [|q IHq]; [exact E|]. apply find_mono. exact IHq. }
        rewrite F. exact E2.
      * intros g. specialize (L3 g). specialize (SW g). lia.
Qed.

Lemma start_inv : inv (fun _ => empty).
Proof. intros f. apply good_empty. Qed.

Theorem memo_total c v n : within body K c -> runs c v n -> n <= limit ->
  exists m t s, eval m 0 (fun _ => empty) c = Ok (v, t, s).
Proof.
  intros W R L. destruct (eval_complete c v n R 0%nat _ start_inv W) as (m & t & s & E & _).
  - intros f. cbn [load empty]. lia.
  - eauto.
Qed.
Theorem memo_sound c v m t s : within body K c -> eval m 0 (fun _ => empty) c = Ok (v, t, s) ->
  exists n, runs c v n.
Proof.
  intros W E. pose proof (eval_sound m 0%nat _ c start_inv W) as H. rewrite E in H. apply H.
Qed.
Theorem memo_safe c m : within body K c -> eval m 0 (fun _ => empty) c <> Crash.
Proof.
  intros W E. pose proof (eval_sound m 0%nat _ c start_inv W) as H. rewrite E in H. exact H.
Qed.
End Eval.

(* --- hits ------------------------------------------------------------------------- *)

Section Hit.
Variable deref : nat -> val.
Variable ext_eq : Z -> Z -> Z -> bool.
Variable hash : args -> Z -> Z.
Hypothesis REFL : forall c a, ext_eq c a a = true.

Lemma cache_eq_plain n v : plain v -> cache_eq deref ext_eq n v v = Some true.
Proof.
  induction v; intros H; try (simpl in H; contradiction);
    try (destruct n; simpl; rewrite ?Z.eqb_refl, ?String.eqb_refl; reflexivity).
  - destruct H as [H1 H2].
    assert (forall a b c d, cache_eq deref ext_eq n (Cons a b) (Cons c d) =
     match cache_eq deref ext_eq n a c with Some true => cache_eq deref ext_eq n b d | r => r end) as CONS.
    { destruct n; reflexivity. }
    rewrite CONS, (IHv1 H1). exact (IHv2 H2).
  - destruct n; simpl; rewrite Z.eqb_refl, REFL; reflexivity.
Qed.
Lemma args_eq_plain n k : Forall plain k -> args_eq deref ext_eq n k k = Some true.
Proof.
  induction 1 as [|v k H _ IH]; [reflexivity|]. cbn [args_eq]. rewrite (cache_eq_plain _ _ H). exact IH.
Qed.

Lemma inserts_good : forall l c c', good (fun _ _ => True) c -> inserts hash l c = Ok c' -> good (fun _ _ => True) c'.
Proof.
  induction l as [|[k v] l IH]; intros c c' G E.
  - inversion E; subst. exact G.
  - cbn [inserts] in E. destruct (insert_good hash (fun _ _ => True) c k v G Logic.I) as [(c1 & E1 & G1 & _)|(E1 & _)];
      rewrite E1 in E; [|discriminate]. exact (IH _ _ G1 E).
Qed.
Lemma inserts_app : forall l l' c, inserts hash (l ++ l') c =
  match inserts hash l c with Ok c => inserts hash l' c | r => r end.
Proof.
  induction l as [|[k v] l IH]; intros l' c; [reflexivity|].
  cbn [inserts app]. destruct (insert hash k v c); auto.
Qed.

Theorem memo_hit n l k v c : Forall plain k -> inserts hash (l ++ [(k, v)]) empty = Ok c ->
  find deref ext_eq hash n c k = Ok (Some v).
Proof.
  intros H E. rewrite inserts_app in E.
  destruct (inserts hash l empty) as [c0| | |] eqn:E0; try discriminate.
  pose proof (inserts_good _ _ _ (good_empty _) E0) as G. cbn [inserts] in E.
  destruct (insert_good hash (fun _ _ => True) c0 k v G Logic.I)
    as [(c1 & E1 & G1 & _ & _ & N & P)|(E1 & _)]; rewrite E1 in E; [|discriminate].
  inversion E; subst c1. unfold find.
  destruct (Z.eqb (load c) 0) eqn:L; [apply Z.eqb_eq in L; lia|].
  rewrite N. rewrite (args_eq_plain _ _ H). reflexivity.
Qed.
End Hit.
