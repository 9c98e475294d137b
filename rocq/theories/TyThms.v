(* Proofs about unification. *)
From Coq Require Import String List Bool Arith Lia Relation_Operators Transitive_Closure.
From Verif Require Import TyModel.
Import ListNotations.

(* ------------------------------------------------------------------ *)
(* Stores *)
Lemma upd_length h p n : length (upd h p n) = length h.
Proof. revert p; induction h; intros [|p]; cbn; auto. Qed.
Lemma upd_same h p n : p < length h -> nth_error (upd h p n) p = Some n.
Proof. revert p; induction h; intros [|p] L; cbn in *; try lia; auto. apply IHh. lia. Qed.
Lemma upd_other h p n q : p <> q -> nth_error (upd h p n) q = nth_error h q.
Proof. revert p q; induction h; intros [|p] [|q] N; cbn; auto; try lia. Qed.
Lemma nth_lt {A} (h : list A) p n : nth_error h p = Some n -> p < length h.
Proof. intros E. apply nth_error_Some. congruence. Qed.

Lemma con_eqb_eq a b : con_eqb a b = true <-> a = b.
Proof.
  destruct a, b; cbn; split; intros E; try discriminate; try reflexivity.
  - apply String.eqb_eq in E. now subst.
  - injection E as ->. apply String.eqb_refl.
Qed.

Fixpoint nvars (h : heap) : nat :=
  match h with
  | [] => 0
  | NVar :: r => S (nvars r)
  | _ :: r => nvars r
  end.
Lemma nvars_upd h p q : nth_error h p = Some NVar -> S (nvars (upd h p (NInd q))) = nvars h.
Proof.
  revert p; induction h as [|n h IH]; intros [|p]; cbn; try discriminate.
  - now intros [= ->].
  - intros E. specialize (IH p E). destruct n; cbn; lia.
Qed.

(* ------------------------------------------------------------------ *)
(* get_real *)
Lemma get_real_mono f f' h p q : f <= f' -> get_real f h p = Some q -> get_real f' h p = Some q.
Proof.
  revert f' p; induction f as [|f IH]; intros f' p L E; [discriminate|].
  destruct f' as [|f']; [lia|]. cbn in *. destruct (nth_error h p) as [[]|]; auto.
  apply IH; [lia|assumption].
Qed.
Lemma get_real_sound f h p q :
  get_real f h p = Some q ->
  (exists n, nth_error h q = Some n /\ forall a, n <> NInd a) /\
  (forall r, reading h r -> r p = r q).
Proof.
  revert p; induction f as [|f IH]; intros p E; [discriminate|]. cbn in E.
  destruct (nth_error h p) as [[|a|c k]|] eqn:N; try discriminate.
  - injection E as <-. split; [exists NVar; split; [assumption|discriminate]|auto].
  - apply IH in E as [A B]. split; [assumption|]. intros r R.
    rewrite <- (B r R). apply (R p _ N).
  - injection E as <-. split; [exists (NCon c k); split; [assumption|discriminate]|auto].
Qed.
Lemma get_real_id f h p n :
  nth_error h p = Some n -> (forall a, n <> NInd a) -> get_real (S f) h p = Some p.
Proof. intros E N. cbn. rewrite E. destruct n; auto. now edestruct N. Qed.
Lemma get_real_idem f h p q :
  get_real f h p = Some q -> get_real f h q = Some q.
Proof.
  intros E. apply get_real_sound in E as H0.
  destruct H0 as [(n & A & B) _]. destruct f; [discriminate|].
  eapply get_real_id; eauto.
Qed.
Lemma get_real_total h p :
  Acc (child h) p -> in_range h -> p < length h -> exists f q, get_real f h p = Some q.
Proof.
  intros A R. induction A as [p _ IH]. intros L.
  destruct (nth_error h p) as [[|a|c k]|] eqn:N.
  - exists 1, p. cbn. now rewrite N.
  - assert (In a (kids_of (NInd a))) as I by (cbn; auto).
    destruct (IH a) as (f & q & E).
    + exists (NInd a). auto.
    + eapply R; eauto.
    + exists (S f), q. cbn. now rewrite N.
  - exists 1, p. cbn. now rewrite N.
  - apply nth_error_None in N. lia.
Qed.

(* ------------------------------------------------------------------ *)
(* occurs *)
Definition occ_loop (f : nat) (h : heap) (t1 : nat) : list nat -> option bool :=
  fix loop (l : list nat) : option bool :=
    match l with
    | [] => Some false
    | a :: l =>
        match occurs f h t1 a with
        | None => None
        | Some true => Some true
        | Some false => loop l
        end
    end.
Lemma occurs_S f h v t :
  occurs (S f) h v t =
  match get_real f h v with
  | None => None
  | Some t1 =>
    match get_real f h t with
    | None => None
    | Some t2 =>
        if Nat.eqb t1 t2 then Some true
        else match nth_error h t2 with
             | Some (NCon _ kids) => occ_loop f h t1 kids
             | _ => Some false
             end
    end
  end.
Proof. reflexivity. Qed.

Lemma occurs_mono f : forall f' h v t b, f <= f' -> occurs f h v t = Some b -> occurs f' h v t = Some b.
Proof.
  induction f as [|f IH]; intros f' h v t b L E; [discriminate|].
  destruct f' as [|f']; [lia|]. rewrite occurs_S in *.
  destruct (get_real f h v) as [t1|] eqn:E1; [|discriminate].
  destruct (get_real f h t) as [t2|] eqn:E2; [|discriminate].
  rewrite (get_real_mono f f' h v t1), (get_real_mono f f' h t t2) by (auto; lia).
  destruct (Nat.eqb t1 t2); auto.
  destruct (nth_error h t2) as [[|a|c k]|]; auto.
  clear E2. induction k as [|a k IHk]; cbn in *; auto.
  destruct (occurs f h t1 a) as [[]|] eqn:Ea; try discriminate;
    rewrite (IH f' h t1 a _ (le_S_n _ _ L) Ea); auto.
Qed.

Fixpoint tsize (t : tree) : nat :=
  match t with Nd _ k => S (fold_right (fun t n => tsize t + n) 0 k) end.
Lemma tsize_kid l k t : In t k -> tsize t < tsize (Nd l k).
Proof.
  cbn. induction k as [|a k IH]; cbn; [tauto|]. intros [->|I]; [lia|].
  specialize (IH I). lia.
Qed.

(* A positive answer means that the variable is inside the other type. *)
Lemma occurs_true f : forall h v t r,
  occurs f h v t = Some true -> reading h r ->
  tsize (r v) <= tsize (r t) /\
  (forall t1 t2, get_real f h v = Some t1 -> get_real f h t = Some t2 -> t1 <> t2 ->
     tsize (r v) < tsize (r t)).
Proof.
  induction f as [|f IH]; intros h v t r E R; [discriminate|]. rewrite occurs_S in E.
  destruct (get_real f h v) as [t1|] eqn:E1; [|discriminate].
  destruct (get_real f h t) as [t2|] eqn:E2; [|discriminate].
  pose proof (get_real_sound _ _ _ _ E1) as [_ R1].
  pose proof (get_real_sound _ _ _ _ E2) as [_ R2].
  rewrite (R1 r R), (R2 r R).
  destruct (Nat.eqb t1 t2) eqn:Q.
  - apply Nat.eqb_eq in Q. subst t2. split; [lia|].
    intros a b A B N. apply (get_real_mono f (S f)) in E1, E2; auto. congruence.
  - enough (tsize (r t1) < tsize (r t2)) by (split; [lia|auto]).
    destruct (nth_error h t2) as [[|a|c k]|] eqn:N; try discriminate.
    rewrite (R t2 _ N).
    assert (exists a, In a k /\ occurs f h t1 a = Some true) as (a & I & O).
    { clear - E. induction k as [|a k IHk]; cbn in E; [discriminate|].
      destruct (occurs f h t1 a) as [[]|] eqn:Ea; try discriminate.
      - exists a. split; [now left|assumption].
      - destruct (IHk E) as (b & ? & ?). exists b. split; [now right|assumption]. }
    apply (IH h t1 a r O) in R as [R' _].
    assert (In (r a) (map r k)) as I' by now apply in_map.
    apply tsize_kid with (l := LCon c) in I'. lia.
Qed.

(* A negative answer means that the variable cannot be reached. *)
Inductive reach (h : heap) (x : nat) : nat -> Prop :=
| reach_here : reach h x x
| reach_down p q : child h q p -> reach h x q -> reach h x p.

Lemma reach_real f h v t t2 :
  nth_error h v = Some NVar -> get_real f h t = Some t2 -> reach h v t -> reach h v t2.
Proof.
  intros V. revert t; induction f as [|f IH]; intros t E Rt; [discriminate|]. cbn in E.
  destruct (nth_error h t) as [[|a|c k]|] eqn:N; try discriminate; try congruence.
  apply IH with a; auto. inversion Rt; subst; [congruence|].
  destruct H as (n & A & B). rewrite N in A. injection A as <-. cbn in B.
  destruct B as [->|[]]. assumption.
Qed.

Lemma occurs_false f : forall h v t,
  nth_error h v = Some NVar -> occurs f h v t = Some false -> ~ reach h v t.
Proof.
  induction f as [|f IH]; intros h v t V E Rt; [discriminate|]. rewrite occurs_S in E.
  destruct (get_real f h v) as [t1|] eqn:E1; [|discriminate].
  destruct (get_real f h t) as [t2|] eqn:E2; [|discriminate].
  assert (t1 = v) as ->.
  { destruct f; [discriminate|]. cbn in E1. rewrite V in E1. congruence. }
  apply (reach_real _ _ _ _ _ V E2) in Rt.
  destruct (Nat.eqb v t2) eqn:Q; [discriminate|]. apply Nat.eqb_neq in Q.
  inversion Rt as [|p q (n & A & B) Rq]; subst; [congruence|].
  rewrite A in E. destruct n as [|a|c k]; cbn in B; try tauto.
  - pose proof (get_real_sound _ _ _ _ E2) as [(n & A' & N) _].
    rewrite A in A'. injection A' as <-. now apply (N a).
  - clear A. induction k as [|a k IHk]; cbn in *; [tauto|].
    destruct (occurs f h v a) as [[]|] eqn:Ea; try discriminate.
    destruct B as [->|B]; [|auto]. now apply (IH h v q V Ea).
Qed.

Lemma occ_loop_mono f f' h v k b :
  f <= f' -> occ_loop f h v k = Some b -> occ_loop f' h v k = Some b.
Proof.
  intros L. induction k as [|a k IHk]; cbn; auto. intros E.
  destruct (occurs f h v a) as [[]|] eqn:Ea; try discriminate;
    rewrite (occurs_mono f f' h v a _ L Ea); auto.
Qed.

Lemma occurs_total h v t :
  Acc (child h) t -> in_range h -> t < length h -> nth_error h v = Some NVar ->
  exists f b, occurs f h v t = Some b.
Proof.
  intros A R. induction A as [t A' IH]. intros L V.
  assert (forall f, get_real (S f) h v = Some v) as EV.
  { intros g. cbn. now rewrite V. }
  destruct (nth_error h t) as [[|a|c k]|] eqn:N.
  - exists 2. rewrite occurs_S, EV. cbn [get_real]. rewrite N.
    destruct (Nat.eqb v t); [|rewrite N]; eauto.
  - destruct (IH a) as (f & b & E); auto.
    { exists (NInd a). split; [assumption|now left]. }
    { eapply R; [exact N|now left]. }
    exists (S (S f)), b. destruct f as [|f]; [discriminate|].
    rewrite occurs_S in *. rewrite EV.
    destruct f as [|f]; [discriminate|]. rewrite EV in E.
    replace (get_real (S (S (S f))) h t) with (get_real (S (S f)) h a) by (cbn; now rewrite N).
    destruct (get_real (S f) h a) as [t2|] eqn:E2; [|discriminate].
    rewrite (get_real_mono _ (S (S f)) _ _ _ (le_S _ _ (le_n _)) E2).
    destruct (Nat.eqb v t2); auto.
    destruct (nth_error h t2) as [[|a'|c k]|]; auto.
    eapply occ_loop_mono; [|exact E]. lia.
  - assert (K : exists f b, occ_loop f h v k = Some b).
    { assert (I : forall a, In a k -> exists f b, occurs f h v a = Some b).
      { intros a I. apply IH; auto.
        - exists (NCon c k). auto.
        - eapply R; [exact N|exact I]. }
      clear N. induction k as [|a k IHk]; [exists 0, false; reflexivity|].
      destruct (I a) as (f1 & b1 & E1); [now left|].
      destruct IHk as (f2 & b2 & E2); [intros; apply I; now right|].
      exists (f1 + f2), (b1 || b2)%bool. cbn.
      rewrite (occurs_mono f1 (f1 + f2) h v a b1) by (auto; lia).
      destruct b1; [reflexivity|]. apply occ_loop_mono with f2; [lia|assumption]. }
    destruct K as (f & b & E).
    exists (S (S f)), (Nat.eqb v t || b)%bool. rewrite occurs_S, EV. cbn [get_real]. rewrite N.
    destruct (Nat.eqb v t); [reflexivity|]. rewrite N.
    apply occ_loop_mono with f; [lia|assumption].
  - apply nth_error_None in N. lia.
Qed.

(* ------------------------------------------------------------------ *)
(* More fuel does not change an answer *)
Lemma unify_list_mono (u u' : tstate -> nat -> nat -> ures) :
  (forall s p q r, u s p q = r -> r <> UStuck -> u' s p q = r) ->
  forall k1 k2 s r, unify_list u k1 k2 s = r -> r <> UStuck -> unify_list u' k1 k2 s = r.
Proof.
  intros U. induction k1 as [|a k1 IH]; intros [|b k2] s r E N; cbn in *; auto.
  destruct (u s a b) as [s1|s1| |] eqn:Eu.
  - rewrite (U _ _ _ _ Eu) by discriminate. auto.
  - rewrite (U _ _ _ _ Eu) by discriminate. auto.
  - rewrite (U _ _ _ _ Eu) by discriminate. auto.
  - now subst r.
Qed.

Lemma unify_mono f : forall f' s p q r,
  f <= f' -> unify f s p q = r -> r <> UStuck -> unify f' s p q = r.
Proof.
  induction f as [|f IH]; intros f' s p q r L E N; [cbn in E; congruence|].
  destruct f' as [|f']; [lia|]. cbn [unify] in *.
  assert (L' : f <= f') by lia.
  destruct (get_real f (t_heap s) p) as [p'|] eqn:E1; [|congruence].
  destruct (get_real f (t_heap s) q) as [q'|] eqn:E2; [|congruence].
  rewrite (get_real_mono _ _ _ _ _ L' E1), (get_real_mono _ _ _ _ _ L' E2).
  destruct (nth_error (t_heap s) p') as [[|a|c1 k1]|] eqn:N1; auto.
  - destruct (nth_error (t_heap s) q') eqn:N2; auto.
    destruct (occurs f (t_heap s) p' q') as [b|] eqn:O; [|congruence].
    now rewrite (occurs_mono _ _ _ _ _ _ L' O).
  - destruct (nth_error (t_heap s) q') as [[|a|c2 k2]|] eqn:N2; auto.
    destruct (con_eqb c1 c2); auto.
      revert E N. apply unify_list_mono. intros. now apply IH.
Qed.

(* ------------------------------------------------------------------ *)
(* Binding a variable *)
Definition okst (ar : con -> nat) (s : tstate) : Prop :=
  in_range (t_heap s) /\ acyclic (t_heap s) /\ arities ar (t_heap s) /\ t_ctx s <> [].

Lemma child_upd h v q x p :
  nth_error h v = Some NVar -> child (upd h v (NInd q)) x p ->
  (p = v /\ x = q) \/ (p <> v /\ child h x p).
Proof.
  intros V (n & A & B). destruct (Nat.eq_dec v p) as [->|D].
  - rewrite upd_same in A by (eapply nth_lt; eauto). injection A as <-.
    cbn in B. destruct B as [->|[]]. auto.
  - rewrite upd_other in A by assumption. right. split; [congruence|]. exists n. auto.
Qed.

Lemma acc_bind h v q :
  nth_error h v = Some NVar -> ~ reach h v q -> acyclic h -> acyclic (upd h v (NInd q)).
Proof.
  intros V NR A.
  assert (B : forall p, ~ reach h v p -> Acc (child (upd h v (NInd q))) p).
  { intros p. specialize (A p). induction A as [p _ IH]. intros N. constructor.
    intros x C. apply (child_upd _ _ _ _ _ V) in C as [[-> ->]|[D C]].
    - destruct N. constructor.
    - apply IH; auto. intros Rx. apply N. econstructor; eauto. }
  assert (Av : Acc (child (upd h v (NInd q))) v).
  { constructor. intros x C. apply (child_upd _ _ _ _ _ V) in C as [[_ ->]|[D _]]; [|tauto].
    now apply B. }
  intros p. specialize (A p). induction A as [p _ IH]. constructor.
  intros x C. apply (child_upd _ _ _ _ _ V) in C as [[-> ->]|[D C]]; auto.
Qed.

Lemma okst_bind ar s v q s' :
  okst ar s -> nth_error (t_heap s) v = Some NVar -> q < length (t_heap s) ->
  ~ reach (t_heap s) v q -> bind_var s v q = UOk s' -> okst ar s'.
Proof.
  intros (R & A & AR & C) V L NR E. unfold bind_var in E.
  destruct (t_ctx s) as [|d ctx]; [discriminate|]. injection E as <-.
  split; [|split; [|split]]; cbn; try discriminate.
  - intros p n x E I. rewrite upd_length.
    destruct (Nat.eq_dec v p) as [->|D].
    + rewrite upd_same in E by (eapply nth_lt; eauto). injection E as <-.
      cbn in I. destruct I as [->|[]]. assumption.
    + rewrite upd_other in E by assumption. eapply R; eauto.
  - now apply acc_bind.
  - intros p c k E. destruct (Nat.eq_dec v p) as [->|D].
    + rewrite upd_same in E by (eapply nth_lt; eauto). discriminate.
    + rewrite upd_other in E by assumption. eapply AR; eauto.
Qed.

Lemma reading_bind h v q r :
  nth_error h v = Some NVar ->
  (reading (upd h v (NInd q)) r <-> reading h r /\ r v = r q).
Proof.
  intros V. assert (L := nth_lt _ _ _ V). split.
  - intros R. split.
    + intros p n E. destruct (Nat.eq_dec v p) as [->|D].
      * rewrite V in E. now injection E as <-.
      * apply R. now rewrite upd_other.
    + apply (R v (NInd q)). now apply upd_same.
  - intros [R E] p n Ep. destruct (Nat.eq_dec v p) as [->|D].
    + rewrite upd_same in Ep by assumption. now injection Ep as <-.
    + rewrite upd_other in Ep by assumption. now apply R.
Qed.

(* ------------------------------------------------------------------ *)
(* Partial correctness *)
Definition uspec (ar : con -> nat) (s : tstate) (P : (nat -> tree) -> Prop) (u : ures) : Prop :=
  match u with
  | UOk s' =>
      okst ar s' /\ length (t_heap s') = length (t_heap s) /\
      (s' = s \/ nvars (t_heap s') < nvars (t_heap s)) /\
      forall r, reading (t_heap s') r <-> reading (t_heap s) r /\ P r
  | UFail s' =>
      okst ar s' /\ length (t_heap s') = length (t_heap s) /\
      forall r, reading (t_heap s) r -> ~ P r
  | UCrash => False
  | UStuck => True
  end.

Lemma uspec_iff ar s (P Q : (nat -> tree) -> Prop) u :
  (forall r, reading (t_heap s) r -> (P r <-> Q r)) -> uspec ar s P u -> uspec ar s Q u.
Proof.
  intros PQ. destruct u; cbn; auto.
  - intros (A & B & C & D). split; [assumption|]. split; [assumption|]. split; [assumption|].
    intros r. rewrite D. split; intros [R q]; (split; [assumption|]); now apply (PQ r R).
  - intros (A & B & C). split; [assumption|]. split; [assumption|].
    intros r R q. apply (C r R). now apply (PQ r R).
Qed.

Lemma unify_list_spec ar (u : tstate -> nat -> nat -> ures) n :
  (forall s p q, okst ar s -> length (t_heap s) = n -> p < n -> q < n ->
     uspec ar s (fun r => r p = r q) (u s p q)) ->
  forall k1 k2 s, okst ar s -> length (t_heap s) = n -> length k1 = length k2 ->
    (forall x, In x k1 -> x < n) -> (forall x, In x k2 -> x < n) ->
    uspec ar s (fun r => map r k1 = map r k2) (unify_list u k1 k2 s).
Proof.
  intros U. induction k1 as [|a k1 IH]; intros [|b k2] s O Ln L R1 R2; try discriminate; cbn.
  - split; [assumption|]. split; [reflexivity|]. split; [auto|]. tauto.
  - assert (Ua := U s a b O Ln (R1 a (or_introl eq_refl)) (R2 b (or_introl eq_refl))).
    destruct (u s a b) as [s1|s1| |]; cbn in Ua; auto.
    + destruct Ua as (O1 & L1 & D1 & S1).
      assert (I := IH k2 s1 O1 (eq_trans L1 Ln) (eq_add_S _ _ L)
                  (fun x h => R1 x (or_intror h)) (fun x h => R2 x (or_intror h))).
      destruct (unify_list u k1 k2 s1) as [s2|s2| |]; cbn in *; auto.
      * destruct I as (O2 & L2 & D2 & S2). split; [assumption|]. split; [congruence|]. split.
        { destruct D1 as [->|D1]; [assumption|]. destruct D2 as [->|D2]; [auto|]. right. lia. }
        intros r. rewrite S2, S1. split.
        -- intros [[A B] C]. split; [assumption|]. now f_equal.
        -- intros [A B]. injection B as B C. auto.
      * destruct I as (O2 & L2 & F2). split; [assumption|]. split; [congruence|].
        intros r R E. injection E as E1 E2. apply (F2 r); [|assumption]. apply S1. auto.
    + destruct Ua as (O1 & L1 & F1). split; [assumption|]. split; [assumption|].
      intros r R E. injection E as E1 E2. now apply (F1 r).
Qed.

Lemma unify_spec ar f : forall s p q,
  okst ar s -> p < length (t_heap s) -> q < length (t_heap s) ->
  uspec ar s (fun r => r p = r q) (unify f s p q).
Proof.
  induction f as [|f IH]; intros s p q O Lp Lq; [exact I|]. cbn [unify].
  destruct (get_real f (t_heap s) p) as [p'|] eqn:E1; [|exact I].
  destruct (get_real f (t_heap s) q) as [q'|] eqn:E2; [|exact I].
  apply get_real_sound in E1 as E1', E2 as E2'.
  destruct E1' as [(n1 & N1 & X1) R1], E2' as [(n2 & N2 & X2) R2].
  assert (Lp' := nth_lt _ _ _ N1). assert (Lq' := nth_lt _ _ _ N2).
  rewrite N1, N2.
  assert (PQ : forall r, reading (t_heap s) r -> (r p' = r q' <-> r p = r q)).
  { intros r R. now rewrite (R1 r R), (R2 r R). }
  apply (uspec_iff _ _ _ _ _ PQ). clear PQ.
  destruct n1 as [|a|c1 k1]; [|now edestruct X1|].
  - destruct (occurs f (t_heap s) p' q') as [[]|] eqn:Oc; [| |exact I].
    + destruct (Nat.eqb p' q') eqn:Q.
      * apply Nat.eqb_eq in Q. subst q'. cbn. intuition.
      * apply Nat.eqb_neq in Q. cbn. split; [assumption|]. split; [reflexivity|].
        intros r R E. apply (occurs_true f _ _ _ r Oc) in R as [_ T].
        assert (tsize (r p') < tsize (r q')); [|rewrite E in *; lia].
        apply (T p' q'); [| |assumption]; destruct f; try discriminate; cbn.
        -- now rewrite N1.
        -- rewrite N2. destruct n2; auto. now edestruct X2.
    + assert (NR := occurs_false f _ _ _ N1 Oc).
      destruct (bind_var s p' q') as [s'| | |] eqn:B; unfold bind_var in B.
      2, 4: destruct (t_ctx s); discriminate.
      * assert (O' : okst ar s') by (eapply okst_bind; eauto).
        destruct (t_ctx s) as [|d ctx]; [discriminate|]. injection B as <-. cbn in *.
        split; [assumption|]. split; [apply upd_length|]. split.
        -- right. pose proof (nvars_upd _ _ q' N1). lia.
        -- intros r. now apply reading_bind.
      * destruct O as (_ & _ & _ & C). now destruct (t_ctx s).
  - destruct n2 as [|a|c2 k2]; [|now edestruct X2|].
    + eapply uspec_iff; [|now apply IH]. intros r _. split; congruence.
    + destruct (con_eqb c1 c2) eqn:Q.
      * apply con_eqb_eq in Q. subst c2.
        pose proof O as (IR & _ & AR & _).
        eapply uspec_iff; [|apply (unify_list_spec ar _ (length (t_heap s)))].
        -- intros r R. rewrite (R _ _ N1), (R _ _ N2). split; [now intros ->|congruence].
        -- intros s1 a b O1 L1 La Lb. apply IH; [assumption| |]; now rewrite L1.
        -- assumption.
        -- reflexivity.
        -- now rewrite (AR _ _ _ N1), (AR _ _ _ N2).
        -- intros x Ix. eapply IR; [exact N1|exact Ix].
        -- intros x Ix. eapply IR; [exact N2|exact Ix].
      * cbn. split; [assumption|]. split; [reflexivity|]. intros r R E.
        rewrite (R _ _ N1), (R _ _ N2) in E. injection E as E _.
        apply con_eqb_eq in E. congruence.
Qed.

(* ------------------------------------------------------------------ *)
(* Termination *)
Lemma child_real f h p p' :
  get_real f h p = Some p' -> forall x, child h x p' -> clos_trans _ (child h) x p.
Proof.
  revert p; induction f as [|f IH]; intros p E x C; [discriminate|]. cbn in E.
  destruct (nth_error h p) as [[|a|c k]|] eqn:N; try discriminate.
  - injection E as <-. now apply t_step.
  - apply t_trans with a; [now apply IH|]. apply t_step.
    exists (NInd a). split; [assumption|now left].
  - injection E as <-. now apply t_step.
Qed.

Lemma unify_list_more f f' k1 k2 s :
  f <= f' -> unify_list (unify f) k1 k2 s <> UStuck -> unify_list (unify f') k1 k2 s <> UStuck.
Proof.
  intros L N E. apply N. destruct (unify_list (unify f) k1 k2 s) eqn:E1; auto; exfalso.
  all: rewrite (unify_list_mono (unify f) (unify f')) with (r := unify_list (unify f) k1 k2 s) in E;
    [congruence|intros; now apply (unify_mono f)|reflexivity|congruence].
Qed.

Definition stops (s : tstate) (p q : nat) : Prop := exists f, unify f s p q <> UStuck.

Lemma list_stops ar n h :
  (forall s p q, okst ar s -> nvars (t_heap s) < n -> p < length (t_heap s) ->
     q < length (t_heap s) -> stops s p q) ->
  forall k1,
  (forall a s b, In a k1 -> okst ar s -> t_heap s = h -> b < length h -> stops s a b) ->
  forall k2 s, okst ar s -> length (t_heap s) = length h ->
    (t_heap s = h \/ nvars (t_heap s) < n) -> nvars h <= n ->
    (forall x, In x k1 -> x < length h) -> (forall x, In x k2 -> x < length h) ->
    exists f, unify_list (unify f) k1 k2 s <> UStuck.
Proof.
  intros Out. induction k1 as [|a k1 IH]; intros In1 k2 s O L D Nn R1 R2.
  { exists 0. discriminate. }
  destruct k2 as [|b k2]; [exists 0; discriminate|].
  assert (La : a < length h) by (apply R1; now left).
  assert (Lb : b < length h) by (apply R2; now left).
  assert (St : stops s a b).
  { destruct D as [D|D]; [apply In1; auto; now left|].
    apply Out; auto; now rewrite L. }
  destruct St as [f1 F1]. pose proof (unify_spec ar f1 s a b O) as Sp.
  rewrite L in Sp. specialize (Sp La Lb).
  destruct (unify f1 s a b) as [s1|s1| |] eqn:E; try tauto; cbn in Sp.
  - destruct Sp as (O1 & L1 & D1 & _).
    destruct (IH (fun a' s' b' i => In1 a' s' b' (or_intror i)) k2 s1) as [f2 F2]; auto.
    + congruence.
    + destruct D as [<-|D]; destruct D1 as [->|D1]; auto; right; lia.
    + intros x Ix. apply R1. now right.
    + intros x Ix. apply R2. now right.
    + exists (f1 + f2). cbn. rewrite (unify_mono f1 (f1 + f2) _ _ _ _ ltac:(lia) E) by discriminate.
      apply (unify_list_more f2); [lia|assumption].
  - exists f1. cbn. rewrite E. discriminate.
  - destruct Sp.
Qed.

Lemma unify_stops_aux ar n : forall s p q,
  okst ar s -> nvars (t_heap s) <= n -> p < length (t_heap s) -> q < length (t_heap s) ->
  stops s p q.
Proof.
  induction n as [n IHn] using lt_wf_ind.
  assert (Out : forall s p q, okst ar s -> nvars (t_heap s) < n -> p < length (t_heap s) ->
     q < length (t_heap s) -> stops s p q).
  { intros s p q O L Lp Lq. apply (IHn (nvars (t_heap s))); auto. }
  intros s0 p q0 O0 Nn. remember (t_heap s0) as h eqn:Eh. symmetry in Eh.
  assert (IR : in_range h) by (rewrite <- Eh; apply O0).
  assert (AC : acyclic h) by (rewrite <- Eh; apply O0).
  pose proof (Acc_clos_trans _ _ _ (AC p)) as Ap. revert s0 q0 O0 Eh.
  induction Ap as [p Ap IHp]. intros s q O Eh Lp Lq.
  destruct (get_real_total h p (AC p) IR Lp) as (f1 & p' & E1).
  destruct (get_real_total h q (AC q) IR Lq) as (f2 & q' & E2).
  apply get_real_sound in E1 as E1', E2 as E2'.
  destruct E1' as [(n1 & N1 & X1) _], E2' as [(n2 & N2 & X2) _].
  assert (Lp' := nth_lt _ _ _ N1). assert (Lq' := nth_lt _ _ _ N2).
  destruct n1 as [|a|c1 k1]; [|now edestruct X1|].
  - destruct (occurs_total h p' q' (AC q') IR Lq' N1) as (f3 & b & E3).
    exists (S (f1 + f2 + f3)). cbn [unify]. rewrite Eh.
    rewrite (get_real_mono f1 (f1 + f2 + f3) _ _ _ ltac:(lia) E1), (get_real_mono f2 (f1 + f2 + f3) _ _ _ ltac:(lia) E2).
    rewrite N1, N2, (occurs_mono f3 (f1 + f2 + f3) _ _ _ _ ltac:(lia) E3).
    destruct b; [destruct (Nat.eqb p' q'); discriminate|].
    unfold bind_var. destruct (t_ctx s); discriminate.
  - destruct n2 as [|a|c2 k2]; [|now edestruct X2|].
    + destruct (occurs_total h q' p' (AC p') IR Lp' N2) as (f3 & b & E3).
      assert (get_real (S (f1 + f2 + f3)) h q' = Some q') as G1 by (cbn; now rewrite N2).
      assert (get_real (S (f1 + f2 + f3)) h p' = Some p') as G2 by (cbn; now rewrite N1).
      exists (S (S (S (f1 + f2 + f3)))). remember (S (f1 + f2 + f3)) as g.
      cbn [unify]. rewrite Eh.
      rewrite (get_real_mono f1 (S g) _ _ _ ltac:(lia) E1), (get_real_mono f2 (S g) _ _ _ ltac:(lia) E2).
      rewrite N1, N2, G1, G2, N1, N2, (occurs_mono f3 g _ _ _ _ ltac:(lia) E3).
      destruct b; [destruct (Nat.eqb q' p'); discriminate|].
      unfold bind_var. destruct (t_ctx s); discriminate.
    + destruct (list_stops ar n h Out k1) with (k2 := k2) (s := s) as [f3 E3]; auto.
      * intros a s' b Ia O' E' Lb. apply (IHp a); auto.
        -- apply (child_real _ _ _ _ E1). exists (NCon c1 k1). auto.
        -- eapply IR; [exact N1|exact Ia].
      * now rewrite Eh.
      * intros x Ix. eapply IR; [exact N1|exact Ix].
      * intros x Ix. eapply IR; [exact N2|exact Ix].
      * exists (S (f1 + f2 + f3)). cbn [unify]. rewrite Eh.
        rewrite (get_real_mono f1 (f1 + f2 + f3) _ _ _ ltac:(lia) E1), (get_real_mono f2 (f1 + f2 + f3) _ _ _ ltac:(lia) E2).
        rewrite N1, N2. destruct (con_eqb c1 c2); [|discriminate].
        apply (unify_list_more f3); [lia|assumption].
Qed.

(* ------------------------------------------------------------------ *)
(* Expansion *)
Lemma expand_stable h : in_range h -> acyclic h ->
  exists D, forall p, p < length h -> forall f, D <= f -> expand f h p = expand D h p.
Proof.
  intros IR AC.
  assert (P : forall p, exists D, forall f, D <= f -> expand f h p = expand D h p).
  { intros p. induction (AC p) as [p _ IH].
    destruct (nth_error h p) as [[|a|c k]|] eqn:N.
    - exists 1. intros [|f] L; [lia|]. cbn. now rewrite N.
    - destruct (IH a) as [D HD]. { exists (NInd a). split; [assumption|now left]. }
      exists (S D). intros [|f] L; [lia|]. cbn. rewrite N. apply HD. lia.
    - assert (K : exists D, forall f, D <= f -> map (expand f h) k = map (expand D h) k).
      { assert (I : forall a, In a k -> exists D, forall f, D <= f -> expand f h a = expand D h a).
        { intros a Ia. apply IH. exists (NCon c k). auto. }
        clear N. induction k as [|a k IHk]; [exists 0; reflexivity|].
        destruct (I a) as [D1 H1]; [now left|].
        destruct IHk as [D2 H2]; [intros; apply I; now right|].
        exists (D1 + D2). intros f L. cbn. rewrite (H1 f), (H2 f) by lia.
        now rewrite (H1 (D1 + D2)), (H2 (D1 + D2)) by lia. }
      destruct K as [D HD]. exists (S D). intros [|f] L; [lia|]. cbn. rewrite N.
      f_equal. apply HD. lia.
    - exists 1. intros [|f] L; [lia|]. cbn. now rewrite N. }
  assert (Q : forall n, exists D, forall p, p < n -> forall f, D <= f -> expand f h p = expand D h p).
  { induction n as [|n [D1 H1]]; [exists 0; lia|]. destruct (P n) as [D2 H2].
    exists (D1 + D2). intros p L f Lf. destruct (Nat.eq_dec p n) as [->|Np].
    - now rewrite (H2 f), (H2 (D1 + D2)) by lia.
    - now rewrite (H1 p ltac:(lia) f), (H1 p ltac:(lia) (D1 + D2)) by lia. }
  apply Q.
Qed.

Lemma expand_reading h : in_range h -> acyclic h ->
  exists D, reading h (expand D h) /\
    forall f, D <= f -> reading h (expand f h) /\
      forall p, p < length h -> expand f h p = expand D h p.
Proof.
  intros IR AC. destruct (expand_stable h IR AC) as [D HD]. exists D.
  assert (G : forall f, D <= f -> reading h (expand f h)).
  { intros f Lf p n N. assert (Lp := nth_lt _ _ _ N).
    destruct n as [|a|c k]; auto.
    - assert (La : a < length h) by (eapply IR; [exact N|now left]).
      rewrite (HD p Lp f Lf), <- (HD p Lp (S f)) by lia. cbn. now rewrite N.
    - rewrite (HD p Lp f Lf), <- (HD p Lp (S f)) by lia. cbn. now rewrite N. }
  split; [now apply G|]. intros f Lf. split; [now apply G|]. intros p Lp. now apply HD.
Qed.

(* Every reading of a store is an instance of its expansion. *)
Lemma reading_inst h r f p : reading h r -> r p = inst r (expand f h p).
Proof.
  intros R. revert p; induction f as [|f IH]; intros p; [reflexivity|]. cbn.
  destruct (nth_error h p) as [[|a|c k]|] eqn:N; auto.
  - rewrite (R _ _ N). apply IH.
  - rewrite (R _ _ N). cbn. f_equal. rewrite map_map. apply map_ext. auto.
Qed.

(* ------------------------------------------------------------------ *)
(* Rolling back *)
Definition undo_all (l : list diff) (h : heap) : heap :=
  fold_left (fun h d => restore d h) l h.

Lemma upd_out h p n : length h <= p -> upd h p n = h.
Proof. revert p; induction h; intros [|p] L; cbn in *; auto; [lia|]. f_equal. apply IHh. lia. Qed.
Lemma upd_firstn k h p n : firstn k (upd h p n) = upd (firstn k h) p n.
Proof.
  revert k p; induction h as [|a h IH]; intros [|k] [|p]; cbn; auto. now rewrite IH.
Qed.
Lemma restore_firstn k d h : firstn k (restore d h) = restore d (firstn k h).
Proof. revert h; induction d as [|[p n] d IH]; intros h; cbn; auto. now rewrite IH, upd_firstn. Qed.
Lemma upd_upd h p n m : upd (upd h p n) p m = upd h p m.
Proof. revert p; induction h; intros [|p]; cbn; auto. now rewrite IHh. Qed.
Lemma upd_id h p n : nth_error h p = Some n -> upd h p n = h.
Proof. revert p; induction h; intros [|p]; cbn; try discriminate; intros E; [congruence|]. now rewrite IHh. Qed.
Lemma restore_length d h : length (restore d h) = length h.
Proof. revert h; induction d as [|[p n] d IH]; intros h; cbn; auto. now rewrite IH, upd_length. Qed.

(* What unification may do to the contexts: it adds to the innermost one what
   it takes to get back. *)
Definition grows (s s' : tstate) : Prop :=
  length (t_heap s') = length (t_heap s) /\
  match t_ctx s, t_ctx s' with
  | d :: ctx, d' :: ctx' =>
      ctx' = ctx /\ exists e, d' = e ++ d /\ restore e (t_heap s') = t_heap s
  | [], [] => t_heap s' = t_heap s
  | _, _ => False
  end.
Lemma grows_refl s : grows s s.
Proof.
  split; [reflexivity|]. destruct (t_ctx s); [reflexivity|]. split; [reflexivity|].
  exists []. auto.
Qed.
Lemma grows_trans s1 s2 s3 : grows s1 s2 -> grows s2 s3 -> grows s1 s3.
Proof.
  intros [L1 G1] [L2 G2]. split; [congruence|].
  destruct (t_ctx s1), (t_ctx s2), (t_ctx s3); try tauto; try congruence.
  destruct G1 as [-> (e1 & -> & E1)], G2 as [-> (e2 & -> & E2)].
  split; [reflexivity|]. exists (e2 ++ e1). split; [now rewrite app_assoc|].
  unfold restore in *. rewrite fold_left_app, E2. exact E1.
Qed.

Lemma unify_list_grows (u : tstate -> nat -> nat -> ures) :
  (forall s p q s', u s p q = UOk s' \/ u s p q = UFail s' -> grows s s') ->
  forall k1 k2 s s', unify_list u k1 k2 s = UOk s' \/ unify_list u k1 k2 s = UFail s' -> grows s s'.
Proof.
  intros U. induction k1 as [|a k1 IH]; intros k2 s s' E; cbn in E.
  - destruct E as [[= <-]|[=]]. apply grows_refl.
  - destruct k2 as [|b k2]; [destruct E; discriminate|].
    destruct (u s a b) as [s1|s1| |] eqn:Eu; try (destruct E; discriminate).
    + eapply grows_trans; [eapply U; eauto|eapply IH; eauto].
    + destruct E as [[=]|[= <-]]. eapply U; eauto.
Qed.

Lemma unify_grows f : forall s p q s',
  unify f s p q = UOk s' \/ unify f s p q = UFail s' -> grows s s'.
Proof.
  induction f as [|f IH]; intros s p q s' E; [destruct E; discriminate|]. cbn [unify] in E.
  destruct (get_real f (t_heap s) p) as [p'|]; [|destruct E; discriminate].
  destruct (get_real f (t_heap s) q) as [q'|]; [|destruct E; discriminate].
  destruct (nth_error (t_heap s) p') as [[|a|c1 k1]|] eqn:N1;
    destruct (nth_error (t_heap s) q') as [[|a'|c2 k2]|] eqn:N2;
    try (destruct E; discriminate).
  4: { eapply IH; eauto. }
  4: { destruct (con_eqb c1 c2).
       - eapply unify_list_grows; eauto.
       - destruct E as [[=]|[= <-]]. apply grows_refl. }
  all: destruct (occurs f (t_heap s) p' q') as [[]|]; try (destruct E; discriminate).
  all: try (destruct (Nat.eqb p' q'); destruct E as [E|E]; try discriminate;
            injection E as <-; apply grows_refl).
  all: unfold bind_var in E; destruct (t_ctx s) as [|d ctx] eqn:C; destruct E as [E|E];
    try discriminate; injection E as <-; split; cbn; [apply upd_length|];
    rewrite C; split; [reflexivity|]; exists [(p', NVar)]; split; [reflexivity|];
    cbn; rewrite upd_upd; now apply upd_id.
Qed.

(* Histories in which every context that is opened is closed again, and closed
   with rolling back. *)
Inductive balanced : list top -> Prop :=
| bal_nil : balanced []
| bal_unify f p q l : balanced l -> balanced (TUnify f p q :: l)
| bal_new n l : balanced l -> balanced (TNew n :: l)
| bal_nest l1 l2 : balanced l1 -> balanced l2 ->
    balanced (TPush :: l1 ++ TPop true :: l2).

(* as [grows], but the store may also get longer *)
Definition ext (s s' : tstate) : Prop :=
  length (t_heap s) <= length (t_heap s') /\
  match t_ctx s, t_ctx s' with
  | d :: ctx, d' :: ctx' =>
      ctx' = ctx /\ exists e, d' = e ++ d /\
        firstn (length (t_heap s)) (restore e (t_heap s')) = t_heap s
  | [], [] => firstn (length (t_heap s)) (t_heap s') = t_heap s
  | _, _ => False
  end.
Lemma grows_ext s s' : grows s s' -> ext s s'.
Proof.
  intros [L G]. split; [lia|]. destruct (t_ctx s), (t_ctx s'); try tauto.
  - rewrite G. apply firstn_all.
  - destruct G as [-> (e & -> & E)]. split; [reflexivity|]. exists e. split; [reflexivity|].
    rewrite E. apply firstn_all.
Qed.
Lemma ext_trans s1 s2 s3 : ext s1 s2 -> ext s2 s3 -> ext s1 s3.
Proof.
  intros [L1 G1] [L2 G2]. split; [lia|].
  destruct (t_ctx s1), (t_ctx s2), (t_ctx s3); try tauto.
  - transitivity (firstn (length (t_heap s1)) (t_heap s2)); [|assumption].
    set (k := length (t_heap s1)) in *. rewrite <- G2, firstn_firstn.
    now rewrite Nat.min_l by assumption.
  - destruct G1 as [-> (e1 & -> & E1)], G2 as [-> (e2 & -> & E2)].
    split; [reflexivity|]. exists (e2 ++ e1). split; [now rewrite app_assoc|].
    assert (RA : restore (e2 ++ e1) (t_heap s3) = restore e1 (restore e2 (t_heap s3)))
      by (unfold restore; apply fold_left_app).
    rewrite RA, restore_firstn. transitivity (restore e1 (firstn (length (t_heap s1)) (t_heap s2))).
    + f_equal. set (k := length (t_heap s1)) in *. rewrite <- E2, firstn_firstn.
      now rewrite Nat.min_l by assumption.
    + now rewrite <- restore_firstn.
Qed.

Lemma trun_app l1 l2 s :
  trun (l1 ++ l2) s = match trun l1 s with None => None | Some s => trun l2 s end.
Proof. revert s; induction l1; intros s; cbn; auto. destruct (tstep a s); auto. Qed.

Lemma balanced_ext l : balanced l -> forall s s', trun l s = Some s' -> ext s s'.
Proof.
  induction 1 as [|f p q l B IH|n l B IH|l1 l2 B1 IH1 B2 IH2]; intros s s' E.
  - cbn in E. injection E as <-. apply grows_ext, grows_refl.
  - cbn in E. destruct (unify f s p q) as [s1|s1| |] eqn:U; try discriminate.
    all: eapply ext_trans; [|apply IH, E]; apply grows_ext; eapply unify_grows; eauto.
  - cbn in E. eapply ext_trans; [|apply IH, E]. split; cbn; [rewrite app_length; lia|].
    assert (G : firstn (length (t_heap s)) (t_heap s ++ [n]) = t_heap s).
    { rewrite firstn_app, Nat.sub_diag, firstn_all. apply app_nil_r. }
    destruct (t_ctx s); [assumption|]. split; [reflexivity|]. exists []. auto.
  - cbn [trun tstep] in E. rewrite trun_app in E.
    destruct (trun l1 (push_ctx s)) as [s1|] eqn:E1; [|discriminate].
    apply IH1 in E1 as [L1 G1]. cbn in L1, G1. cbn [trun tstep] in E.
    unfold pop_ctx in E. destruct (t_ctx s1) as [|d1 ctx1]; [tauto|].
    destruct G1 as [-> (e & -> & G)]. rewrite app_nil_r in E.
    eapply ext_trans; [|apply IH2, E]. split; cbn; [now rewrite restore_length|].
    destruct (t_ctx s); [assumption|]. split; [reflexivity|]. exists []. auto.
Qed.

Lemma rollback_lemma l s s' :
  balanced l -> trun (TPush :: l ++ [TPop true]) s = Some s' ->
  t_ctx s' = t_ctx s /\ length (t_heap s) <= length (t_heap s') /\
  forall p, p < length (t_heap s) -> nth_error (t_heap s') p = nth_error (t_heap s) p.
Proof.
  intros B E. cbn [trun tstep] in E. rewrite trun_app in E.
  destruct (trun l (push_ctx s)) as [s1|] eqn:E1; [|discriminate].
  apply (balanced_ext _ B) in E1 as [L1 G1]. cbn in L1, G1, E.
  unfold pop_ctx in E. destruct (t_ctx s1) as [|d1 ctx1]; [tauto|].
  destruct G1 as [-> (e & -> & G)]. rewrite app_nil_r in E. injection E as <-. cbn.
  split; [reflexivity|]. split; [now rewrite restore_length|].
  intros p Lp. set (k := length (t_heap s)) in *. rewrite <- G. clear - Lp.
  generalize (restore e (t_heap s1)). revert p Lp. generalize k. clear k.
  induction k as [|n IH]; intros p Lp h; [lia|].
  destruct h as [|x h]; [reflexivity|]. destruct p as [|p]; cbn; [reflexivity|]. apply IH. lia.
Qed.
