(* The event list of SteModel.v. *)
From Coq Require Import List Arith NArith ZArith Bool Lia Permutation Sorted.
From Verif Require Import FsmOps SteModel.
Import ListNotations.

(* The four kinds of tuples. *)
Inductive kind := KW | KA | KC | KT.
Definition kind_eqb (a b : kind) : bool :=
  match a, b with KW, KW | KA, KA | KC, KC | KT, KT => true | _, _ => false end.
Lemma kind_eqb_spec a b : reflect (a = b) (kind_eqb a b).
Proof. destruct a, b; constructor; congruence. Qed.
Definition kind_of (y : ety) : kind :=
  match y with
  | start_weak | end_weak => KW | start_ant | end_ant => KA
  | start_cons | end_cons => KC | start_trace | end_trace => KT
  end.
Definition is_start (y : ety) : bool :=
  match y with start_weak | start_ant | start_cons | start_trace => true | _ => false end.
Lemma ety_eq y z : kind_of y = kind_of z -> is_start y = is_start z -> y = z.
Proof. destruct y, z; cbn; congruence. Qed.

Section Ev.
Variable V : Type.
Variables cand cor : V -> V -> V.
Variable cnot : V -> V.
Variables czero cone : V.
Variable ceq : V -> V -> bool.
Variable chg0 : nat -> bool.
Local Notation event := (event V).
Local Notation estate := (estate V).
Local Notation proc := (proc V cand czero cone ceq).
Local Notation process := (process V cand czero cone ceq).
Local Notation conj := (conj V cand cone).
Local Notation es0 := (es0 V czero cone chg0).
Local Notation eid := (e_id V). Local Notation ety := (e_ty V). Local Notation end_ := (e_nd V).
Local Notation etime := (e_time V).

Definition tbl (k : kind) (s : estate) (n : nat) : list event :=
  match k with KW => tw V s n | KA => ta V s n | KC => tc V s n | KT => [] end.
Definition flg (k : kind) (s : estate) (n : nat) : bool :=
  match k with KW => hw V s n | KA => ha V s n | KC => hc V s n | KT => ht V s n end.
Definition vbuf (k : kind) (s : estate) (n : nat) : V * V :=
  match k with KW => wb V s n | KA => ab V s n | KC => cb V s n | KT => (cone, cone) end.

Definition on (k : kind) (n : nat) (e : event) : bool := kind_eqb (kind_of (ety e)) k && (end_ e =? n).
Definition ended (P : list event) (e : event) : bool :=
  existsb (fun f => negb (is_start (ety f)) && (eid f =? eid e)) P.
Definition live (k : kind) (n : nat) (P : list event) : list event :=
  filter (fun e => on k n e && is_start (ety e) && negb (ended P e)) P.

(* The events in the order in which they are popped: a start has an id no earlier event
   has, an end comes after its start and only once. *)
Definition good (evs : list event) : Prop := forall P e R, evs = P ++ e :: R ->
  (is_start (ety e) = true -> forall f, In f P -> eid f <> eid e) /\
  (is_start (ety e) = false ->
    (exists f, In f P /\ is_start (ety f) = true /\ kind_of (ety f) = kind_of (ety e) /\
       end_ f = end_ e /\ eid f = eid e) /\
    (forall f, In f P -> is_start (ety f) = false -> eid f <> eid e)).
Lemma good_app P R : good (P ++ R) -> good P.
Proof. intros G A e B E. apply (G A e (B ++ R)). rewrite E, <- app_assoc. reflexivity. Qed.

Lemma ended_app P Q e : ended (P ++ Q) e = ended P e || ended Q e.
Proof. unfold ended. now rewrite existsb_app. Qed.
Lemma ended_false P e : ended P e = false <-> forall f, In f P -> is_start (ety f) = false -> eid f <> eid e.
Proof.
  unfold ended. split.
  - intros E f F S1 S2. assert (K : existsb (fun f => negb (is_start (ety f)) && (eid f =? eid e)) P = true).
    { apply existsb_exists. exists f. split; auto. rewrite S1, S2, Nat.eqb_refl. reflexivity. }
    congruence.
  - intros K. apply not_true_iff_false. intros E. apply existsb_exists in E as [f [F Q]].
    apply andb_true_iff in Q as [Q1 Q2]. apply negb_true_iff in Q1. apply Nat.eqb_eq in Q2. now apply (K f).
Qed.
Lemma filter_ext_in' {A} (f g : A -> bool) l : (forall x, In x l -> f x = g x) -> filter f l = filter g l.
Proof.
  induction l as [|x l IH]; intros K; cbn; auto. rewrite (K x) by now left.
  rewrite IH by (intros; apply K; now right). reflexivity.
Qed.
(* the starts of a good list have distinct ids *)
Lemma good_start_id P : good P -> forall e f, In e P -> In f P -> is_start (ety e) = true ->
  is_start (ety f) = true -> eid e = eid f -> e = f.
Proof.
  intros G e f He Hf Se Sf E.
  apply in_split in He as [A [B ->]].
  apply in_app_or in Hf as [Hf|[Hf|Hf]]; auto.
  - exfalso. destruct (G A e B eq_refl) as [G1 _]. specialize (G1 Se f Hf). congruence.
  - exfalso. apply in_split in Hf as [C [D ->]].
    destruct (G (A ++ e :: C) f D) as [G1 _]; [now rewrite <- app_assoc|].
    apply (G1 Sf e); auto. apply in_or_app. right. now left.
Qed.
Lemma good_nodup_live k n P : good P -> NoDup (map eid (live k n P)).
Proof.
  intros G. unfold live. assert (Q : forall p, NoDup (map eid (filter (fun e => is_start (ety e) && p e) P))).
  { intros p. clear - G. induction P as [|e P IH] using rev_ind; [constructor|].
    rewrite filter_app, map_app. cbn. pose proof (IH (good_app _ _ G)) as IH'.
    destruct (is_start (ety e)) eqn:S1; cbn; [|now rewrite app_nil_r].
    destruct (p e) eqn:P1; cbn; [|now rewrite app_nil_r].
    apply NoDup_rev in IH'. rewrite <- (rev_involutive (_ ++ [_])). apply NoDup_rev.
    rewrite rev_app_distr. cbn. constructor; auto.
    rewrite <- in_rev. intros I. apply in_map_iff in I as [f [F1 F2]]. apply filter_In in F2 as [F2 _].
    destruct (G P e [] eq_refl) as [G1 _]. now apply (G1 S1 f). }
  erewrite filter_ext_in'; [apply (Q (fun e => on k n e && negb (ended P e)))|].
  intros x _. cbv beta. destruct (on k n x), (is_start (ety x)), (ended P x); reflexivity.
Qed.
Lemma delete_active_spec id l : NoDup (map eid l) -> (exists e, In e l /\ eid e = id) ->
  delete_active V id l = Some (filter (fun e => negb (eid e =? id)) l).
Proof.
  induction l as [|a l IH]; intros N [e [I E]]; [destruct I|]. cbn.
  inversion N as [|? ? N1 N2]; subst. destruct (eid a =? eid e) eqn:Q; cbn.
  - f_equal. symmetry. apply Nat.eqb_eq in Q.
    erewrite filter_ext_in'; [|intros x X].
    + instantiate (1 := fun _ => true). clear. induction l; cbn; congruence.
    + cbv beta. apply negb_true_iff, Nat.eqb_neq. intros Q'. apply N1. rewrite Q, <- Q'. now apply in_map.
  - destruct I as [->|I]; [rewrite Nat.eqb_refl in Q; discriminate|].
    rewrite IH; auto. exists e. auto.
Qed.
Lemma delete_active_perm id l m : Permutation l m -> NoDup (map eid m) -> (exists e, In e m /\ eid e = id) ->
  exists l', delete_active V id l = Some l' /\ Permutation l' (filter (fun e => negb (eid e =? id)) m).
Proof.
  intros P N [e [I E]]. eexists. split.
  - apply delete_active_spec.
    + eapply Permutation_NoDup; [|exact N]. now apply Permutation_map, Permutation_sym.
    + exists e. split; auto. now apply Permutation_sym in P; apply (Permutation_in _ P).
  - clear - P. induction P; cbn; auto.
    + destruct (negb (eid x =? id)); auto.
    + destruct (negb (eid y =? id)), (negb (eid x =? id)); auto. apply perm_swap.
    + eauto using perm_trans.
Qed.

(* the flag of kind k on n: whether the last event of that kind there is a start *)
Definition last_start (k : kind) (n : nat) (P : list event) : bool :=
  fold_left (fun b e => if on k n e then is_start (ety e) else b) P false.
(* has_ant_or_weak_change: whether the last event there is of a weakening or antecedent *)
Definition marks (e : event) : bool := match kind_of (ety e) with KW | KA => true | _ => false end.
Definition last_mark (n : nat) (P : list event) (b : bool) : bool :=
  fold_left (fun b e => if end_ e =? n then marks e else b) P b.

Record inv (P : list event) (s : estate) : Prop := Inv {
  i_tbl : forall k n, k <> KT -> Permutation (tbl k s n) (live k n P);
  i_flg : forall k n, flg k s n = last_start k n P;
  i_buf : forall k n, vbuf k s n = conj (tbl k s n) \/ k = KW /\ flg k s n = false }.

Lemma live_start k n P e : good (P ++ [e]) -> is_start (ety e) = true ->
  live k n (P ++ [e]) = if on k n e then live k n P ++ [e] else live k n P.
Proof.
  intros G S1. unfold live. rewrite filter_app. cbn. rewrite S1, andb_true_r.
  assert (N : ended (P ++ [e]) e = false).
  { apply ended_false. intros f F F1. apply in_app_or in F as [F|[<-|[]]]; [|congruence].
    destruct (G P e [] eq_refl) as [G1 _]. now apply G1. }
  rewrite N, andb_true_r.
  rewrite (filter_ext_in' _ (fun e => on k n e && is_start (ety e) && negb (ended P e))).
  - destruct (on k n e); auto. apply app_nil_r.
  - intros x _. rewrite ended_app. cbn. rewrite S1. cbn. now rewrite !orb_false_r.
Qed.
Lemma live_end k n P e : good (P ++ [e]) -> is_start (ety e) = false ->
  live k n (P ++ [e]) = if on k n e then filter (fun f => negb (eid f =? eid e)) (live k n P) else live k n P.
Proof.
  intros G S1. unfold live. rewrite filter_app. cbn. rewrite S1, andb_false_r, app_nil_r.
  destruct (on k n e) eqn:O.
  - set (p := fun x => on k n x && is_start (ety x) && negb (ended P x)).
    assert (FF : forall l, filter (fun f => negb (eid f =? eid e)) (filter p l)
                         = filter (fun f => p f && negb (eid f =? eid e)) l).
    { induction l as [|x l IH]; cbn; auto. destruct (p x); cbn; [|exact IH].
      destruct (negb (eid x =? eid e)); cbn; now rewrite IH. }
    rewrite FF. apply filter_ext_in'. intros x _. unfold p. rewrite ended_app. cbn. rewrite S1. cbn.
    rewrite orb_false_r, (Nat.eqb_sym (eid e)).
    now destruct (on k n x), (is_start (ety x)), (ended P x), (eid x =? eid e).
  - apply filter_ext_in'. intros x X. rewrite ended_app. cbn. rewrite S1. cbn. rewrite orb_false_r.
    destruct (eid e =? eid x) eqn:Q; [|now rewrite orb_false_r]. apply Nat.eqb_eq in Q.
    destruct (is_start (ety x)) eqn:Sx; [|now rewrite andb_false_r].
    destruct (G P e [] eq_refl) as [_ G2]. destruct (G2 S1) as [[f [F1 [F2 [F3 [F4 F5]]]]] _].
    assert (x = f). { apply (good_start_id P); eauto using good_app. congruence. } subst x.
    unfold on in *. rewrite F3, F4, O. reflexivity.
Qed.

Lemma fupd_same {A} (f : nat -> A) n v : fupd f n v n = v.
Proof. unfold fupd. now rewrite Nat.eqb_refl. Qed.
Lemma fupd_other {A} (f : nat -> A) n m v : m <> n -> fupd f n v m = f m.
Proof. unfold fupd. intros D. now apply Nat.eqb_neq in D as ->. Qed.

(* What one event does, for all kinds at once. *)
Lemma proc_spec N e s s' : proc N e s = Some s' ->
  let k0 := kind_of (ety e) in let n0 := end_ e in
  (forall k n, k <> KT -> on k n e = false -> tbl k s' n = tbl k s n /\ flg k s' n = flg k s n /\ vbuf k s' n = vbuf k s n) /\
  (forall n, flg KT s' n = if on KT n e then is_start (ety e) else flg KT s n) /\
  (k0 <> KT -> flg k0 s' n0 = is_start (ety e) /\ vbuf k0 s' n0 = conj (tbl k0 s' n0) /\
     (if is_start (ety e) then tbl k0 s' n0 = e :: tbl k0 s n0
      else delete_active V (eid e) (tbl k0 s n0) = Some (tbl k0 s' n0))) /\
  (forall n, chg V s' n = if n0 =? n then marks e else chg V s n).
Proof.
  unfold proc, on, marks. destruct (ety e); cbn;
    try (destruct (delete_active V _ _) eqn:D; [|discriminate]); intros E; injection E as <-; cbn;
    (split; [intros k n K O; destruct k; cbn in *; try congruence; auto;
       rewrite ?fupd_other by (intros ->; rewrite Nat.eqb_refl in O; discriminate); auto|]);
    (split; [intros n; cbn; try reflexivity; unfold fupd; rewrite (Nat.eqb_sym n); reflexivity|]);
    (split; [intros K; try congruence; rewrite !fupd_same; auto|]);
    intros n; unfold fupd; now rewrite (Nat.eqb_sym n).
Qed.
Lemma proc_some N e s : (is_start (ety e) = false -> kind_of (ety e) <> KT ->
    exists l, delete_active V (eid e) (tbl (kind_of (ety e)) s (end_ e)) = Some l) ->
  exists s', proc N e s = Some s'.
Proof.
  unfold proc. destruct (ety e); cbn; intros K; eauto;
  (destruct K as [l ->]; [reflexivity|congruence|eauto]).
Qed.

Lemma on_self e : on (kind_of (ety e)) (end_ e) e = true.
Proof. unfold on. rewrite Nat.eqb_refl. now destruct (kind_of (ety e)). Qed.
Lemma on_true k n e : on k n e = true -> k = kind_of (ety e) /\ n = end_ e.
Proof.
  unfold on. intros Q. apply andb_true_iff in Q as [Q1 Q2]. apply Nat.eqb_eq in Q2.
  destruct (kind_eqb_spec (kind_of (ety e)) k); [auto|discriminate].
Qed.
Lemma last_start_snoc k n P e : last_start k n (P ++ [e]) = if on k n e then is_start (ety e) else last_start k n P.
Proof. unfold last_start. now rewrite fold_left_app. Qed.

Lemma inv0 : inv [] es0.
Proof. split; cbn. - intros [] n; cbn; auto; congruence. - intros [] n; reflexivity.
  - intros [] n; cbn; auto. Qed.
Lemma inv_step N P e s : good (P ++ [e]) -> inv P s ->
  exists s', proc N e s = Some s' /\ inv (P ++ [e]) s'.
Proof.
  intros G I. destruct (G P e [] eq_refl) as [_ G2].
  assert (GP : good P) by exact (good_app _ _ G).
  assert (D : is_start (ety e) = false -> kind_of (ety e) <> KT -> exists l',
    delete_active V (eid e) (tbl (kind_of (ety e)) s (end_ e)) = Some l' /\
    Permutation l' (filter (fun f => negb (eid f =? eid e)) (live (kind_of (ety e)) (end_ e) P))).
  { intros S1 K. apply delete_active_perm; [now apply I|now apply good_nodup_live|].
    destruct (G2 S1) as [[f [F1 [F2 [F3 [F4 F5]]]]] F6]. exists f. split; auto.
    apply filter_In. split; auto. rewrite F2. rewrite <- F3, <- F4, on_self. cbn.
    apply negb_true_iff, ended_false. intros g G3 G4. rewrite F5. now apply F6. }
  destruct (proc_some N e s) as [s' E].
  { intros S1 K. destruct (D S1 K) as [l' [D1 _]]. eauto. }
  exists s'. split; auto.
  destruct (proc_spec N e s s' E) as [Q1 [Q2 [Q3 Q4]]]. split.
  - intros k n K. destruct (on k n e) eqn:O.
    + destruct (on_true _ _ _ O) as [-> ->]. destruct (Q3 K) as [_ [_ Q5]].
      destruct (is_start (ety e)) eqn:S1.
      * rewrite Q5, live_start, O by auto.
        eapply perm_trans; [apply perm_skip, I; auto|]. apply Permutation_cons_append.
      * destruct (D eq_refl K) as [l' [D1 D2]]. rewrite D1 in Q5. injection Q5 as <-.
        now rewrite live_end, O by auto.
    + destruct (Q1 k n K O) as [-> _]. destruct (is_start (ety e)) eqn:S1.
      * rewrite live_start, O by auto. now apply I.
      * rewrite live_end, O by auto. now apply I.
  - intros k n. rewrite last_start_snoc.
    destruct (kind_eqb_spec k KT) as [->|K]; [rewrite Q2; destruct (on KT n e); auto; apply I|].
    destruct (on k n e) eqn:O.
    + destruct (on_true _ _ _ O) as [-> ->]. now apply Q3.
    + destruct (Q1 k n K O) as [_ [-> _]]. apply I.
  - intros k n. destruct (kind_eqb_spec k KT) as [->|K]; [left; reflexivity|].
    destruct (on k n e) eqn:O.
    + destruct (on_true _ _ _ O) as [-> ->]. left. now apply Q3.
    + destruct (Q1 k n K O) as [-> [-> ->]]. apply I.
Qed.

(* process takes the events up to time t *)
Definition upto (t : Z) (l : list event) : list event := filter (fun e => (etime e <=? t)%Z) l.
Definition ordered (evs : list event) : Prop :=
  forall P e R, evs = P ++ e :: R -> forall f, In f R -> (event_cmp V f e <= 0)%Z.
Lemma cmp_time f e : (event_cmp V f e <= 0)%Z -> (etime e <= etime f)%Z.
Proof. unfold event_cmp. destruct (Z.eqb_spec (etime e) (etime f)); lia. Qed.
Lemma cmp_type f e : (event_cmp V f e <= 0)%Z -> etime e = etime f -> end_ e = end_ f ->
  (ety_num (ety f) <= ety_num (ety e))%Z.
Proof. unfold event_cmp. intros K E1 E2. rewrite E1, E2, Z.eqb_refl, Nat.eqb_refl in K. lia. Qed.
Lemma ordered_tl e R : ordered (e :: R) -> ordered R.
Proof. intros O P f Q E. apply (O (e :: P) f Q). now rewrite E. Qed.
Lemma ordered_app P R : ordered (P ++ R) -> ordered R.
Proof. induction P; cbn; auto. intros O. apply IHP. eapply ordered_tl; eauto. Qed.
Lemma upto_ordered t evs : ordered evs -> exists R, evs = upto t evs ++ R /\ forall f, In f R -> (t < etime f)%Z.
Proof.
  induction evs as [|e evs IH]; intros O; [exists []; split; auto; easy|]. cbn.
  destruct (Z.leb_spec (etime e) t).
  - destruct (IH (ordered_tl _ _ O)) as [R [E K]]. exists R. split; auto. cbn. f_equal. exact E.
  - exists (e :: evs). assert (A : forall f, In f evs -> (t < etime f)%Z).
    { intros f F. pose proof (O [] e evs eq_refl f F) as C. apply cmp_time in C. lia. }
    split. 2:{ intros f [<-|F]; [lia|auto]. }
    replace (filter (fun e => (etime e <=? t)%Z) evs) with (@nil event); [reflexivity|].
    symmetry. clear - A. induction evs as [|x l IH]; cbn; auto.
    destruct (Z.leb_spec (etime x) t); [specialize (A x (or_introl eq_refl)); lia|].
    apply IH. intros; apply A; now right.
Qed.
Lemma process_split N t P R s : (forall f, In f P -> (etime f <= t)%Z) -> (forall f, In f R -> (t < etime f)%Z) ->
  process N (P ++ R) t s = match fold_left (fun o e => match o with Some s => proc N e s | None => None end) P (Some s) with
                           | Some s' => Some (R, s') | None => None end.
Proof.
  revert s. induction P as [|e P IH]; intros s L G.
  - cbn. destruct R as [|f R]; [reflexivity|]. cbn.
    pose proof (G f (or_introl eq_refl)). destruct (Z.ltb_spec t (etime f)); [reflexivity|lia].
  - cbn. pose proof (L e (or_introl eq_refl)). destruct (Z.ltb_spec t (etime e)); [lia|].
    destruct (proc N e s) as [s'|].
    + apply IH; auto. intros; apply L; now right.
    + clear. induction P; cbn; auto.
Qed.

(* Processing up to t from a state reached at the prefix Q. *)
Lemma process_inv N t Q R s : good (Q ++ R) -> ordered R -> inv Q s ->
  exists R' s', process N R t s = Some (R', s') /\ R = upto t R ++ R' /\
    (forall f, In f R' -> (t < etime f)%Z) /\ inv (Q ++ upto t R) s' /\
    (forall n, chg V s' n = last_mark n (upto t R) (chg V s n)).
Proof.
  intros G O I. destruct (upto_ordered t R O) as [R' [E K]].
  set (P := upto t R) in *. assert (LP : forall f, In f P -> (etime f <= t)%Z).
  { intros f F. apply filter_In in F as [_ F]. lia. }
  clearbody P. rewrite E in G.
  rewrite app_assoc in G. apply good_app in G. exists R'.
  assert (X : exists s', fold_left (fun o e => match o with Some s => proc N e s | None => None end) P (Some s) = Some s'
     /\ inv (Q ++ P) s' /\ forall n, chg V s' n = last_mark n P (chg V s n)).
  { clear E K LP O R' R. revert Q s G I. induction P as [|e P IH]; intros Q s G I.
    - exists s. rewrite app_nil_r. cbn. auto.
    - cbn. replace (Q ++ e :: P) with ((Q ++ [e]) ++ P) in * by now rewrite <- app_assoc.
      destruct (inv_step N Q e s) as [s1 [E1 I1]]; auto; [eapply good_app; eauto|].
      rewrite E1. destruct (IH (Q ++ [e]) s1) as [s2 [E2 [I2 C]]]; auto. exists s2. split; auto. split; auto.
      intros n. rewrite C. destruct (proc_spec N e s s1 E1) as [_ [_ [_ ->]]]. reflexivity. }
  destruct X as [s' [F [I' C]]]. exists s'. rewrite E at 1. rewrite process_split by auto. rewrite F. auto.
Qed.
End Ev.
