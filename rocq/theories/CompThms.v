(* Correctness of compile_expr (CompModel.v): the composites it adds have the values of
   the expression, and admit all of them. *)
From Coq Require Import String List Arith ZArith Bool Lia Permutation.
From Verif Require Import FsmOps FsmRel FsmBool FsmWord FsmDelay SteModel SteSim CompModel CompSpec CompKind.
Import ListNotations.

(* ---------------------------------------------------------------------- *)
(* induction over expressions *)
Fixpoint wsize (e : wexpr) : nat :=
  match e with WVar _ _ => 0 | WNode _ l => S (list_sum (map wsize l)) end.
Lemma wsize_in e k l : In e l -> wsize e < wsize (WNode k l).
Proof.
  cbn [wsize]. induction l as [|a l IH]; [easy|]. cbn [map]. rewrite (eq_refl : list_sum (wsize a :: map wsize l) = wsize a + list_sum (map wsize l)).
  intros [->|H]; [lia|]. specialize (IH H). lia.
Qed.
Lemma wexpr_induct (P : wexpr -> Type) :
  (forall sz nm, P (WVar sz nm)) -> (forall k l, (forall e, In e l -> P e) -> P (WNode k l)) -> forall e, P e.
Proof.
  intros H0 H1 e. assert (G : forall n e, wsize e < n -> P e).
  { induction n as [|n IH]; [lia|]. intros [sz nm|k l] L; [apply H0|]. apply H1.
    intros e' He. apply IH. pose proof (wsize_in e' k l He). lia. }
  apply (G (S (wsize e))). lia.
Qed.

(* ---------------------------------------------------------------------- *)
(* values *)
Section Values.
Variable look : string -> list nat.
Local Notation wsem := (wsem look).
Local Notation width := (width look).
Local Notation nodes_of := (nodes_of look).

Lemma wsem_node x k l v : wsem x (WNode k l) v <-> exists vals, Forall2 (wsem x) l vals /\ ksem k vals v.
Proof.
  cbn [CompSpec.wsem]. split; intros [vals [A B]]; exists vals; split; auto; clear B; revert vals A.
  - induction l as [|e l IH]; intros [|w vals]; try tauto; [constructor|]. intros [A B]. constructor; auto.
  - induction l as [|e l IH]; intros vals F; inversion F; subst; [exact I|]. split; [assumption|now apply IH].
Qed.
Lemma wsem_ext x y e : forall v, (forall n, In n (nodes_of e) -> x n = y n) -> wsem x e v -> wsem y e v.
Proof.
  induction e as [sz nm|k l IH] using wexpr_induct; intros v H.
  - cbn. intros ->. apply map_ext_in. auto.
  - rewrite !wsem_node. intros [vals [F K]]. exists vals. split; auto. clear K. revert vals F.
    induction l as [|e l IHl]; intros vals F; inversion F; subst; constructor.
    + apply IH; auto; [now left|]. intros n Hn. apply H. cbn. apply in_or_app. auto.
    + apply IHl; auto.
      * intros e' He. apply IH. now right.
      * intros n Hn. apply H. cbn. apply in_or_app. auto.
Qed.

Lemma somes_map {A B} (f : A -> option B) l ws : somes (map f l) = Some ws -> Forall2 (fun e w => f e = Some w) l ws.
Proof.
  revert ws. induction l as [|e l IH]; intros ws; cbn; [intros Q; injection Q as <-; constructor|].
  destruct (f e) eqn:E; [|discriminate]. destruct (somes (map f l)); [|discriminate].
  intros Q. injection Q as <-. constructor; auto.
Qed.

Lemma ksem_length k ws n vals v : kwidth k ws = Some n -> map (@length bool) vals = ws -> ksem k vals v -> length v = n.
Proof.
  intros W M K. subst ws. destruct k; cbn [kwidth ksem] in *.
  - destruct vals; [|discriminate]. cbn in W. bools. congruence.
  - destruct vals; [|discriminate]. cbn in W. bools. destruct K. congruence.
  - destruct vals as [|a [|b [|]]]; try discriminate. cbn in W. bools. destruct K. congruence.
  - destruct vals as [|a [|b [|]]]; try discriminate. cbn in W. bools. destruct K as [r [-> _]]. exact W.
  - destruct vals as [|a [|b [|]]]; try discriminate. cbn in W. bools. subst v. exact W.
  - destruct vals as [|a [|]]; try discriminate. cbn in W. bools. subst v. rewrite map_length. exact W.
  - destruct vals as [|a [|]]; try discriminate. cbn in W. bools. subst. assumption.
  - destruct vals as [|a [|]]; try discriminate. cbn in W. bools. destruct K. congruence.
  - destruct vals as [|a [|]]; try discriminate. cbn in W. bools. destruct K. congruence.
  - destruct vals as [|c [|a [|b [|]]]]; try discriminate; cbn [map] in W; bools; try contradiction.
    destruct c as [|c [|]]; try contradiction; try discriminate. destruct c; congruence.
  - destruct vals as [|a [|]]; try discriminate. cbn in W. bools. subst v. rewrite map_length. exact W.
  - destruct vals as [|a [|b [|]]]; try discriminate. cbn in W. bools. destruct K. congruence.
  - destruct vals as [|a vals]; try discriminate. cbn [map] in W. bools. destruct K. congruence.
  - destruct vals as [|a vals]; try discriminate. cbn [map] in W. bools. subst v.
    transitivity (list_sum (map (@length bool) (a :: vals))); [|exact W].
    clear. induction (a :: vals) as [|x l IH]; auto. cbn. rewrite app_length, IH. reflexivity.
  - destruct vals as [|a0 [|b [|]]]; try discriminate. cbn [map] in W. bools. destruct K. congruence.
  - destruct vals as [|a0 [|b [|c [|]]]]; try discriminate. cbn [map] in W. bools. destruct K. congruence.
Qed.
Lemma wsem_length x e : forall n v, width e = Some n -> wsem x e v -> length v = n.
Proof.
  induction e as [sz nm|k l IH] using wexpr_induct; intros n v W S.
  - cbn in W, S. bools. subst v. rewrite map_length. lia.
  - cbn [CompSpec.width] in W. destruct (somes (map width l)) as [ws|] eqn:E; [|discriminate].
    apply wsem_node in S as [vals [F K]]. apply (ksem_length k ws n vals v W); auto.
    apply somes_map in E. clear W K. revert ws vals E F.
    induction l as [|e l IHl]; intros ws vals E F; inversion E; inversion F; subst; auto. cbn. f_equal.
    + eapply IH; eauto. now left.
    + apply IHl; auto. intros e' He. apply IH. now right.
Qed.
Lemma widths_of l ws : somes (map width l) = Some ws -> forall x vals, Forall2 (wsem x) l vals ->
  map (@length bool) vals = ws.
Proof.
  intros E x. apply somes_map in E. induction E as [|e w l ws H E IH]; intros vals F; inversion F; subst; auto.
  cbn. f_equal; auto. eapply wsem_length; eauto.
Qed.

(* values can be searched for *)
Fixpoint vecs (n : nat) : list (list bool) :=
  match n with O => [[]] | S n => flat_map (fun v => [true :: v; false :: v]) (vecs n) end.
Lemma in_vecs v : In v (vecs (length v)).
Proof.
  induction v as [|b v IH]; cbn; auto. apply in_flat_map. exists v. split; auto. destruct b; cbn; auto.
Qed.
Fixpoint tuples (ws : list nat) : list (list (list bool)) :=
  match ws with [] => [[]] | w :: ws => flat_map (fun v => map (cons v) (tuples ws)) (vecs w) end.
Lemma in_tuples vals : In vals (tuples (map (@length bool) vals)).
Proof.
  induction vals as [|v vals IH]; cbn; auto. apply in_flat_map. exists v. split; [apply in_vecs|].
  now apply in_map.
Qed.
Lemma find_dec {A} (P : A -> Prop) (D : forall x, {P x} + {~ P x}) l :
  {x | P x} + {forall x, In x l -> ~ P x}.
Proof.
  induction l as [|a l [[x Hx]|N]]; [right; easy|left; eauto|]. destruct (D a) as [H|H]; [left; eauto|].
  right. intros x [->|Hx]; auto.
Qed.
Lemma bounded_dec (P : nat -> Prop) (D : forall i, {P i} + {~ P i}) n : {forall i, i < n -> P i} + {~ forall i, i < n -> P i}.
Proof.
  induction n as [|n [IH|IH]]; [left; lia| |right; intros F; apply IH; intros i Li; apply F; lia].
  destruct (D n) as [H|H]; [left|right; intros F; apply H, F; lia]. intros i Li. destruct (Nat.eq_dec i n) as [->|]; auto. apply IH. lia.
Qed.
Lemma ksem_dec k ws n vals v : kwidth k ws = Some n -> map (@length bool) vals = ws ->
  {ksem k vals v} + {~ ksem k vals v}.
Proof.
  intros W M. destruct (Nat.eq_dec (length v) n) as [L|L]; [|right; intros K; apply L; eapply ksem_length; eauto].
  assert (PD : {k = KPred} + {k <> KPred}) by (destruct k; ((left; reflexivity) || (right; discriminate))).
  destruct PD as [->|NP].
  { cbn [ksem]. destruct vals as [|a [|]]; try (right; tauto). apply (list_eq_dec bool_dec). }
  destruct (plan false k ws n) as [p| |] eqn:E.
  - assert (R : admits (p_op p) (p_size p) (concat vals) v <-> ksem k vals v).
    { destruct (kind_ok false k ws n ws W NP eq_refl ltac:(auto)) as [p' [E' R]]. rewrite E in E'. injection E' as <-.
      apply R; auto. }
    assert (D : {admits (p_op p) (p_size p) (concat vals) v} + {~ admits (p_op p) (p_size p) (concat vals) v}).
    { apply bounded_dec. intros i. unfold can. destruct (nth i v false); apply bool_dec. }
    destruct D; [left|right]; tauto.
  - exfalso. destruct (kind_ok false k ws n ws W NP eq_refl ltac:(auto)) as [p' [E' _]]. congruence.
  - exfalso. destruct (kind_ok false k ws n ws W NP eq_refl ltac:(auto)) as [p' [E' _]]. congruence.
Qed.
Lemma Forall2_dec {A B} (R : A -> B -> Prop) l (D : forall a b, In a l -> {R a b} + {~ R a b}) :
  forall m, {Forall2 R l m} + {~ Forall2 R l m}.
Proof.
  induction l as [|a l IH]; intros [|b m]; try (right; intros F; inversion F; fail); [left; constructor|].
  destruct (D a b (or_introl eq_refl)) as [H|H]; [|right; intros F; inversion F; auto].
  destruct (IH (fun a b H => D a b (or_intror H)) m) as [G|G]; [left; constructor; auto|right; intros F; inversion F; auto].
Qed.
Lemma dec_and P Q : {P} + {~ P} -> {Q} + {~ Q} -> {P /\ Q} + {~ (P /\ Q)}.
Proof. tauto. Qed.
Lemma operands_dec k l ws n x v :
  (forall e, In e l -> forall n v, width e = Some n -> {wsem x e v} + {~ wsem x e v}) ->
  somes (map width l) = Some ws -> kwidth k ws = Some n ->
  {vals | Forall2 (wsem x) l vals /\ ksem k vals v} + {~ exists vals, Forall2 (wsem x) l vals /\ ksem k vals v}.
Proof.
  intros IH E W.
  assert (D : forall vals, {Forall2 (wsem x) l vals /\ ksem k vals v} + {~ (Forall2 (wsem x) l vals /\ ksem k vals v)}).
  { intros vals. destruct (list_eq_dec Nat.eq_dec (map (@length bool) vals) ws) as [M|M].
    - apply dec_and; [|eapply ksem_dec; eauto]. apply Forall2_dec. intros e w He.
      assert (WE : {n | width e = Some n}).
      { destruct (width e) eqn:Q; [eauto|]. exfalso. apply somes_map in E. clear - E He Q.
        induction E as [|a b l ws H E IH]; [destruct He|]. destruct He as [->|He]; auto. congruence. }
      destruct WE as [m WE]. apply (IH e He m w WE).
    - right. intros [F _]. apply M. eapply widths_of; eauto. }
  destruct (find_dec _ D (tuples ws)) as [H|H]; [now left|right]. intros [vals [F K]]. apply (H vals); auto.
  rewrite <- (widths_of l ws E x vals F). apply in_tuples.
Qed.
Lemma wsem_dec x e : forall n v, width e = Some n -> {wsem x e v} + {~ wsem x e v}.
Proof.
  induction e as [sz nm|k l IH] using wexpr_induct; intros n v W.
  - cbn. apply (list_eq_dec bool_dec).
  - cbn [CompSpec.width] in W. destruct (somes (map width l)) as [ws|] eqn:E; [|discriminate].
    destruct (operands_dec k l ws n x v IH E W) as [[vals H]|H]; [left|right]; rewrite wsem_node; eauto.
Qed.
Lemma choose_operands k l n (x : Z -> nat -> bool) (v : Z -> list bool) : width (WNode k l) = Some n ->
  (forall t, wsem (x t) (WNode k l) (v t)) ->
  exists vals, forall t, Forall2 (wsem (x t)) l (vals t) /\ ksem k (vals t) (v t).
Proof.
  intros W H. cbn [CompSpec.width] in W. destruct (somes (map width l)) as [ws|] eqn:E; [|discriminate].
  assert (C : forall t, {vals | Forall2 (wsem (x t)) l vals /\ ksem k vals (v t)}).
  { intros t. destruct (operands_dec k l ws n (x t) (v t)) as [C|N]; auto.
    - intros e He m w. apply wsem_dec.
    - exfalso. apply N. now apply wsem_node. }
  exists (fun t => proj1_sig (C t)). intros t. exact (proj2_sig (C t)).
Qed.

(* sizes *)
Lemma kwidth_pos k ws n : kwidth k ws = Some n -> 0 < n.
Proof.
  destruct k; cbn [kwidth]; intros W.
  - destruct ws; [|discriminate]; bools; lia.
  - destruct ws; [|discriminate]; bools; lia.
  - destruct ws as [|a [|b [|]]]; try discriminate. bools; lia.
  - destruct ws as [|a [|b [|]]]; try discriminate. bools; lia.
  - destruct ws as [|a [|b [|]]]; try discriminate. bools; lia.
  - destruct ws as [|a [|]]; try discriminate. bools; lia.
  - destruct ws as [|a [|]]; try discriminate. bools; lia.
  - destruct ws as [|a [|]]; try discriminate. bools; lia.
  - destruct ws as [|a [|]]; try discriminate. bools; lia.
  - destruct ws as [|c [|a [|b [|]]]]; try discriminate. bools; lia.
  - destruct ws as [|a [|]]; try discriminate. bools; lia.
  - destruct ws as [|a [|c [|]]]; try discriminate. bools. subst.
    destruct il as [|i il]; [cbn in *; lia|]. pose proof (below_all n (i :: il) ltac:(assumption) i (or_introl eq_refl)). lia.
  - destruct ws as [|a ws]; try discriminate. bools; lia.
  - destruct ws as [|a ws]; try discriminate. bools. rewrite forallb_forall in Heqb.
    specialize (Heqb a (or_introl eq_refl)). apply Nat.ltb_lt in Heqb. cbn in W. lia.
  - destruct ws as [|wa [|wm [|]]]; try discriminate. bools; lia.
  - destruct ws as [|wa [|wd [|wm [|]]]]; try discriminate. bools; nia.
Qed.
Lemma width_pos e n : width e = Some n -> 0 < n.
Proof.
  destruct e as [sz nm|k l]; cbn [CompSpec.width].
  - intros W. bools. lia.
  - destruct (somes (map width l)); [apply kwidth_pos|discriminate].
Qed.
(* operands of which get_wexpr_size is right *)
Fixpoint spine_from (k : kind) (i : nat) (l : list wexpr) : Prop :=
  match l with [] => True | e :: l => (follows k i = true -> spine_ok e) /\ spine_from k (S i) l end.
Lemma spine_node k l : spine_ok (WNode k l) -> match k with KMemRead a _ d => a = d | _ => True end /\ spine_from k 0 l.
Proof.
  cbn [spine_ok]. intros [A B]. split; auto. revert B. clear A. generalize 0.
  induction l as [|e l IH]; cbn; auto. intros i [A B]. auto.
Qed.
Fixpoint reads_from (k : kind) (i : nat) (l : list wexpr) : Prop :=
  match l with [] => True | e :: l => (asked k i = true -> spine_ok e) /\ reads_ok e /\ reads_from k (S i) l end.
Lemma reads_node k l : reads_ok (WNode k l) -> reads_from k 0 l.
Proof.
  cbn [reads_ok]. generalize 0. induction l as [|e l IH]; cbn; auto. intros i [A [B C]]. auto.
Qed.
Lemma get_size_width e : forall n, width e = Some n -> spine_ok e -> get_size e = n.
Proof.
  induction e as [sz nm|k l IH] using wexpr_induct; intros n W SP.
  - cbn [CompSpec.width] in W. bools. cbn. lia.
  - apply spine_node in SP as [R SP]. cbn [CompSpec.width] in W. destruct (somes (map width l)) as [ws|] eqn:E; [|discriminate].
    apply somes_map in E.
    assert (G : forall i, i < length ws -> follows k i = true -> nth i (map get_size l) 0 = nth i ws 0).
    { assert (G : forall i j, i < length ws -> spine_from k j l -> follows k (j + i) = true ->
        nth i (map get_size l) 0 = nth i ws 0); [|intros i Li Fi; now apply (G i 0)].
      clear W R SP. induction E as [|e w l ws H E IHl]; intros i j Li SP F; [cbn in Li; lia|]. destruct SP as [S0 SP].
      destruct i as [|i]; cbn.
      - apply IH; auto; [now left|]. apply S0. now rewrite <- F, Nat.add_0_r.
      - apply IHl with (j := S j); auto.
        + intros e' He. apply IH. now right.
        + cbn in Li. lia.
        + rewrite <- F. f_equal. lia. }
    assert (L : length l = length ws) by (clear - E; induction E; cbn; auto).
    cbn [get_size]. destruct k; cbn [kwidth] in W; cbn [ksize].
    + destruct ws; [|discriminate]; bools; lia.
    + destruct ws; [|discriminate]; bools; lia.
    + destruct ws as [|a [|b [|]]]; try discriminate. rewrite G; cbn; bools; try lia; auto.
    + destruct ws as [|a [|b [|]]]; try discriminate. bools; lia.
    + destruct ws as [|a [|b [|]]]; try discriminate. bools; lia.
    + destruct ws as [|a [|]]; try discriminate. rewrite G; cbn; bools; try lia; auto.
    + destruct ws as [|a [|]]; try discriminate. bools; lia.
    + destruct ws as [|a [|]]; try discriminate. bools; lia.
    + destruct ws as [|a [|]]; try discriminate. bools; lia.
    + destruct ws as [|c [|a [|b [|]]]]; try discriminate. rewrite G; cbn; bools; try lia; auto.
    + destruct ws as [|a [|]]; try discriminate. bools; lia.
    + destruct ws as [|a [|c [|]]]; try discriminate. rewrite G; cbn [nth length]; bools; try lia; auto.
    + destruct ws as [|a ws]; try discriminate. bools; lia.
    + assert (map get_size l = ws) as ->.
      { apply (nth_ext _ _ 0 0); rewrite map_length; auto. intros i Li. apply G; [lia|reflexivity]. }
      destruct ws as [|a ws]; try discriminate. bools. exact W.
    + destruct ws as [|wa [|wm [|]]]; try discriminate. bools; lia.
    + destruct ws as [|wa [|wd [|wm [|]]]]; try discriminate. rewrite G; cbn [nth length]; bools; try lia; auto.
Qed.
Lemma reads_in k l e : reads_ok (WNode k l) -> In e l -> reads_ok e.
Proof.
  intros R H. apply reads_node in R. revert R. generalize 0. induction l as [|a l IH]; [destruct H|].
  intros i [_ [A B]]. destruct H as [->|H]; eauto.
Qed.
Lemma asked_ok k l ws : reads_ok (WNode k l) -> somes (map width l) = Some ws ->
  forall i, i < length ws -> asked k i = true -> nth i (map get_size l) 0 = nth i ws 0.
Proof.
  intros R E. apply reads_node in R. apply somes_map in E.
  assert (G : forall i j, i < length ws -> reads_from k j l -> asked k (j + i) = true ->
    nth i (map get_size l) 0 = nth i ws 0); [|intros i Li Fi; now apply (G i 0)].
  clear R. induction E as [|e w l ws H E IHl]; intros i j Li SP F; [cbn in Li; lia|]. destruct SP as [S0 [_ SP]].
  destruct i as [|i]; cbn.
  - apply get_size_width; auto. apply S0. now rewrite <- F, Nat.add_0_r.
  - apply IHl with (j := S j); auto; [cbn in Li; lia|]. rewrite <- F. f_equal. lia.
Qed.
End Values.
