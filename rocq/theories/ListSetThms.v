(* Proofs about the set functions of ListModel.v. *)
From Coq Require Import List Arith NArith ZArith Bool Lia Permutation.
From Verif Require Import HashModel HashThms ListModel ListThms.
Import ListNotations.
Local Open Scope N_scope.

Section Sets.
Variable hf : N -> N -> N.
Variable he : N -> N -> bool.
Hypothesis G : good_hash hf he.

Notation elem := (elem he).
Notation nub := (nub he).
Notation distinct := (distinct he).

Definition ok_elems (l : list N) : Prop :=
  Forall (fun e => e <> 0) l /\ N.of_nat (length l) <= 2147483629.

Lemma he_refl x : he x x = true.
Proof. apply (gh_refl _ _ G). Qed.
Lemma elem_cong x y l : he x y = true -> elem x l = elem y l.
Proof.
  intros Q. unfold ListModel.elem. induction l as [|z l IH]; cbn; auto. rewrite IH. f_equal.
  rewrite (eq_flip hf he G x z), (eq_flip hf he G y z). now apply (eq_cong hf he G).
Qed.
Lemma elem_in x l : In x l -> elem x l = true.
Proof. intros I. apply existsb_exists. exists x. split; auto. apply he_refl. Qed.
Lemma elem_cons x y l : elem x (y :: l) = he x y || elem x l.
Proof. reflexivity. Qed.
Lemma elem_app x l r : elem x (l ++ r) = elem x l || elem x r.
Proof. apply existsb_app. Qed.
Lemma elem_filter f x l : (forall y z, he y z = true -> f y = f z) ->
  elem x (filter f l) = f x && elem x l.
Proof.
  intros C. induction l as [|y l IH]; [now rewrite andb_false_r|]. cbn [filter].
  destruct (f y) eqn:F; rewrite ?elem_cons, IH; destruct (he x y) eqn:Q; cbn; auto.
  - now rewrite (C x y Q), F.
  - now rewrite (C x y Q), F.
Qed.
Lemma not_he_cong x y z : he y z = true -> negb (he x y) = negb (he x z).
Proof. intros Q. f_equal. now apply (eq_cong hf he G). Qed.
Lemma elem_nub x l : elem x (nub l) = elem x l.
Proof.
  induction l as [|y l IH]; auto. cbn [ListModel.nub]. rewrite !elem_cons.
  rewrite elem_filter by (intros; now apply not_he_cong). rewrite IH, (eq_flip hf he G y x).
  now destruct (he x y).
Qed.
Lemma distinct_filter f l : distinct l -> distinct (filter f l).
Proof.
  induction l as [|y l IH]; cbn [ListModel.distinct filter]; auto. intros [E D].
  destruct (f y); auto. split; auto.
  destruct (elem y (filter f l)) eqn:Q; auto. apply existsb_exists in Q.
  destruct Q as (z & I & Q). apply filter_In in I. rewrite <- E. symmetry.
  apply existsb_exists. exists z. tauto.
Qed.
Lemma nub_distinct l : distinct (nub l).
Proof.
  induction l as [|y l IH]; cbn [ListModel.nub ListModel.distinct]; auto. split.
  - rewrite elem_filter by (intros; now apply not_he_cong). now rewrite he_refl.
  - now apply distinct_filter.
Qed.
Lemma nub_id l : distinct l -> nub l = l.
Proof.
  induction l as [|y l IH]; cbn [ListModel.nub ListModel.distinct]; auto. intros [E D].
  rewrite (IH D). f_equal. clear -E. unfold ListModel.elem in E.
  induction l as [|z l IH]; cbn in *; auto. destruct (he y z); [discriminate|]. cbn.
  now rewrite IH.
Qed.

(* nub, with the elements seen before *)
Fixpoint nubx (seen l : list N) : list N :=
  match l with
  | [] => []
  | e :: l => if elem e seen then nubx seen l else e :: nubx (e :: seen) l
  end.
Lemma filter_filter {A} (f g : A -> bool) l :
  filter f (filter g l) = filter (fun x => g x && f x) l.
Proof.
  induction l as [|x l IH]; cbn; auto. destruct (g x); cbn; [|auto].
  destruct (f x); now rewrite IH.
Qed.
Lemma nubx_nub l : forall seen, nubx seen l = filter (fun y => negb (elem y seen)) (nub l).
Proof.
  induction l as [|e l IH]; intros seen; auto. cbn [nubx ListModel.nub filter].
  rewrite filter_filter. destruct (elem e seen) eqn:Q; cbn [negb]; rewrite IH.
  - apply filter_ext. intros y. destruct (he e y) eqn:E; cbn; auto.
    rewrite <- (elem_cong e y seen E), Q. reflexivity.
  - f_equal. apply filter_ext. intros y. rewrite elem_cons, (eq_flip hf he G y e).
    now rewrite negb_orb.
Qed.
Lemma nubx_nil l : nubx [] l = nub l.
Proof.
  rewrite nubx_nub. cbn. induction (nub l) as [|x r IH]; cbn; congruence.
Qed.

(* A table that holds a set. *)
Definition tset (t : htab N) (seen : list N) : Prop :=
  exists m, inv hf t m /\ uniq he m /\ Forall (fun kd => snd kd <> 0) m /\
    (length m <= length seen)%nat /\ forall k, bound he k m = elem k seen.

Lemma tset0 t : create_hash 100 = Some t -> tset t [].
Proof.
  intros C. destruct (create_inv hf 100) as (t' & Et & I); [lia|].
  rewrite C in Et. injection Et as <-. exists []. split; [assumption|].
  split; [intros k; cbn; lia|]. auto.
Qed.
Lemma tset_find t seen k : tset t seen ->
  exists d, find_hash hf he t k = Some d /\ (d =? 0) = negb (elem k seen).
Proof.
  intros (m & I & U & F & L & B). exists (sp_find he k m).
  split; [apply (find_inv hf he G); auto|]. rewrite <- B, (bound_find he k m F).
  now rewrite negb_involutive.
Qed.
Lemma tset_insert t seen e : tset t seen -> elem e seen = false -> e <> 0 ->
  N.of_nat (length seen) <= 2147483629 ->
  exists t', insert_hash hf t e e = Some t' /\ tset t' (e :: seen).
Proof.
  intros (m & I & U & F & L & B) Q Ne Le.
  destruct (insert_inv hf he G t m e e I) as (t' & E & I'); [unfold room; lia|].
  exists t'. split; auto. exists ((e, e) :: m). split; auto.
  split. { apply (uniq_cons hf he G); auto. now rewrite B. }
  split. { constructor; auto. } split. { cbn. lia. }
  intros k. unfold bound. cbn [existsb fst]. fold (bound he k m). now rewrite B.
Qed.
(* extra members of the list of seen elements that are already seen *)
Lemma tset_seen t seen e : tset t seen -> elem e seen = true -> tset t (e :: seen).
Proof.
  intros (m & I & U & F & L & B) Q. exists m. split; auto. split; auto. split; auto.
  split; [cbn; lia|]. intros k. rewrite B, elem_cons. destruct (he k e) eqn:E; auto.
  now rewrite (elem_cong k e seen E), Q.
Qed.
Lemma nubx_seen e seen l : elem e seen = true -> nubx (e :: seen) l = nubx seen l.
Proof.
  intros Q. rewrite !nubx_nub. apply filter_ext. intros y. rewrite elem_cons.
  destruct (he y e) eqn:E; auto. now rewrite (elem_cong y e seen E), Q.
Qed.

Lemma collect_spec l : forall t seen,
  tset t seen -> Forall (fun e => e <> 0) l ->
  N.of_nat (length seen + length l) <= 2147483629 ->
  exists t', collect hf he t l = Some (nubx seen l, t') /\ tset t' (rev l ++ seen).
Proof.
  induction l as [|e l IH]; intros t seen T F Le; cbn [collect nubx rev].
  - exists t. auto.
  - inversion F as [|? ? Ne F']; subst. cbn [length] in Le.
    destruct (tset_find t seen e T) as (d & -> & ->). destruct (elem e seen) eqn:Q; cbn [negb].
    + destruct (IH t (e :: seen)) as (t' & E & T'); [now apply tset_seen|assumption|cbn; lia|].
      rewrite nubx_seen in E by assumption. exists t'. split; auto. now rewrite <- app_assoc.
    + destruct (tset_insert t seen e T Q Ne) as (t1 & -> & T1); [lia|].
      destruct (IH t1 (e :: seen)) as (t' & -> & T'); [assumption|assumption|cbn; lia|].
      exists t'. split; auto. now rewrite <- app_assoc.
Qed.

Lemma create100 : exists t, @create_hash N 100 = Some t.
Proof. destruct (create_inv hf 100) as (t & Et & _); [lia|]. eauto. Qed.

Lemma setify_spec l : ok_elems l -> setify hf he l = Some (nub l).
Proof.
  intros [F L]. unfold setify. destruct create100 as (t & Et). rewrite Et.
  destruct (collect_spec l t [] (tset0 t Et) F L) as (t' & -> & _). now rewrite nubx_nil.
Qed.

Lemma elem_rev x l : elem x (rev l) = elem x l.
Proof.
  induction l as [|y l IH]; auto. cbn [rev]. rewrite elem_app, IH, !elem_cons. cbn.
  now rewrite orb_false_r, orb_comm.
Qed.
Lemma nubx_app l1 : forall seen l2, nubx seen (l1 ++ l2) = nubx seen l1 ++ nubx (rev l1 ++ seen) l2.
Proof.
  induction l1 as [|e l IH]; intros seen l2; cbn [app nubx rev]; auto.
  rewrite <- app_assoc. cbn [app]. destruct (elem e seen) eqn:Q; rewrite IH.
  - f_equal. rewrite !nubx_nub. apply filter_ext. intros y. rewrite !elem_app, elem_cons.
    destruct (he y e) eqn:E; auto. now rewrite (elem_cong y e seen E), Q.
  - reflexivity.
Qed.
Lemma union_spec l1 l2 : ok_elems (l1 ++ l2) -> l1 <> [] -> l2 <> [] ->
  my_union hf he l1 l2 = Some (nub (l1 ++ l2)).
Proof.
  intros [F L] N1 N2. apply Forall_app in F. destruct F as [F1 F2]. rewrite app_length in L.
  assert (X : my_union hf he l1 l2 =
    match create_hash 100 with
      | None => None
      | Some t =>
          match collect hf he t l1 with
          | None => None
          | Some (r1, t) =>
              match collect hf he t l2 with
              | None => None
              | Some (r2, _) => Some (r1 ++ r2)
              end
          end
      end) by (destruct l1; [congruence|]; destruct l2; [congruence|reflexivity]).
  rewrite X. clear X. destruct create100 as (t & Et). rewrite Et.
  destruct (collect_spec l1 t [] (tset0 t Et) F1) as (t1 & -> & T1); [cbn; lia|].
  destruct (collect_spec l2 t1 _ T1 F2) as (t2 & -> & _).
  { rewrite app_length, rev_length. cbn. lia. }
  now rewrite <- nubx_app, nubx_nil.
Qed.
Lemma union_any l1 l2 : ok_elems (l1 ++ l2) ->
  exists r, my_union hf he l1 l2 = Some r /\ (forall x, elem x r = elem x l1 || elem x l2) /\
    nub r = nub (l1 ++ l2) /\ (l1 <> [] -> l2 <> [] -> r = nub (l1 ++ l2)) /\
    (distinct l1 -> distinct l2 -> r = nub (l1 ++ l2)).
Proof.
  intros O. assert (C : l1 = [] \/ l1 <> [] /\ l2 = [] \/ l1 <> [] /\ l2 <> []).
  { destruct l1, l2; auto; right; [left|right]; split; congruence. }
  destruct C as [->|[[N1 ->]|[N1 N2]]].
  - exists l2. split; [reflexivity|]. split; [auto|]. split; [auto|]. split; [congruence|].
    intros _ D. symmetry. now apply nub_id.
  - exists l1. split; [now destruct l1|]. split; [intros x; now rewrite orb_false_r|].
    rewrite app_nil_r. split; [auto|]. split; [congruence|].
    intros D _. symmetry. now apply nub_id.
  - exists (nub (l1 ++ l2)). split; [now apply union_spec|].
    split; [intros x; now rewrite elem_nub, elem_app|]. split; [apply nub_id, nub_distinct|]. auto.
Qed.

Lemma fill_spec t l : create_hash 100 = Some t -> ok_elems l ->
  exists t', fill hf he t l = Some t' /\ tset t' (rev l).
Proof.
  intros Et [F L]. destruct (collect_spec l t [] (tset0 t Et) F L) as (t' & E & T).
  rewrite app_nil_r in T. exists t'. split; auto. unfold fill. now rewrite E.
Qed.

(* intersect: the table holds the elements of l2 not met yet *)
Definition tset' (t : htab N) (P : N -> bool) : Prop :=
  exists m, inv hf t m /\ uniq he m /\ Forall (fun kd => snd kd <> 0) m /\
    forall k, bound he k m = P k.
Lemma bound_del k k' m : uniq he m -> bound he k m = true ->
  bound he k' (sp_del he k m) = bound he k' m && negb (he k k').
Proof.
  intros U B. apply bound_hits in B. destruct (sp_del_perm1 he k m B) as (e & He & Hh & P).
  assert (H1 : hits he k (sp_del he k m) = []).
  { specialize (U k). rewrite Hh in U. cbn in U. destruct (hits he k (sp_del he k m)); auto.
    cbn in U. lia. }
  assert (H2 : bound he k' m = bound he k' (e :: sp_del he k m)).
  { unfold bound. clear -P. induction P; cbn; auto.
    - now rewrite IHP.
    - now rewrite !orb_assoc, (orb_comm (he k' (fst y))).
    - congruence. }
  rewrite H2. unfold bound. cbn [existsb]. fold (bound he k' (sp_del he k m)).
  assert (Hk : he k k' = true -> bound he k' (sp_del he k m) = false).
  { intros Q. destruct (bound he k' (sp_del he k m)) eqn:X; auto. exfalso.
    apply existsb_exists in X. destruct X as (x & I & X).
    assert (In x (hits he k (sp_del he k m))) as C.
    { apply filter_In. split; auto. eapply (gh_trans _ _ G); eauto. }
    rewrite H1 in C. exact C. }
  assert (Hq : he k' (fst e) = he k k').
  { rewrite (eq_flip hf he G k k'). now apply (eq_cong hf he G), (gh_sym _ _ G). }
  rewrite Hq. destruct (he k k') eqn:Q; cbn.
  - now apply Hk.
  - now rewrite andb_true_r.
Qed.
Lemma inter_loop_spec l : forall t P, tset' t P -> (forall x y, he x y = true -> P x = P y) ->
  inter_loop hf he t l = Some (nub (filter P l)).
Proof.
  induction l as [|e l IH]; intros t P (m & I & U & F & B) C; cbn [inter_loop filter]; auto.
  rewrite (find_inv hf he G _ _ _ I U).
  assert (Z : (sp_find he e m =? 0) = negb (P e)).
  { rewrite <- B, (bound_find he e m F), negb_involutive. reflexivity. }
  rewrite Z. destruct (P e) eqn:Q; cbn [negb].
  2: { apply IH; auto. exists m. auto. }
  destruct (delete_inv hf he G t m e I U) as (t' & -> & I'); [now rewrite B|].
  assert (Hb : forall k, bound he k (sp_del he e m) = P k && negb (he e k)).
  { intros k. rewrite bound_del, B; auto. now rewrite B. }
  cbn [ListModel.nub]. assert (Ee := I'). destruct Ee as (_ & _ & Ee & _). rewrite Ee.
  assert (Hr : nub (filter (fun y => P y && negb (he e y)) l) =
               filter (fun y => negb (he e y)) (nub (filter P l))).
  { rewrite <- nubx_nil, nubx_nub.
    assert (HH : forall r, nub (filter (fun y => P y && negb (he e y)) r) =
               filter (fun y => negb (he e y)) (nub (filter P r))).
    { induction r as [|x r IHr]; auto. cbn [filter]. destruct (P x) eqn:Px; cbn [andb].
      - destruct (he e x) eqn:Ex; cbn [negb ListModel.nub filter]; rewrite ?Ex; cbn [negb].
        + rewrite IHr, filter_filter. apply filter_ext. intros y.
          destruct (he e y) eqn:Ey; cbn; [now rewrite andb_false_r|].
          rewrite andb_true_r. destruct (he x y) eqn:Xy; auto.
          rewrite (gh_trans _ _ G e x y) in Ey by assumption. discriminate.
        + f_equal. rewrite IHr, !filter_filter. apply filter_ext. intros y. apply andb_comm.
      - exact IHr. }
    rewrite HH. cbn. induction (filter _ (nub (filter P l))) as [|x r IHr]; cbn; congruence. }
  destruct (N.of_nat (length (sp_del he e m)) =? 0) eqn:Lz.
  - apply N.eqb_eq in Lz. destruct (sp_del he e m) as [|x r] eqn:Em; [|cbn in Lz; lia].
    f_equal. f_equal. rewrite <- Hr.
    rewrite (filter_ext _ (fun _ => false)).
    + clear. induction l; auto.
    + intros k. now rewrite <- Hb.
  - rewrite (IH t' (fun y => P y && negb (he e y))).
    + now rewrite Hr.
    + exists (sp_del he e m). split; auto. split; [now apply uniq_del|]. split; auto.
      rewrite Forall_forall in *. intros x Hx. apply F. eapply sp_del_in; eauto.
    + intros x y Q'. rewrite (C x y Q'). f_equal. now apply not_he_cong.
Qed.
Lemma elem_pred_cong l x y : he x y = true -> elem x l = elem y l.
Proof. apply elem_cong. Qed.
Lemma inter_spec l1 l2 : ok_elems l1 -> ok_elems l2 ->
  intersect hf he l1 l2 = Some (nub (filter (fun x => elem x l2) l1)).
Proof.
  intros O1 O2. assert (C : l1 = [] \/ l2 = [] \/ l1 <> [] /\ l2 <> []).
  { destruct l1, l2; auto; right; right; split; congruence. }
  destruct C as [->|[->|[N1 N2]]].
  - reflexivity.
  - transitivity (Some (@nil N)); [now destruct l1|]. symmetry. f_equal. clear. induction l1; auto.
  - assert (X : intersect hf he l1 l2 =
      match create_hash 100 with
      | None => None
      | Some t =>
          match fill hf he t l2 with
          | None => None
          | Some t => inter_loop hf he t l1
          end
      end) by (destruct l1; [congruence|]; destruct l2; [congruence|reflexivity]).
    rewrite X. clear X. destruct create100 as (t & Et). rewrite Et.
    destruct (fill_spec t l2 Et O2) as (t' & -> & (m & I & U & F & L & B)).
    apply inter_loop_spec; [|intros; now apply elem_cong].
    exists m. split; auto. split; auto. split; auto. intros k. now rewrite B, elem_rev.
Qed.

Lemma over_loop_spec t seen l : tset t seen ->
  over_loop hf he t l = Some (existsb (fun x => elem x seen) l).
Proof.
  intros T. induction l as [|e l IH]; cbn; auto.
  destruct (tset_find t seen e T) as (d & -> & ->). destruct (elem e seen); cbn; auto.
Qed.
Lemma over_spec l1 l2 : ok_elems l1 -> ok_elems l2 ->
  overlap hf he l1 l2 = Some (existsb (fun x => elem x l1) l2).
Proof.
  intros O1 O2. assert (C : l1 = [] \/ l2 = [] \/ l1 <> [] /\ l2 <> []).
  { destruct l1, l2; auto; right; right; split; congruence. }
  destruct C as [->|[->|[N1 N2]]].
  - cbn. f_equal. clear. induction l2; auto.
  - now destruct l1.
  - assert (X : overlap hf he l1 l2 =
      match create_hash 100 with
      | None => None
      | Some t =>
          match fill hf he t l1 with
          | None => None
          | Some t => over_loop hf he t l2
          end
      end) by (destruct l1; [congruence|]; destruct l2; [congruence|reflexivity]).
    rewrite X. clear X. destruct create100 as (t & Et). rewrite Et.
    destruct (fill_spec t l1 Et O1) as (t' & -> & T).
    rewrite (over_loop_spec t' _ l2 T). f_equal. clear. induction l2; cbn [existsb]; auto.
    now rewrite IHl2, elem_rev.
Qed.

Lemma sub_loop_spec t seen l : tset t seen ->
  sub_loop hf he t l = Some (filter (fun x => negb (elem x seen)) l).
Proof.
  intros T. induction l as [|e l IH]; cbn [sub_loop filter]; auto.
  destruct (tset_find t seen e T) as (d & -> & ->). rewrite IH. destruct (elem e seen); cbn; auto.
Qed.
Lemma sub_spec l1 l2 : ok_elems l1 -> ok_elems l2 ->
  subtract hf he l1 l2 = Some (filter (fun x => negb (elem x l2)) l1).
Proof.
  intros O1 O2. assert (C : l1 = [] \/ l2 = [] \/ l1 <> [] /\ l2 <> []).
  { destruct l1, l2; auto; right; right; split; congruence. }
  destruct C as [->|[->|[N1 N2]]].
  - reflexivity.
  - transitivity (Some l1); [now destruct l1|]. f_equal. clear.
    induction l1 as [|x l IH]; cbn in *; congruence.
  - assert (X : subtract hf he l1 l2 =
      match create_hash 100 with
      | None => None
      | Some t =>
          match fill hf he t l2 with
          | None => None
          | Some t => sub_loop hf he t l1
          end
      end) by (destruct l1; [congruence|]; destruct l2; [congruence|reflexivity]).
    rewrite X. clear X. destruct create100 as (t & Et). rewrite Et.
    destruct (fill_spec t l2 Et O2) as (t' & -> & T).
    rewrite (sub_loop_spec t' _ l1 T). f_equal. apply filter_ext. intros x. now rewrite elem_rev.
Qed.

(* set_eq *)
Lemma fill_distinct_spec l : forall t seen, tset t seen -> Forall (fun e => e <> 0) l ->
  N.of_nat (length seen + length l) <= 2147483629 ->
  (exists t', fill_distinct hf he t l = Some (Some t') /\ tset t' (rev l ++ seen) /\ distinct l /\
      (forall x, In x l -> elem x seen = false))
  \/ fill_distinct hf he t l = Some None /\ ~ (distinct l /\ forall x, In x l -> elem x seen = false).
Proof.
  induction l as [|e l IH]; intros t seen T F Le; cbn [fill_distinct ListModel.distinct rev].
  - left. exists t. split; auto. split; auto. split; auto. intros x [].
  - inversion F as [|? ? Ne F']; subst. cbn [length] in Le.
    destruct (tset_find t seen e T) as (d & -> & ->). destruct (elem e seen) eqn:Q; cbn [negb].
    + right. split; auto. intros [_ X]. rewrite X in Q by (now left). discriminate.
    + destruct (tset_insert t seen e T Q Ne) as (t1 & -> & T1); [lia|].
      destruct (IH t1 (e :: seen) T1 F') as [(t' & -> & T' & D & X)|[-> X]]; [cbn; lia| |].
      * left. exists t'. split; auto. split; [now rewrite <- app_assoc|]. split.
        -- split; auto. destruct (elem e l) eqn:Y; auto. apply existsb_exists in Y.
           destruct Y as (z & I & Y). specialize (X z I). rewrite elem_cons in X.
           rewrite (eq_flip hf he G z e), Y in X. discriminate.
        -- intros x [->|I]; auto. specialize (X x I). rewrite elem_cons in X.
           now apply orb_false_iff in X.
      * right. split; auto. intros [[E D] Y]. apply X. split; auto. intros x I.
        rewrite elem_cons, Y by (now right). rewrite orb_false_r.
        destruct (he x e) eqn:Z; auto. rewrite (eq_flip hf he G) in Z.
        rewrite <- E. symmetry. apply existsb_exists. exists x. auto.
Qed.
Lemma check_distinct_spec t1 s1 l : forall t2 seen,
  tset t1 s1 -> tset t2 seen -> Forall (fun e => e <> 0) l ->
  N.of_nat (length seen + length l) <= 2147483629 ->
  (forallb (fun x => elem x s1) l = true /\ distinct l /\ (forall x, In x l -> elem x seen = false) /\
     check_distinct hf he t1 t2 l = Some (Ok true))
  \/ (forallb (fun x => elem x s1) l = false /\ check_distinct hf he t1 t2 l = Some (Ok false))
  \/ (~ (distinct l /\ forall x, In x l -> elem x seen = false) /\
      check_distinct hf he t1 t2 l = Some Fail).
Proof.
  induction l as [|e l IH]; intros t2 seen T1 T2 F Le; cbn [check_distinct ListModel.distinct forallb].
  - left. split; auto. split; auto. split; auto. intros x [].
  - inversion F as [|? ? Ne F']; subst. cbn [length] in Le.
    destruct (tset_find t1 s1 e T1) as (d & -> & ->). destruct (elem e s1) eqn:Q1; cbn [negb andb]; [|auto].
    destruct (tset_find t2 seen e T2) as (d2 & -> & ->). destruct (elem e seen) eqn:Q; cbn [negb].
    { right. right. split; auto. intros [_ X]. rewrite X in Q by (now left). discriminate. }
    destruct (tset_insert t2 seen e T2 Q Ne) as (t2' & -> & T2'); [lia|].
    destruct (IH t2' (e :: seen) T1 T2' F') as [(A & D & X & ->)|[[A ->]|[X ->]]]; [cbn; lia| | |].
    + left. split; auto. split; [|split; auto].
      * split; auto. destruct (elem e l) eqn:Y; auto. apply existsb_exists in Y.
        destruct Y as (z & I & Y). specialize (X z I). rewrite elem_cons in X.
        rewrite (eq_flip hf he G z e), Y in X. discriminate.
      * intros x [->|I]; auto. specialize (X x I). rewrite elem_cons in X.
        now apply orb_false_iff in X.
    + auto.
    + right. right. split; auto. intros [[E D] Y]. apply X. split; auto. intros x I.
      rewrite elem_cons, Y by (now right). rewrite orb_false_r.
      destruct (he x e) eqn:Z; auto. rewrite (eq_flip hf he G) in Z.
      rewrite <- E. symmetry. apply existsb_exists. exists x. auto.
Qed.

(* pigeon-hole up to he *)
Lemma elem_split x l : elem x l = true -> exists a y b, l = a ++ y :: b /\ he x y = true.
Proof.
  intros E. apply existsb_exists in E. destruct E as (y & I & E).
  apply in_split in I. destruct I as (a & b & ->). eauto.
Qed.
Lemma distinct_mid a y b : distinct (a ++ y :: b) -> distinct (a ++ b) /\ elem y (a ++ b) = false.
Proof.
  induction a as [|x a IH]; cbn [app ListModel.distinct]; [tauto|].
  rewrite elem_app, elem_cons, !orb_false_iff. intros [(A & B & C) D].
  destruct (IH D) as [D' E]. rewrite elem_cons, E, orb_false_r, elem_app, A, C.
  rewrite (eq_flip hf he G), B. auto.
Qed.
Lemma subset_len l1 : forall l2, distinct l1 -> distinct l2 ->
  (forall x, In x l1 -> elem x l2 = true) ->
  (length l1 <= length l2)%nat /\
  (length l1 = length l2 -> forall x, elem x l2 = true -> elem x l1 = true).
Proof.
  induction l1 as [|e l1 IH]; intros l2 D1 D2 S1.
  - split; [cbn; lia|]. destruct l2; [auto|discriminate].
  - destruct D1 as [E1 D1]. destruct (elem_split e l2 (S1 e (or_introl eq_refl))) as (a & y & b & -> & Q).
    destruct (distinct_mid a y b D2) as [D2' Ey].
    destruct (IH (a ++ b) D1 D2') as [L W].
    { intros x I. specialize (S1 x (or_intror I)). rewrite elem_app, elem_cons in S1.
      rewrite elem_app. destruct (he x y) eqn:Xy; auto. exfalso.
      assert (Z : elem e l1 = true).
      { apply existsb_exists. exists x. split; auto.
        apply (gh_trans _ _ G e y x); auto. now apply (gh_sym _ _ G). }
      congruence. }
    rewrite !app_length in *. cbn [length] in *. split; [lia|]. intros Eq x.
    rewrite elem_app, elem_cons, elem_cons. intros Hx. destruct (he x e) eqn:Xe; auto. cbn.
    apply W; [lia|]. rewrite elem_app. destruct (he x y) eqn:Xy; auto. exfalso.
    rewrite (gh_trans _ _ G x y e) in Xe; auto. discriminate. now apply (gh_sym _ _ G).
Qed.

Lemma set_eq_spec l1 l2 : ok_elems l1 -> ok_elems l2 ->
  exists r, set_eq hf he l1 l2 = Some r /\ r <> Undef /\
    (forall b, r = Ok b -> (b = true <-> forall x, elem x l1 = elem x l2)) /\
    (distinct l1 -> distinct l2 -> r <> Fail).
Proof.
  intros O1 O2. assert (C : l1 = [] /\ l2 = [] \/ l1 = [] /\ l2 <> [] \/ l1 <> [] /\ l2 = [] \/ l1 <> [] /\ l2 <> []).
  { destruct l1, l2; auto; [right; left|right; right; left|right; right; right]; split; congruence. }
  destruct C as [[-> ->]|[[-> N2]|[[N1 ->]|[N1 N2]]]].
  - exists (Ok true). split; [reflexivity|]. split; [discriminate|]. split; [|discriminate].
    intros b [= <-]. split; auto.
  - exists (Ok false). split; [now destruct l2|]. split; [discriminate|]. split; [|discriminate].
    intros b [= <-]. split; [discriminate|]. intros H. destruct l2 as [|x l2]; [congruence|].
    specialize (H x). rewrite elem_cons, he_refl in H. discriminate.
  - exists (Ok false). split; [now destruct l1|]. split; [discriminate|]. split; [|discriminate].
    intros b [= <-]. split; [discriminate|]. intros H. destruct l1 as [|x l1]; [congruence|].
    specialize (H x). rewrite elem_cons, he_refl in H. discriminate.
  - assert (X : set_eq hf he l1 l2 =
      match create_hash 100 with
      | None => None
      | Some t =>
          match fill_distinct hf he t l1 with
          | None => None
          | Some None => Some Fail
          | Some (Some t1) =>
              match check_distinct hf he t1 t l2 with
              | None => None
              | Some (Ok true) => Some (Ok (Nat.eqb (length l1) (length l2)))
              | Some r => Some r
              end
          end
      end) by (destruct l1; [congruence|]; destruct l2; [congruence|reflexivity]).
    rewrite X. clear X. destruct create100 as (t & Et). rewrite Et.
    destruct O1 as [F1 L1], O2 as [F2 L2].
    destruct (fill_distinct_spec l1 t [] (tset0 t Et) F1 L1) as [(t1 & -> & T1 & D1 & _)|[-> Nd]].
    2: { exists Fail. split; auto. split; [discriminate|]. split; [discriminate|].
         intros D _. exfalso. apply Nd. split; auto. }
    rewrite app_nil_r in T1.
    destruct (check_distinct_spec t1 (rev l1) l2 t [] T1 (tset0 t Et) F2 L2)
      as [(A & D2 & _ & ->)|[[A ->]|[Nd ->]]].
    + exists (Ok (Nat.eqb (length l1) (length l2))). split; auto. split; [discriminate|].
      split; [|discriminate]. intros b [= <-]. rewrite Nat.eqb_eq.
      assert (S2 : forall x, In x l2 -> elem x l1 = true).
      { rewrite forallb_forall in A. intros x I. rewrite <- elem_rev. now apply A. }
      destruct (subset_len l2 l1 D2 D1 S2) as [L W]. split.
      * intros Eq x. destruct (elem x l1) eqn:E1; destruct (elem x l2) eqn:E2; auto.
        -- rewrite W in E2; auto.
        -- apply elem_split in E2. destruct E2 as (a & y & b & -> & Q).
           rewrite (elem_cong x y l1 Q), S2 in E1; [discriminate|]. apply in_or_app. right. now left.
      * intros H. destruct (subset_len l1 l2 D1 D2) as [L' _]; [|lia].
        intros x I. rewrite <- H. now apply elem_in.
    + exists (Ok false). split; auto. split; [discriminate|]. split; [|discriminate].
      intros b [= <-]. split; [discriminate|]. intros H. exfalso.
      enough (forallb (fun x => elem x (rev l1)) l2 = true) by congruence.
      apply forallb_forall. intros x I. rewrite elem_rev, H. now apply elem_in.
    + exists Fail. split; auto. split; [discriminate|]. split; [discriminate|].
      intros _ D. exfalso. apply Nd. split; auto.
Qed.
End Sets.
