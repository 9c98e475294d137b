(* Renaming of bound variables and alias removal (compile.c). *)
From Coq Require Import String List Bool Arith Lia DecimalString DecimalNat.
From Verif Require Import CombModel LamSpec.
Import ListNotations.
Local Open Scope list_scope.

(* A name occurs as a variable or as a binder. *)
Fixpoint occ (v : string) (t : tm) : Prop :=
  match t with
  | Var x => v = x
  | App a b => occ v a \/ occ v b
  | Lam x a => v = x \/ occ v a
  | _ => False
  end.

Lemma isfree_occ v t : isfree v t = true -> occ v t.
Proof.
  induction t; cbn; try discriminate.
  - apply String.eqb_eq.
  - rewrite orb_true_iff. tauto.
  - rewrite andb_true_iff. tauto.
Qed.

(* Names made by the compiler. *)
Lemma decimal_inj n m : decimal n = decimal m -> n = m.
Proof.
  unfold decimal. intros E.
  assert (U : Nat.to_uint n = Nat.to_uint m).
  { pose proof (NilEmpty.usu (Nat.to_uint n)) as A.
    pose proof (NilEmpty.usu (Nat.to_uint m)) as B. rewrite E in A. congruence. }
  now apply Unsigned.to_uint_inj.
Qed.
Lemma zz_inj n m : zz_name n = zz_name m -> n = m.
Proof. unfold zz_name. cbn. intros [= E]. now apply decimal_inj. Qed.
Lemma z_inj n m : z_name n = z_name m -> n = m.
Proof. unfold z_name. cbn. intros [= E]. now apply decimal_inj. Qed.
Lemma zz_z n m : zz_name n <> z_name m.
Proof. unfold zz_name, z_name. cbn. discriminate. Qed.

Arguments zz_name : simpl never.
Arguments z_name : simpl never.

Definition made (k k' : nat) (v : string) : Prop :=
  exists j, k <= j < k' /\ (v = zz_name j \/ v = z_name j).
Definition reserved (v : string) : Prop := exists j, v = zz_name j \/ v = z_name j.

Definition clear_from (k : nat) (v : string) : Prop := forall j, k <= j -> v <> z_name j.
Definition fresh_from (k : nat) (t : tm) : Prop := forall v, occ v t -> clear_from k v.

Lemma clear_mono k k' v : k <= k' -> clear_from k v -> clear_from k' v.
Proof. intros L H j Hj. apply H. lia. Qed.

Definition zmade (k k' : nat) (v : string) : Prop :=
  exists j, k <= j < k' /\ v = z_name j.
Lemma zmade_clear k k' v : zmade k k' v -> clear_from k' v.
Proof. intros (j & Hj & ->) i Hi E. apply z_inj in E. lia. Qed.
Lemma zmade_mono k k' l l' v : l <= k -> k' <= l' -> zmade k k' v -> zmade l l' v.
Proof. intros A B (j & Hj & E). exists j. split; [lia|assumption]. Qed.

Lemma substitute_f_ok fuel : forall old new t k t' k',
  substitute_f fuel old new t k = (t', k') ->
  size t <= fuel -> fresh_from k t -> clear_from k old -> clear_from k new ->
  size t' = size t /\ k <= k' /\
  (forall v, occ v t' -> occ v t \/ v = new \/ zmade k k' v) /\
  (forall r, mean r t' = mean (upd r old (r new)) t).
Proof.
  induction fuel as [|fuel IH]; intros old new t k t' k' E Sz Fr Co Cn.
  { destruct t; cbn in Sz; lia. }
  destruct t as [x|p|c|a b|x a]; cbn [substitute_f] in E.
  - destruct (String.eqb x old) eqn:Q; injection E as <- <-.
    + apply String.eqb_eq in Q. subst. cbn. repeat split; auto.
      intros r. unfold upd. now rewrite String.eqb_refl.
    + cbn. repeat split; auto. intros r. unfold upd. now rewrite Q.
  - injection E as <- <-. repeat split; auto.
  - injection E as <- <-. repeat split; auto.
  - cbn in Sz. destruct (substitute_f fuel old new a k) as [a' k1] eqn:Ea.
    destruct (substitute_f fuel old new b k1) as [b' k2] eqn:Eb.
    injection E as <- <-.
    apply IH in Ea as (Sa & La & Oa & Ma); auto; [|lia|intros v Hv; apply Fr; cbn; auto].
    apply IH in Eb as (Sb & Lb & Ob & Mb); [|lia| | |].
    2: { intros v Hv. eapply clear_mono; [exact La|]. apply Fr. cbn; auto. }
    2, 3: (eapply clear_mono; [|eassumption]; lia).
    cbn. repeat split; try lia.
    + intros v [Hv|Hv]; [apply Oa in Hv as [?|[?|?]]|apply Ob in Hv as [?|[?|?]]]; auto;
        right; right; (eapply zmade_mono; [| |eassumption]; lia).
    + intros r. now rewrite Ma, Mb.
  - cbn in Sz. destruct (String.eqb x old) eqn:Qo.
    { injection E as <- <-. apply String.eqb_eq in Qo. subst.
      repeat split; auto. intros r. cbn. f_equal. apply mean_ext. intros y _.
      unfold bind, upd. now destruct (String.eqb y old). }
    destruct (String.eqb x new) eqn:Qn; cbn [negb] in E.
    + apply String.eqb_eq in Qn. subst x.
      destruct (substitute_f fuel new (z_name k) a (S k)) as [a1 k1] eqn:E1.
      destruct (substitute_f fuel old new a1 k1) as [a2 k2] eqn:E2.
      injection E as <- <-.
      assert (Cz : clear_from (S k) (z_name k)).
      { intros j Hj Q. apply z_inj in Q. lia. }
      apply IH in E1 as (S1 & L1 & O1 & M1); [|lia| | |].
      2: { intros v Hv. apply clear_mono with k; [lia|]. apply Fr; cbn; auto. }
      2: { apply clear_mono with k; [lia|assumption]. }
      2: assumption.
      apply IH in E2 as (S2 & L2 & O2 & M2); [|lia| | |].
      2: { intros v Hv. apply O1 in Hv as [Hv|[->|Hv]].
           - apply clear_mono with k; [lia|]. apply Fr; cbn; auto.
           - apply clear_mono with (S k); [lia|assumption].
           - now apply zmade_clear in Hv. }
      2, 3: apply clear_mono with k; [lia|assumption].
      repeat split.
      * cbn. lia.
      * lia.
      * cbn. intros v [->|Hv].
        -- right; right. exists k. split; [lia|reflexivity].
        -- apply O2 in Hv as [Hv|[->|Hv]]; auto.
           ++ apply O1 in Hv as [Hv|[->|Hv]]; auto.
              ** right; right. exists k. split; [lia|reflexivity].
              ** right; right. eapply zmade_mono; [| |exact Hv]; lia.
           ++ right; right. eapply zmade_mono; [| |exact Hv]; lia.
      * intros r. cbn. f_equal. rewrite M2, M1. apply mean_ext. intros y Hy.
        assert (NZ : forall v, clear_from k v -> String.eqb v (z_name k) = false).
        { intros v Hv. apply String.eqb_neq. now apply Hv. }
        assert (Ny : String.eqb y (z_name k) = false).
        { apply NZ, Fr. cbn. right. now apply isfree_occ. }
        assert (No : String.eqb (z_name k) old = false).
        { rewrite String.eqb_sym. now apply NZ. }
        unfold upd, bind. rewrite No, Ny, (NZ new Cn), String.eqb_refl.
        destruct (String.eqb y new) eqn:Q1; [reflexivity|].
        destruct (String.eqb y old) eqn:Q2; reflexivity.
    + destruct (substitute_f fuel old new a k) as [a1 k1] eqn:E1.
      injection E as <- <-.
      apply IH in E1 as (S1 & L1 & O1 & M1); auto; [|lia|intros v Hv; apply Fr; cbn; auto].
      repeat split; cbn; auto.
      * intros v [->|Hv]; auto. apply O1 in Hv as [?|[?|?]]; auto.
      * intros r. f_equal. rewrite M1. apply mean_ext. intros y _.
        unfold upd, bind. rewrite (String.eqb_sym new x), Qn.
        destruct (String.eqb y x) eqn:Q1; [|now destruct (String.eqb y old)].
        apply String.eqb_eq in Q1. subst y. now rewrite Qo.
Qed.

Lemma substitute_ok old new t k t' k' :
  substitute old new t k = (t', k') ->
  fresh_from k t -> clear_from k old -> clear_from k new ->
  size t' = size t /\ k <= k' /\
  (forall v, occ v t' -> occ v t \/ v = new \/ zmade k k' v) /\
  (forall r, mean r t' = mean (upd r old (r new)) t).
Proof. intros E. apply (substitute_f_ok (size t) _ _ _ _ _ _ E). lia. Qed.

(* Binders, left to right. *)
Fixpoint binders (t : tm) : list string :=
  match t with
  | App a b => binders a ++ binders b
  | Lam x a => x :: binders a
  | _ => []
  end.
Lemma substitute_binders fuel : forall old new t k t' k',
  substitute_f fuel old new t k = (t', k') -> ~ In new (binders t) ->
  binders t' = binders t /\ k' = k.
Proof.
  induction fuel as [|fuel IH]; intros old new t k t' k' E N.
  { injection E as <- <-. auto. }
  destruct t as [x|p|c|a b|x a]; cbn [substitute_f] in E.
  - destruct (String.eqb x old); injection E as <- <-; auto.
  - injection E as <- <-; auto.
  - injection E as <- <-; auto.
  - cbn in N. rewrite in_app_iff in N.
    destruct (substitute_f fuel old new a k) as [a' k1] eqn:Ea.
    destruct (substitute_f fuel old new b k1) as [b' k2] eqn:Eb.
    injection E as <- <-. apply IH in Ea as [Ea ->]; [|tauto].
    apply IH in Eb as [Eb ->]; [|tauto]. cbn. now rewrite Ea, Eb.
  - cbn in N. destruct (String.eqb x old); [injection E as <- <-; auto|].
    destruct (String.eqb x new) eqn:Q; cbn [negb] in E.
    { apply String.eqb_eq in Q. tauto. }
    destruct (substitute_f fuel old new a k) as [a' k1] eqn:Ea.
    injection E as <- <-. apply IH in Ea as [Ea ->]; [|tauto]. cbn. now rewrite Ea.
Qed.

(* ------------------------------------------------------------------ *)
(* Renaming *)

(* The term without the wrappers that record named arguments. *)
Fixpoint strip_f (fuel : nat) (t : tm) : tm :=
  match fuel with
  | O => t
  | S fuel =>
    match t with
    | App a b => App (strip_f fuel a) (strip_f fuel b)
    | Lam x a => Lam x (strip_f fuel (rm_named_arg a))
    | _ => t
    end
  end.
Definition strip (t : tm) : tm := strip_f (size t) t.

Lemma rm_named_size a : size (rm_named_arg a) <= size a.
Proof.
  destruct a as [| | |[| | |[| | |[|[]| | |] e|] v|] d|]; cbn; lia.
Qed.
Lemma rm_named_occ v a : occ v (rm_named_arg a) -> occ v a.
Proof.
  destruct a as [| | |[| | |[| | |[|[]| | |] e|] u|] d|]; cbn; tauto.
Qed.
Lemma rm_named_conv r a : conv (mean r (rm_named_arg a)) (mean r a).
Proof.
  destruct a as [| | |[| | |[| | |[|[]| | |] e|] u|] d|]; try apply cv_refl.
  cbn. apply cv_sym.
  eapply cv_trans; [apply cv_app; [apply cv_app; [apply cv_beta|apply cv_refl]|apply cv_refl]|].
  cbn. eapply cv_trans; [apply cv_app; [apply cv_beta|apply cv_refl]|].
  cbn. eapply cv_trans; [apply cv_beta|].
  rewrite sub_up_S, sub_scons_S, sub_scons_S. apply cv_refl.
Qed.

Lemma strip_f_conv fuel : forall t r, conv (mean r (strip_f fuel t)) (mean r t).
Proof.
  induction fuel as [|fuel IH]; intros t r; [apply cv_refl|].
  destruct t; cbn; try apply cv_refl.
  - now apply cv_app.
  - apply cv_lam. eapply cv_trans; [apply IH|apply rm_named_conv].
Qed.
Lemma strip_conv t r : conv (mean r (strip t)) (mean r t).
Proof. apply strip_f_conv. Qed.

Fixpoint has_named (t : tm) : bool :=
  match t with
  | Prm P_NAMED_ARG => true
  | App a b => has_named a || has_named b
  | Lam _ a => has_named a
  | _ => false
  end.
Lemma strip_id t : has_named t = false -> strip t = t.
Proof.
  unfold strip. generalize (size t). intros n. revert t.
  induction n as [|n IH]; intros t; [reflexivity|].
  destruct t; cbn; auto.
  - rewrite orb_false_iff. intros [? ?]. f_equal; auto.
  - intros N. f_equal. rewrite IH.
    + destruct t as [| | |[| | |[| | |[|[]| | |] e|] u|] d|]; try reflexivity.
      discriminate N.
    + destruct t as [| | |[| | |[| | |[|[]| | |] e|] u|] d|]; try exact N.
      discriminate N.
Qed.

Definition user (t : tm) : Prop := forall v, occ v t -> ~ reserved v.

Lemma made_mono k k' l l' v : l <= k -> k' <= l' -> made k k' v -> made l l' v.
Proof. intros A B (j & Hj & E). exists j. split; [lia|assumption]. Qed.
Lemma made_clear k k' v : made k k' v -> clear_from k' v.
Proof.
  intros (j & Hj & [->| ->]) i Hi E; [now apply zz_z in E|]. apply z_inj in E. lia.
Qed.
Lemma user_clear v : ~ reserved v -> forall k, clear_from k v.
Proof. intros H k j _ ->. apply H. exists j. auto. Qed.

Lemma mk_uniq_ok fuel : forall t k t' k',
  mk_uniq_f fuel t k = (t', k') -> size t <= fuel -> user t ->
  k <= k' /\
  (forall v, occ v t' -> occ v t \/ made k k' v) /\
  (forall r, mean r t' = mean r (strip_f fuel t)) /\
  NoDup (binders t') /\
  (forall v, In v (binders t') -> exists j, k <= j < k' /\ v = zz_name j).
Proof.
  induction fuel as [|fuel IH]; intros t k t' k' E Sz U.
  { destruct t; cbn in Sz; lia. }
  destruct t as [x|p|c|a b|x a]; cbn [mk_uniq_f strip_f] in *;
    try (injection E as <- <-; cbn; repeat split; auto; [constructor|tauto]).
  - cbn in Sz. destruct (mk_uniq_f fuel a k) as [a' k1] eqn:Ea.
    destruct (mk_uniq_f fuel b k1) as [b' k2] eqn:Eb. injection E as <- <-.
    apply IH in Ea as (La & Oa & Ma & Na & Ba); [|lia|intros v Hv; apply U; cbn; auto].
    apply IH in Eb as (Lb & Ob & Mb & Nb & Bb); [|lia|intros v Hv; apply U; cbn; auto].
    repeat split.
    + lia.
    + cbn. intros v [Hv|Hv]; [apply Oa in Hv as [?|?]|apply Ob in Hv as [?|?]]; auto;
        right; (eapply made_mono; [| |eassumption]; lia).
    + intros r. cbn. now rewrite Ma, Mb.
    + cbn. assert (D : forall v, In v (binders a') -> ~ In v (binders b')).
      { intros v Hv Hw. apply Ba in Hv as (i & Hi & ->). apply Bb in Hw as (j & Hj & Q).
        apply zz_inj in Q. lia. }
      clear - Na Nb D. induction (binders a'); cbn; auto.
      inversion Na; subst. constructor.
      * rewrite in_app_iff. intros [?|Hb]; [tauto|]. apply (D a); [now left|assumption].
      * apply IHl; auto. intros v Hv. apply D. now right.
    + cbn. intros v Hv. apply in_app_or in Hv as [Hv|Hv];
        [apply Ba in Hv as (j & Hj & ->)|apply Bb in Hv as (j & Hj & ->)];
        exists j; (split; [lia|reflexivity]).
  - cbn in Sz.
    destruct (mk_uniq_f fuel (rm_named_arg a) (S k)) as [a1 k1] eqn:E1.
    destruct (substitute x (zz_name k) a1 k1) as [a2 k2] eqn:E2.
    injection E as <- <-. pose proof (rm_named_size a) as RS.
    apply IH in E1 as (L1 & O1 & M1 & N1 & B1); [|lia|].
    2: { intros v Hv. apply U. cbn. right. now apply rm_named_occ. }
    assert (Ux : ~ reserved x) by (apply U; cbn; auto).
    assert (NB : ~ In (zz_name k) (binders a1)).
    { intros Hv. apply B1 in Hv as (j & Hj & Q). apply zz_inj in Q. lia. }
    destruct (substitute_binders _ _ _ _ _ _ _ E2 NB) as [B2 ->].
    assert (Fr : fresh_from k1 a1).
    { intros v Hv. apply O1 in Hv as [Hv|Hv].
      - apply user_clear, U. cbn. right. now apply rm_named_occ.
      - now apply made_clear in Hv. }
    apply substitute_ok in E2 as (S2 & L2 & O2 & M2); [|assumption|now apply user_clear|].
    2: { intros j _. apply zz_z. }
    repeat split.
    + lia.
    + cbn. intros v [->|Hv].
      * right. exists k. split; [lia|auto].
      * apply O2 in Hv as [Hv|[->|Hv]].
        -- apply O1 in Hv as [Hv|Hv].
           ++ left. right. now apply rm_named_occ.
           ++ right. eapply made_mono; [| |exact Hv]; lia.
        -- right. exists k. split; [lia|auto].
        -- destruct Hv as (j & Hj & _). lia.
    + intros r. cbn. f_equal. rewrite M2, <- M1. apply mean_ext. intros y Hy.
      unfold upd, bind. rewrite String.eqb_refl.
      destruct (String.eqb y x) eqn:Q; [reflexivity|].
      assert (String.eqb y (zz_name k) = false) as ->; [|reflexivity].
      apply String.eqb_neq. intros ->. apply isfree_occ in Hy.
      apply O1 in Hy as [Hy|Hy].
      * apply (U (zz_name k)); [cbn; right; now apply rm_named_occ|]. exists k. auto.
      * destruct Hy as (j & Hj & [Q2|Q2]); [apply zz_inj in Q2; lia|now apply zz_z in Q2].
    + cbn. rewrite B2. now constructor.
    + cbn. rewrite B2. intros v [<-|Hv].
      * exists k. split; [lia|reflexivity].
      * apply B1 in Hv as (j & Hj & ->). exists j. split; [lia|reflexivity].
Qed.

(* ------------------------------------------------------------------ *)
(* Aliases *)

Definition is_alias (t : tm) : option (string * tm * string) :=
  match t with App (Lam v f) (Var y) => Some (v, f, y) | _ => None end.
Lemma remove_aliases_app a b k :
  is_alias (App a b) = None ->
  remove_aliases (App a b) k =
    let (a', k1) := remove_aliases a k in
    let (b', k2) := remove_aliases b k1 in (App a' b', k2).
Proof. destruct a, b; cbn; intros; try discriminate; reflexivity. Qed.

Lemma remove_aliases_ok n : forall t k t' k',
  size t <= n -> remove_aliases t k = (t', k') -> fresh_from k t ->
  k <= k' /\ (forall v, occ v t' -> occ v t \/ zmade k k' v) /\
  (forall r, conv (mean r t') (mean r t)).
Proof.
  induction n as [|n IH]; intros t k t' k' Sz E Fr.
  { destruct t; cbn in Sz; lia. }
  destruct t as [x|p|c|a b|x a];
    try (injection E as <- <-; repeat split; auto; intros; apply cv_refl).
  - destruct (is_alias (App a b)) as [[[v f] y]|] eqn:Al.
    + destruct a as [| | | |v0 f0], b as [y0| | | |]; try discriminate Al.
      injection Al as -> -> ->. cbn [remove_aliases] in E. cbn in Sz.
      destruct (remove_aliases f k) as [f' k1] eqn:Ef.
      apply IH in Ef as (L1 & O1 & C1); [|lia|intros w Hw; apply Fr; cbn; auto].
      apply substitute_ok in E as (_ & L2 & O2 & M2).
      * split; [lia|]. split.
        -- intros w Hw. apply O2 in Hw as [Hw|[->|Hw]].
           ++ apply O1 in Hw as [Hw|Hw]; [cbn; auto|].
              right. eapply zmade_mono; [| |exact Hw]; lia.
           ++ left. cbn. auto.
           ++ right. eapply zmade_mono; [| |exact Hw]; lia.
        -- intros r. rewrite M2. cbn. apply cv_sym.
           eapply cv_trans; [apply cv_beta|]. rewrite mean_beta. apply cv_sym, C1.
      * intros w Hw. apply O1 in Hw as [Hw|Hw].
        -- apply clear_mono with k; [lia|]. apply Fr. cbn. auto.
        -- now apply zmade_clear in Hw.
      * apply clear_mono with k; [lia|]. apply Fr. cbn. auto.
      * apply clear_mono with k; [lia|]. apply Fr. cbn. auto.
    + rewrite remove_aliases_app in E by assumption. cbn in Sz.
      destruct (remove_aliases a k) as [a' k1] eqn:Ea.
      destruct (remove_aliases b k1) as [b' k2] eqn:Eb. injection E as <- <-.
      apply IH in Ea as (L1 & O1 & C1); [|lia|intros w Hw; apply Fr; cbn; auto].
      apply IH in Eb as (L2 & O2 & C2); [|lia|].
      2: { intros w Hw. apply clear_mono with k; [lia|]. apply Fr. cbn. auto. }
      split; [lia|]. split.
      * cbn. intros w [Hw|Hw]; [apply O1 in Hw as [?|?]|apply O2 in Hw as [?|?]]; auto;
          right; (eapply zmade_mono; [| |eassumption]; lia).
      * intros r. cbn. now apply cv_app.
  - cbn [remove_aliases] in E. cbn in Sz.
    destruct (remove_aliases a k) as [a' k1] eqn:Ea. injection E as <- <-.
    apply IH in Ea as (L1 & O1 & C1); [|lia|intros w Hw; apply Fr; cbn; auto].
    split; [lia|]. split.
    + cbn. intros w [->|Hw]; auto. apply O1 in Hw as [?|?]; auto.
    + intros r. cbn. now apply cv_lam.
Qed.

Lemma Optimise_ok t r : user t -> conv (mean r (Optimise t)) (mean r t).
Proof.
  intros U. unfold Optimise, mk_uniq_names.
  destruct (mk_uniq_f (size t) t 0) as [t1 k] eqn:E1.
  apply mk_uniq_ok in E1 as (_ & O1 & M1 & _ & _); [|lia|assumption].
  destruct (remove_aliases t1 k) as [t2 k2] eqn:E2. cbn [fst].
  apply (remove_aliases_ok (size t1)) in E2 as (_ & _ & C2); [|lia|].
  - eapply cv_trans; [apply C2|]. rewrite M1. apply strip_conv.
  - intros v Hv. apply O1 in Hv as [Hv|Hv]; [|now apply made_clear in Hv].
    now apply user_clear, U.
Qed.

Lemma rename_ok t t' k : user t -> mk_uniq_names t 0 = (t', k) ->
  NoDup (binders t') /\
  (has_named t = false -> forall r, mean r t' = mean r t) /\
  (forall r, conv (mean r t') (mean r t)).
Proof.
  intros U E. apply mk_uniq_ok in E as (_ & _ & M & N & _); [|lia|assumption].
  split; [assumption|]. split.
  - intros H r. rewrite M. change (strip_f (size t) t) with (strip t). now rewrite strip_id.
  - intros r. rewrite M. apply strip_conv.
Qed.
Lemma substitute_means old new t k t' k' :
  substitute old new t k = (t', k') ->
  fresh_from k t -> clear_from k old -> clear_from k new ->
  forall r, mean r t' = mean (upd r old (r new)) t.
Proof. intros E A B C. now apply (substitute_ok _ _ _ _ _ _ E A B C). Qed.
Lemma aliases_ok t k t' k' : remove_aliases t k = (t', k') ->
  fresh_from k t -> forall r, conv (mean r t') (mean r t).
Proof. intros E F. now apply (remove_aliases_ok (size t) t k t' k' (le_n _) E F). Qed.
