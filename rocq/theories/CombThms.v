(* Proofs about the combinator compiler. *)
From Coq Require Import String List Bool Arith NArith Lia.
From Verif Require Import CombModel LamSpec CombConf.
Import ListNotations.
Local Open Scope list_scope.

(* ------------------------------------------------------------------ *)
(* Machine rules are sound *)

Ltac simp_sub :=
  repeat first [ rewrite sub_up_S | rewrite sub_scons_S ].
Ltac beta1 :=
  first [ eapply cv_trans; [apply cv_beta|]; cbn; simp_sub
        | eapply cv_trans; [apply cv_app; [apply cv_beta|apply cv_refl]|]; cbn; simp_sub
        | eapply cv_trans;
            [apply cv_app; [apply cv_app; [apply cv_beta|apply cv_refl]|apply cv_refl]|];
            cbn; simp_sub
        | eapply cv_trans;
            [apply cv_app; [apply cv_app; [apply cv_app; [apply cv_beta|apply cv_refl]
                                          |apply cv_refl]|apply cv_refl]|];
            cbn; simp_sub ].

Lemma rule_sound p l r :
  length l = fst (rule p) ->
  conv (mean r (apps (Prm p) l)) (mean r (inst l (snd (rule p)))).
Proof.
  destruct p; cbn; intros L;
  repeat match goal with
         | H : length ?x = S _ |- _ => destruct x as [|?a ?q]; [discriminate H|];
             cbn in H; injection H as H
         | H : length ?x = 0 |- _ => destruct x; [clear H|discriminate H]
         end; cbn;
  try (repeat beta1; apply cv_refl).
  (* Y f = f (Y f): both sides reduce to W W with W = \x. f (x x) *)
  set (f := mean r a).
  assert (E : conv (LApp (lprim P_Y) f)
                   (LApp (LLam (LApp (ren S f) (LApp (LVar 0) (LVar 0))))
                         (LLam (LApp (ren S f) (LApp (LVar 0) (LVar 0)))))).
  { cbn. eapply cv_trans; [apply cv_beta|]. cbn. apply cv_refl. }
  change (conv (LApp (lprim P_Y) f) (LApp f (LApp (lprim P_Y) f))).
  eapply cv_trans; [exact E|].
  eapply cv_trans; [apply cv_beta|]. cbn. rewrite sub_scons_S.
  apply cv_app; [apply cv_refl|]. apply cv_sym, E.
Qed.

Lemma red_sound t u r : red t u -> conv (mean r t) (mean r u).
Proof.
  induction 1; cbn.
  - now apply rule_sound.
  - apply cv_app; [assumption|apply cv_refl].
  - apply cv_app; [apply cv_refl|assumption].
Qed.
Lemma reds_sound t u r : reds t u -> conv (mean r t) (mean r u).
Proof.
  induction 1; [apply cv_refl|]. eapply cv_trans; [eapply red_sound; eauto|auto].
Qed.

Lemma red_I a : red (App (Prm P_I) a) a.
Proof. apply (red_rule P_I [a]). reflexivity. Qed.
Lemma red_K a b : red (App (App (Prm P_K) a) b) a.
Proof. apply (red_rule P_K [a; b]). reflexivity. Qed.
Lemma red_S a b c : red (App (App (App (Prm P_S) a) b) c) (App (App a c) (App b c)).
Proof. apply (red_rule P_S [a; b; c]). reflexivity. Qed.
Lemma red_B a b c : red (App (App (App (Prm P_B) a) b) c) (App a (App b c)).
Proof. apply (red_rule P_B [a; b; c]). reflexivity. Qed.
Lemma red_C a b c : red (App (App (App (Prm P_C) a) b) c) (App (App a c) b).
Proof. apply (red_rule P_C [a; b; c]). reflexivity. Qed.
Lemma red_SP a b c d :
  red (App (App (App (App (Prm P_SPRIME) a) b) c) d) (App (App a (App b d)) (App c d)).
Proof. apply (red_rule P_SPRIME [a; b; c; d]). reflexivity. Qed.
Lemma red_BP a b c d :
  red (App (App (App (App (Prm P_BPRIME) a) b) c) d) (App (App a b) (App c d)).
Proof. apply (red_rule P_BPRIME [a; b; c; d]). reflexivity. Qed.
Lemma red_CP a b c d :
  red (App (App (App (App (Prm P_CPRIME) a) b) c) d) (App (App a (App b d)) c).
Proof. apply (red_rule P_CPRIME [a; b; c; d]). reflexivity. Qed.
Lemma red_BS a b c d :
  red (App (App (App (App (Prm P_BSTAR) a) b) c) d) (App a (App b (App c d))).
Proof. apply (red_rule P_BSTAR [a; b; c; d]). reflexivity. Qed.

(* ------------------------------------------------------------------ *)
(* Small programs *)

(* Replacing a variable in a combinator term (nothing binds there). *)
Fixpoint put (x : string) (n : tm) (t : tm) : tm :=
  match t with
  | Var y => if String.eqb x y then n else t
  | App a b => App (put x n a) (put x n b)
  | _ => t
  end.
Fixpoint nolam (t : tm) : bool :=
  match t with
  | App a b => nolam a && nolam b
  | Lam _ _ => false
  | _ => true
  end.

Lemma put_notfree x n t : nolam t = true -> isfree x t = false -> put x n t = t.
Proof.
  induction t; cbn; auto.
  - now intros _ ->.
  - rewrite andb_true_iff, orb_false_iff. intros [? ?] [? ?]. f_equal; auto.
Qed.
Lemma put_self x t : put x (Var x) t = t.
Proof.
  induction t; cbn; f_equal; auto.
  destruct (String.eqb x x0) eqn:E; auto. apply String.eqb_eq in E. now subst.
Qed.

(* The table is right about a node when every entry below it is. *)
Fixpoint tbl_ok (t : anode) : Prop :=
  (forall x, In x (get_set t) <-> isfree x (erase t) = true) /\
  match t with
  | AApp _ a b => tbl_ok a /\ tbl_ok b
  | ALam _ _ a => tbl_ok a
  | _ => True
  end.

Lemma tbl_ok_set t x : tbl_ok t -> In x (get_set t) <-> isfree x (erase t) = true.
Proof. destruct t; cbn; intros [H _]; apply H. Qed.

Lemma cached_ok t x : tbl_ok t -> cached_is_free x t = isfree x (erase t).
Proof.
  intros T. apply eq_true_iff_eq. unfold cached_is_free. rewrite existsb_exists.
  rewrite <- (tbl_ok_set t x T). split.
  - intros (y & Hy & E). apply String.eqb_eq in E. now subst.
  - intros Hx. exists x. split; auto. apply String.eqb_refl.
Qed.

Lemma set_union_in s1 s2 x : In x (set_union s1 s2) <-> In x s1 \/ In x s2.
Proof.
  revert s2; induction s1 as [|a r1 IH]; cbn [set_union]; [cbn; tauto|].
  induction s2 as [|b r2 IH2]; [cbn; tauto|].
  destruct (String.compare a b) eqn:Q.
  - cbn. rewrite IH. apply String.compare_eq_iff in Q. subst. tauto.
  - cbn [In]. rewrite IH. cbn. tauto.
  - cbn [In] in *. rewrite IH2. cbn. tauto.
Qed.

(* Sets are sorted without repetition, so removing one occurrence suffices. *)
Definition slt (a b : string) : Prop := String.compare a b = Lt.
Fixpoint sorted (s : list string) : Prop :=
  match s with
  | [] => True
  | a :: r => (forall b, In b r -> slt a b) /\ sorted r
  end.
Lemma slt_trans a b c : slt a b -> slt b c -> slt a c.
Proof.
  unfold slt. revert b c; induction a as [|x a IH]; intros [|y b] [|z c]; cbn;
    try discriminate; auto.
  unfold Ascii.compare.
  destruct (N.compare_spec (Ascii.N_of_ascii x) (Ascii.N_of_ascii y)) as [E|E|E];
  destruct (N.compare_spec (Ascii.N_of_ascii y) (Ascii.N_of_ascii z)) as [F|F|F];
    try discriminate; intros A B.
  - rewrite E, F, N.compare_refl. eauto.
  - rewrite E. now rewrite (proj2 (N.compare_lt_iff _ _) F).
  - rewrite <- F. now rewrite (proj2 (N.compare_lt_iff _ _) E).
  - now rewrite (proj2 (N.compare_lt_iff _ _) (N.lt_trans _ _ _ E F)).
Qed.
Lemma slt_irrefl a : ~ slt a a.
Proof.
  unfold slt. induction a as [|x a IH]; cbn; [discriminate|].
  unfold Ascii.compare. now rewrite N.compare_refl.
Qed.
Lemma set_union_sorted s1 s2 : sorted s1 -> sorted s2 -> sorted (set_union s1 s2).
Proof.
  revert s2; induction s1 as [|a r1 IH]; cbn [set_union]; [auto|].
  induction s2 as [|b r2 IH2]; [auto|].
  intros S1 S2. pose proof S1 as [A1 R1]. pose proof S2 as [A2 R2].
  destruct (String.compare a b) eqn:Q.
  - apply String.compare_eq_iff in Q. subst. cbn. split; auto.
    intros c Hc. apply set_union_in in Hc as [Hc|Hc]; auto.
  - cbn [sorted]. split; auto.
    intros c Hc. apply set_union_in in Hc as [Hc|[<-|Hc]]; auto.
    eapply slt_trans; eauto.
  - assert (slt b a) as Lt1.
    { unfold slt. rewrite String.compare_antisym, Q. reflexivity. }
    cbn [sorted]. split.
    + intros c Hc. change (In c (set_union (a :: r1) r2)) in Hc.
      apply set_union_in in Hc as [[<-|Hc]|Hc]; auto.
      eapply slt_trans; eauto.
    + apply (IH2 S1 R2).
Qed.
Lemma remove_in s x y : sorted s -> In y (remove_element s x) <-> In y s /\ y <> x.
Proof.
  induction s as [|a r IH]; cbn; [tauto|]. intros [A R].
  destruct (String.eqb a x) eqn:E.
  - apply String.eqb_eq in E. subst. split.
    + intros Hy. split; auto. intros ->. eapply slt_irrefl; eauto.
    + intros [[<-|Hy] N]; [congruence|auto].
  - apply String.eqb_neq in E. cbn. rewrite IH by auto. split.
    + intros [<-|[? ?]]; auto.
    + intros [[<-|?] ?]; auto.
Qed.
Lemma remove_sorted s x : sorted s -> sorted (remove_element s x).
Proof.
  induction s as [|a r IH]; cbn; auto. intros [A R].
  destruct (String.eqb a x); auto. cbn. split; auto.
  intros b Hb. apply remove_in in Hb as [? ?]; auto.
Qed.

Lemma erase_create t : erase (create_free_tbl t) = t.
Proof. induction t; cbn; f_equal; auto. Qed.

Lemma create_ok t : tbl_ok (create_free_tbl t) /\ sorted (get_set (create_free_tbl t)).
Proof.
  induction t as [x|p|n|a [Ta Sa] b [Tb Sb]|x a [Ta Sa]]; cbn.
  - split; [|split; tauto]. split; auto. intros y. rewrite String.eqb_eq. intuition.
  - split; [split; auto; intros; intuition discriminate|trivial].
  - split; [split; auto; intros; intuition discriminate|trivial].
  - split; [|apply set_union_sorted; assumption]. split; [|auto].
    intros x. rewrite set_union_in, orb_true_iff, !tbl_ok_set by assumption. tauto.
  - split; [|apply remove_sorted; assumption]. split; [|auto].
    intros y. rewrite remove_in by assumption. rewrite tbl_ok_set by assumption.
    rewrite andb_true_iff, negb_true_iff, String.eqb_neq. tauto.
Qed.

Lemma prim1_ok p a : tbl_ok a -> tbl_ok (prim1 p a).
Proof.
  intros T. cbn. split; [intros; now apply tbl_ok_set|].
  repeat split; auto; cbn; intros; try tauto; try discriminate.
Qed.
Lemma prim2_ok p a b : tbl_ok a -> tbl_ok b -> tbl_ok (prim2 p a b).
Proof.
  intros Ta Tb. cbn [prim2 tbl_ok]. split; [|split; [now apply prim1_ok|auto]].
  intros x. cbn. rewrite set_union_in, !tbl_ok_set, orb_true_iff by auto. tauto.
Qed.
Lemma prim3_ok p a b c : tbl_ok a -> tbl_ok b -> tbl_ok c -> tbl_ok (prim3 p a b c).
Proof.
  intros Ta Tb Tc. cbn [prim3 tbl_ok]. split; [|split; [now apply prim2_ok|auto]].
  intros x. cbn. rewrite !set_union_in, !tbl_ok_set, !orb_true_iff by auto. tauto.
Qed.

Lemma is_Bpq_some t p q : is_Bpq t = Some (p, q) ->
  erase t = App (App (Prm P_B) (erase p)) (erase q) /\ (tbl_ok t -> tbl_ok p /\ tbl_ok q).
Proof.
  destruct t as [| | |f [| | |f2 [|f3 [] | | |] b|] c|]; cbn; try discriminate.
  intros [= <- <-]. split; auto. intros (? & (? & ? & ?) & ?). auto.
Qed.

(* What abstract_rec yields for a combinator term. *)
Definition abstracts (x : string) (t t' : anode) : Prop :=
  tbl_ok t' /\ nolam (erase t') = true /\
  (forall y, isfree y (erase t') = isfree y (erase t) && negb (String.eqb y x)) /\
  (forall n, joins (App (erase t') n) (put x n (erase t))).

Lemma isfree_neq x y t :
  isfree x t = false -> isfree y t = isfree y t && negb (String.eqb y x).
Proof.
  intros N. destruct (String.eqb y x) eqn:E; [|now rewrite andb_true_r].
  apply String.eqb_eq in E. subst. now rewrite N.
Qed.

Lemma abstract_K x t :
  tbl_ok t -> nolam (erase t) = true -> isfree x (erase t) = false ->
  abstracts x t (prim1 P_K t).
Proof.
  intros T N F. split; [now apply prim1_ok|]. split; [assumption|]. split; cbn.
  - intros y. now apply isfree_neq.
  - intros n. rewrite put_notfree by assumption. apply joins_red, red_K.
Qed.

Lemma is_I_eq t : is_I t = true -> erase t = Prm P_I.
Proof. destruct t as [|f []| | |]; cbn; try discriminate. reflexivity. Qed.

Lemma isfree_or x a b :
  isfree x (App a b) = isfree x a || isfree x b.
Proof. reflexivity. Qed.

Lemma abstract_ok x t :
  tbl_ok t -> nolam (erase t) = true ->
  exists t', abstract_rec x t = Some t' /\ abstracts x t t'.
Proof.
  induction t as [fs y|fs p|fs n|fs a IHa b IHb|fs y a IHa]; intros T N;
    cbn [abstract_rec]; rewrite (cached_ok _ x T).
  - destruct (isfree x (erase (AVar fs y))) eqn:F; cbn [negb].
    2: { eexists; split; [reflexivity|now apply abstract_K]. }
    cbn in F. rewrite F. apply String.eqb_eq in F. subst y.
    eexists; split; [reflexivity|]. split; [cbn; intuition discriminate|].
    split; [reflexivity|]. split; cbn.
    + intros z. now destruct (String.eqb z x).
    + intros m. rewrite String.eqb_refl. apply joins_red, red_I.
  - eexists; split; [reflexivity|now apply abstract_K].
  - eexists; split; [reflexivity|now apply abstract_K].
  - destruct (isfree x (erase (AApp fs a b))) eqn:F; cbn [negb].
    2: { eexists; split; [reflexivity|now apply abstract_K]. }
    destruct T as (TT & Ta & Tb). cbn [erase nolam] in N.
    apply andb_true_iff in N as [Na Nb].
    rewrite (cached_ok a x Ta), (cached_ok b x Tb).
    cbn [erase] in F. rewrite isfree_or in F.
    destruct (isfree x (erase a)) eqn:Fa; cbn [negb].
    + destruct (IHa Ta Na) as (a' & -> & Ta' & Na' & Va & Ra).
      destruct (isfree x (erase b)) eqn:Fb; cbn [negb].
      * destruct (IHb Tb Nb) as (b' & -> & Tb' & Nb' & Vb & Rb).
        destruct (is_Bpq a') as [[p q]|] eqn:Q.
        -- apply is_Bpq_some in Q as [Q Tq]. destruct (Tq Ta') as [Tp Tq'].
           rewrite Q in Na'. cbn in Na'. apply andb_true_iff in Na' as [Np Nq].
           eexists; split; [reflexivity|]. split; [now apply prim3_ok|].
           split; [cbn; now rewrite Np, Nq, Nb'|]. split.
           ++ intros y. specialize (Va y). rewrite Q in Va. cbn in Va |- *.
              rewrite Va, (Vb y). now rewrite andb_orb_distrib_l.
           ++ intros m. specialize (Ra m). rewrite Q in Ra. cbn.
              eapply joins_trans; [apply joins_red, red_SP|].
              apply joins_app; [|apply Rb].
              eapply joins_trans; [apply joins_sym, joins_red, red_B|exact Ra].
        -- eexists; split; [reflexivity|]. split; [now apply prim2_ok|].
           split; [cbn; now rewrite Na', Nb'|]. split.
           ++ intros y. cbn. rewrite (Va y), (Vb y). now rewrite andb_orb_distrib_l.
           ++ intros m. cbn. eapply joins_trans; [apply joins_red, red_S|].
              apply joins_app; [apply Ra|apply Rb].
      * destruct (is_Bpq a') as [[p q]|] eqn:Q.
        -- apply is_Bpq_some in Q as [Q Tq]. destruct (Tq Ta') as [Tp Tq'].
           rewrite Q in Na'. cbn in Na'. apply andb_true_iff in Na' as [Np Nq].
           eexists; split; [reflexivity|]. split; [now apply prim3_ok|].
           split; [cbn; now rewrite Np, Nq, Nb|]. split.
           ++ intros y. specialize (Va y). rewrite Q in Va. cbn in Va |- *.
              rewrite Va, andb_orb_distrib_l.
              now rewrite <- (isfree_neq x y (erase b) Fb).
           ++ intros m. specialize (Ra m). rewrite Q in Ra. cbn.
              rewrite (put_notfree x m (erase b)) by assumption.
              eapply joins_trans; [apply joins_red, red_CP|].
              apply joins_app; [|apply joins_refl].
              eapply joins_trans; [apply joins_sym, joins_red, red_B|exact Ra].
        -- eexists; split; [reflexivity|]. split; [now apply prim2_ok|].
           split; [cbn; now rewrite Na', Nb|]. split.
           ++ intros y. cbn. rewrite (Va y), andb_orb_distrib_l.
              now rewrite <- (isfree_neq x y (erase b) Fb).
           ++ intros m. cbn. rewrite (put_notfree x m (erase b)) by assumption.
              eapply joins_trans; [apply joins_red, red_C|].
              apply joins_app; [apply Ra|apply joins_refl].
    + cbn in F. destruct (IHb Tb Nb) as (b' & -> & Tb' & Nb' & Vb & Rb).
      destruct (is_I b') eqn:QI.
      * apply is_I_eq in QI. eexists; split; [reflexivity|].
        split; [assumption|]. split; [assumption|]. split.
        -- intros y. specialize (Vb y). rewrite QI in Vb. cbn in Vb |- *.
           rewrite andb_orb_distrib_l, <- Vb, orb_false_r. now apply isfree_neq.
        -- intros m. specialize (Rb m). rewrite QI in Rb. cbn.
           rewrite (put_notfree x m (erase a)) by assumption.
           apply joins_app; [apply joins_refl|].
           eapply joins_trans; [apply joins_sym, joins_red, red_I|exact Rb].
      * destruct (is_Bpq b') as [[p q]|] eqn:Q.
        -- apply is_Bpq_some in Q as [Q Tq]. destruct (Tq Tb') as [Tp Tq'].
           rewrite Q in Nb'. cbn in Nb'. apply andb_true_iff in Nb' as [Np Nq].
           eexists; split; [reflexivity|]. split; [now apply prim3_ok|].
           split; [cbn; now rewrite Np, Nq, Na|]. split.
           ++ intros y. specialize (Vb y). rewrite Q in Vb. cbn in Vb |- *.
              rewrite <- orb_assoc, Vb, andb_orb_distrib_l.
              now rewrite <- (isfree_neq x y (erase a) Fa).
           ++ intros m. specialize (Rb m). rewrite Q in Rb. cbn.
              rewrite (put_notfree x m (erase a)) by assumption.
              eapply joins_trans; [apply joins_red, red_BS|].
              apply joins_app; [apply joins_refl|].
              eapply joins_trans; [apply joins_sym, joins_red, red_B|exact Rb].
        -- eexists; split; [reflexivity|]. split; [now apply prim2_ok|].
           split; [cbn; now rewrite Na, Nb'|]. split.
           ++ intros y. cbn. rewrite (Vb y), andb_orb_distrib_l.
              now rewrite <- (isfree_neq x y (erase a) Fa).
           ++ intros m. cbn. rewrite (put_notfree x m (erase a)) by assumption.
              eapply joins_trans; [apply joins_red, red_B|].
              apply joins_app; [apply joins_refl|apply Rb].
  - cbn in N. discriminate.
Qed.

Lemma joins_sound t u r : joins t u -> conv (mean r t) (mean r u).
Proof.
  intros (w & A & B). eapply cv_trans; [apply (reds_sound _ _ r A)|].
  apply cv_sym, (reds_sound _ _ r B).
Qed.

(* compile_rec keeps the free variables, so the entries of the updated
   application nodes stay right. *)
Lemma compile_rec_ok t :
  tbl_ok t ->
  exists t', compile_rec t = Some t' /\ tbl_ok t' /\ nolam (erase t') = true /\
    (forall y, isfree y (erase t') = isfree y (erase t)) /\
    (forall r, conv (mean r (erase t')) (mean r (erase t))).
Proof.
  induction t as [fs y|fs p|fs n|fs a IHa b IHb|fs y a IHa]; intros T.
  - eexists. repeat (split; [reflexivity||assumption|]). intros; apply cv_refl.
  - eexists. repeat (split; [reflexivity||assumption|]). intros; apply cv_refl.
  - eexists. repeat (split; [reflexivity||assumption|]). intros; apply cv_refl.
  - destruct T as (TT & Ta & Tb). cbn [compile_rec].
    destruct (IHa Ta) as (a' & -> & Ta' & Na & Va & Ca).
    destruct (IHb Tb) as (b' & -> & Tb' & Nb & Vb & Cb).
    eexists; split; [reflexivity|]. split; [|split; [|split]].
    + split; [|auto]. intros x. cbn. rewrite Va, Vb. apply (TT x).
    + cbn. now rewrite Na, Nb.
    + intros x. cbn. now rewrite Va, Vb.
    + intros r. cbn. now apply cv_app.
  - destruct T as (TT & Ta). cbn [compile_rec].
    destruct (IHa Ta) as (a' & -> & Ta' & Na & Va & Ca).
    destruct (abstract_ok y a' Ta' Na) as (t' & -> & Tt & Nt & Vt & Rt).
    eexists; split; [reflexivity|]. split; [assumption|]. split; [assumption|].
    split.
    + intros z. cbn. now rewrite Vt, Va, andb_comm.
    + intros r. cbn [erase].
      eapply cv_trans; [|apply (cv_lam _ _ (Ca (bind r y)))].
      apply (mean_abs r y (erase t') (erase a')).
      * rewrite Vt, String.eqb_refl. apply andb_false_r.
      * eapply cv_trans; [apply joins_sound, (Rt (Var y))|].
        rewrite put_self. apply cv_refl.
Qed.

Definition small (t : tm) : option tm :=
  option_map erase (compile_rec (create_free_tbl t)).

Lemma small_ok t :
  exists c, small t = Some c /\ nolam c = true /\
    (forall y, isfree y c = isfree y t) /\ forall r, conv (mean r c) (mean r t).
Proof.
  destruct (compile_rec_ok _ (proj1 (create_ok t))) as (t' & E & _ & N & V & C).
  rewrite erase_create in *. exists (erase t'). unfold small. rewrite E.
  repeat split; auto.
Qed.

Lemma small_apply x t c n :
  small t = Some c ->
  exists f, small (Lam x t) = Some f /\ joins (App f n) (put x n c).
Proof.
  unfold small. cbn [create_free_tbl compile_rec]. intros E.
  destruct (compile_rec_ok _ (proj1 (create_ok t))) as (t' & E' & T & N & V & C).
  rewrite E' in *. injection E as <-.
  destruct (abstract_ok x t' T N) as (f & -> & _ & _ & _ & R).
  exists (erase f). split; [reflexivity|apply R].
Qed.

(* ------------------------------------------------------------------ *)
(* Large programs *)

(* The variables of vlp in order, later repetitions of a name left out. *)
Fixpoint firsts (seen vlp : list string) : list string :=
  match vlp with
  | [] => []
  | v :: r => if existsb (String.eqb v) seen then firsts seen r
              else v :: firsts (v :: seen) r
  end.
Definition need (P : string -> bool) seen vlp := filter P (firsts seen vlp).

Definition mem (v : string) (l : list string) : bool := existsb (String.eqb v) l.
Lemma mem_in v l : mem v l = true <-> In v l.
Proof.
  unfold mem. rewrite existsb_exists. split.
  - intros (y & H & E). apply String.eqb_eq in E. now subst.
  - intros H. exists v. split; [assumption|apply String.eqb_refl].
Qed.

Lemma firsts_in seen vlp v :
  In v (firsts seen vlp) <-> In v vlp /\ ~ In v seen.
Proof.
  revert seen; induction vlp as [|a r IH]; intros seen; cbn; [tauto|].
  fold (mem a seen). destruct (mem a seen) eqn:M.
  - apply mem_in in M. rewrite IH. intuition. subst; tauto.
  - assert (~ In a seen) as NI by (rewrite <- mem_in; congruence).
    cbn. rewrite IH. cbn. destruct (string_dec a v); [subst|]; tauto.
Qed.

Lemma need_notseen P seen vlp v : mem v seen = true -> head_is v (need P seen vlp) = false.
Proof.
  intros M. destruct (need P seen vlp) as [|w l] eqn:E; auto. cbn.
  apply String.eqb_neq. intros ->.
  assert (In w (need P seen vlp)) as H by (rewrite E; now left).
  unfold need in H. rewrite filter_In, firsts_in in H. apply mem_in in M. tauto.
Qed.
Lemma need_head P seen v vlp :
  mem v seen = false -> head_is v (need P seen (v :: vlp)) = P v.
Proof.
  intros M. unfold need. cbn. fold (mem v seen). rewrite M. cbn.
  destruct (P v) eqn:E; cbn; [apply String.eqb_refl|].
  apply need_notseen. cbn. now rewrite String.eqb_refl.
Qed.
Lemma need_cons P seen v vlp :
  mem v seen = false ->
  need P seen (v :: vlp) =
    if P v then v :: need P (v :: seen) vlp else need P (v :: seen) vlp.
Proof. intros M. unfold need. cbn. fold (mem v seen). now rewrite M. Qed.
Lemma need_skip P seen v vlp :
  mem v seen = true -> need P seen (v :: vlp) = need P seen vlp.
Proof. intros M. unfold need. cbn. fold (mem v seen). now rewrite M. Qed.

(* Applying to the needed variables, outermost first. *)
Definition feed (f : tm) (needed : list tm) : tm := apps f (rev needed).
Lemma feed_cons f a l : feed f (a :: l) = App (feed f l) a.
Proof. unfold feed. cbn. apply apps_app. Qed.

Definition appo (b : bool) (f a : tm) : tm := if b then App f a else f.

(* What a director string does to its two functions, per variable. *)
Definition cc_next (cc : option tm) (b1 b2 : bool) : option tm :=
  match b1, b2 with
  | true, true => Some (match cc with None => Prm P_S | Some c => App (Prm P_SPRIME) c end)
  | true, false => Some (match cc with None => Prm P_C | Some c => App (Prm P_CPRIME) c end)
  | false, true => Some (match cc with None => Prm P_B | Some c => App (Prm P_BPRIME) c end)
  | false, false => cc
  end.
Lemma cc_next_red cc b1 b2 r1 r2 x :
  b1 || b2 = true ->
  red (App (direct (cc_next cc b1 b2) r1 r2) x) (direct cc (appo b1 r1 x) (appo b2 r2 x)).
Proof.
  destruct cc, b1, b2; cbn; try discriminate; intros _;
    auto using red_S, red_B, red_C, red_SP, red_BP, red_CP.
Qed.

Lemma directors_need P1 P2 seen vlp cc :
  snd (directors vlp (need P1 seen vlp) (need P2 seen vlp) cc)
  = need (fun v => P1 v || P2 v) seen vlp.
Proof.
  revert seen cc; induction vlp as [|v vlp IH]; intros seen cc; [reflexivity|].
  cbn [directors]. destruct (mem v seen) eqn:M.
  - rewrite !need_skip by assumption. rewrite !need_notseen by assumption. apply IH.
  - rewrite !need_head, !need_cons by assumption.
    destruct (P1 v), (P2 v); cbn [tl orb].
    + specialize (IH (v :: seen)). 
      match goal with |- context [directors ?a ?b ?c ?d] =>
        specialize (IH d); destruct (directors a b c d) end. cbn in *. now f_equal.
    + match goal with |- context [directors ?a ?b ?c ?d] =>
        specialize (IH (v :: seen) d); destruct (directors a b c d) end.
      cbn in *. now f_equal.
    + match goal with |- context [directors ?a ?b ?c ?d] =>
        specialize (IH (v :: seen) d); destruct (directors a b c d) end.
      cbn in *. now f_equal.
    + apply IH.
Qed.

(* The arguments, per variable, are given by [arg]. *)
Lemma directors_red P1 P2 arg seen vlp cc r1 r2 :
  reds (feed (direct (fst (directors vlp (need P1 seen vlp) (need P2 seen vlp) cc)) r1 r2)
             (map arg (need (fun v => P1 v || P2 v) seen vlp)))
       (direct cc (feed r1 (map arg (need P1 seen vlp)))
                  (feed r2 (map arg (need P2 seen vlp)))).
Proof.
  revert seen cc r1 r2; induction vlp as [|v vlp IH]; intros seen cc r1 r2;
    [constructor|].
  cbn [directors]. destruct (mem v seen) eqn:M.
  - rewrite !need_skip by assumption. rewrite !need_notseen by assumption. apply IH.
  - rewrite !need_head, !need_cons by assumption.
    specialize (IH (v :: seen) (cc_next cc (P1 v) (P2 v)) r1 r2).
    pose proof (cc_next_red cc (P1 v) (P2 v)
                  (feed r1 (map arg (need P1 (v :: seen) vlp)))
                  (feed r2 (map arg (need P2 (v :: seen) vlp))) (arg v)) as R.
    destruct (P1 v), (P2 v); cbn [tl orb cc_next appo map] in *; rewrite ?feed_cons;
      try exact IH;
      (match goal with |- context [directors ?a ?b ?c ?d] =>
        destruct (directors a b c d) end; cbn [fst] in *;
       eapply reds_trans; [apply reds_l, IH|]; apply reds_one, R; reflexivity).
Qed.

Lemma need_ext P Q seen vlp : (forall v, P v = Q v) -> need P seen vlp = need Q seen vlp.
Proof. intros E. unfold need. induction (firsts seen vlp); cbn; [auto|]. rewrite E, IHl. auto. Qed.

Lemma need_false seen vlp : need (fun _ => false) seen vlp = [].
Proof. unfold need. now induction (firsts seen vlp). Qed.

Lemma need_seen P x seen vlp :
  P x = false \/ In x seen ->
  need P (x :: seen) vlp = need P seen vlp.
Proof.
  revert seen; induction vlp as [|v vlp IH]; intros seen Hx; [reflexivity|].
  unfold need. cbn. fold (mem v seen).
  destruct (String.eqb v x) eqn:E; cbn.
  - apply String.eqb_eq in E. subst v. destruct (mem x seen) eqn:M.
    + apply IH. now right; apply mem_in.
    + destruct Hx as [Hx|Hx]; [|apply mem_in in Hx; congruence].
      cbn. rewrite Hx. reflexivity.
  - destruct (mem v seen); [now apply IH|]. cbn.
    assert (firsts (v :: x :: seen) vlp = firsts (x :: v :: seen) vlp) as ->.
    { clear. revert seen. 
      enough (forall s1 s2, (forall y, mem y s1 = mem y s2) ->
                firsts s1 vlp = firsts s2 vlp) as K.
      { intros; apply K. intros y. cbn.
        now destruct (String.eqb y v), (String.eqb y x). }
      induction vlp as [|a r IH]; intros s1 s2 K; cbn; [auto|].
      fold (mem a s1) (mem a s2). rewrite K. destruct (mem a s2); [auto|].
      f_equal. apply IH. intros y. cbn. fold (mem y s1) (mem y s2). now rewrite K. }
    specialize (IH (v :: seen)). unfold need in IH.
    rewrite IH; [reflexivity|]. cbn. tauto.
Qed.

(* The needed list is exactly the free variables found in vlp. *)
Definition fvl (t : tm) : string -> bool := fun v => isfree v t.

Lemma need_single x vlp :
  mem x vlp = true -> need (fun v => String.eqb v x) [] vlp = [x].
Proof.
  enough (forall seen, mem x vlp = true -> mem x seen = false ->
            need (fun v => String.eqb v x) seen vlp = [x]) as K.
  { intros; now apply K. }
  induction vlp as [|v vlp IH]; intros seen M N; [discriminate|].
  cbn in M. destruct (mem v seen) eqn:Ms.
  - rewrite need_skip by assumption. apply IH; auto.
    destruct (String.eqb x v) eqn:E; auto. apply String.eqb_eq in E. congruence.
  - rewrite need_cons by assumption. destruct (String.eqb v x) eqn:E.
    + apply String.eqb_eq in E. subst. f_equal.
      assert (H : forall w, In w (need (fun v => String.eqb v x) (x :: seen) vlp) -> False).
      { intros w Hw. unfold need in Hw. rewrite filter_In, firsts_in in Hw.
        destruct Hw as [[_ Hn] Hw]. apply String.eqb_eq in Hw. subst. apply Hn. now left. }
      destruct (need _ (x :: seen) vlp) as [|w l]; auto. exfalso. apply (H w). now left.
    + rewrite String.eqb_sym, E in M. cbn in M. apply IH; auto.
      cbn. fold (mem x seen). now rewrite String.eqb_sym, E, N.
Qed.
Lemma need_none P vlp : (forall v, In v vlp -> P v = false) -> need P [] vlp = [].
Proof.
  intros H. destruct (need P [] vlp) as [|w l] eqn:E; auto.
  assert (In w (need P [] vlp)) as K by (rewrite E; now left).
  unfold need in K. rewrite filter_In, firsts_in in K.
  destruct K as [[K _] Q]. rewrite H in Q by assumption. discriminate.
Qed.

Lemma compile_needed t vlp : snd (compile t vlp) = need (fvl t) [] vlp.
Proof.
  revert vlp; induction t as [x|p|n|a IHa b IHb|x a IHa]; intros vlp; cbn [compile].
  - fold (mem x vlp). unfold fvl; cbn [isfree]. destruct (mem x vlp) eqn:M; cbn.
    + symmetry. now apply need_single.
    + symmetry. apply need_none. intros v Hv. apply String.eqb_neq. intros ->.
      apply mem_in in Hv. congruence.
  - symmetry. now apply need_none.
  - symmetry. now apply need_none.
  - specialize (IHa vlp). specialize (IHb vlp).
    destruct (compile a vlp) as [r1 n1], (compile b vlp) as [r2 n2].
    cbn [snd] in *. subst.
    pose proof (directors_need (fvl a) (fvl b) [] vlp None) as D.
    destruct (directors vlp _ _ None) as [cc ne]. cbn in *. exact D.
  - specialize (IHa (x :: vlp)). destruct (compile a (x :: vlp)) as [r2 n2].
    cbn [snd] in IHa. subst n2.
    rewrite need_head by reflexivity. rewrite need_cons by reflexivity.
    assert (E : need (fvl a) [x] vlp = need (fvl (Lam x a)) [] vlp).
    { rewrite <- (need_seen (fvl (Lam x a)) x [] vlp).
      - unfold need. apply filter_ext_in. intros v Hv. rewrite firsts_in in Hv.
        unfold fvl; cbn. destruct (String.eqb v x) eqn:Q; auto.
        apply String.eqb_eq in Q. subst. cbn in Hv. tauto.
      - left. unfold fvl; cbn. now rewrite String.eqb_refl. }
    destruct (fvl a x) eqn:F; cbn [tl snd]; [exact E|].
    pose proof (directors_need (fun _ => false) (fvl a) [x] vlp None) as D.
    rewrite need_false in D.
    destruct (directors vlp _ _ None) as [cc ne]. cbn in *. rewrite D. exact E.
Qed.

Definition res (t : tm) (vlp : list string) : tm := fst (compile t vlp).

Lemma res_App a b vlp :
  res (App a b) vlp =
  direct (fst (directors vlp (need (fvl a) [] vlp) (need (fvl b) [] vlp) None))
         (res a vlp) (res b vlp).
Proof.
  unfold res. cbn [compile]. rewrite <- !compile_needed.
  destruct (compile a vlp), (compile b vlp). cbn [fst snd].
  now destruct (directors _ _ _ _).
Qed.
Lemma res_Lam x a vlp :
  res (Lam x a) vlp =
  if isfree x a then res a (x :: vlp)
  else direct (fst (directors vlp (need (fun _ => false) [x] vlp)
                                  (need (fvl a) [x] vlp) None))
              (Prm P_K) (res a (x :: vlp)).
Proof.
  unfold res. cbn [compile]. pose proof (compile_needed a (x :: vlp)) as N.
  destruct (compile a (x :: vlp)) as [r2 n2]. cbn [fst snd] in *. subst.
  rewrite need_head, need_cons by reflexivity.
  change (fvl a x) with (isfree x a).
  destruct (isfree x a); [reflexivity|]. rewrite need_false.
  now destruct (directors _ _ _ _).
Qed.

(* Director strings contain no variables. *)
Definition closed (c : tm) : Prop := nolam c = true /\ forall y, isfree y c = false.
Definition closed_o (o : option tm) : Prop :=
  match o with None => True | Some c => closed c end.
Lemma cc_next_closed cc b1 b2 : closed_o cc -> closed_o (cc_next cc b1 b2).
Proof. destruct cc, b1, b2; cbn; unfold closed; cbn; auto. Qed.
Lemma directors_closed vlp n1 n2 cc : closed_o cc -> closed_o (fst (directors vlp n1 n2 cc)).
Proof.
  revert n1 n2 cc; induction vlp as [|v vlp IH]; intros n1 n2 cc H; [exact H|].
  cbn [directors].
  destruct (head_is v n1), (head_is v n2).
  - specialize (IH (tl n1) (tl n2) _ (cc_next_closed cc true true H)). cbn in IH.
    destruct (directors _ _ _ _). exact IH.
  - specialize (IH (tl n1) n2 _ (cc_next_closed cc true false H)). cbn in IH.
    destruct (directors _ _ _ _). exact IH.
  - specialize (IH n1 (tl n2) _ (cc_next_closed cc false true H)). cbn in IH.
    destruct (directors _ _ _ _). exact IH.
  - now apply IH.
Qed.
Lemma direct_free y cc a b :
  closed_o cc -> isfree y (direct cc a b) = isfree y a || isfree y b.
Proof.
  destruct cc; cbn; [intros [_ H]; rewrite H; reflexivity|reflexivity].
Qed.
Lemma direct_nolam cc a b :
  closed_o cc -> nolam a = true -> nolam b = true -> nolam (direct cc a b) = true.
Proof. destruct cc; cbn; [intros [H _]; rewrite H|]; intros; auto; now apply andb_true_iff. Qed.
Lemma direct_put x n cc a b :
  closed_o cc -> put x n (direct cc a b) = direct cc (put x n a) (put x n b).
Proof.
  destruct cc; cbn; [|reflexivity]. intros [N H]. now rewrite put_notfree.
Qed.

Lemma res_nolam t vlp : nolam (res t vlp) = true.
Proof.
  revert vlp; induction t; intros vlp; try reflexivity.
  - unfold res; cbn. now destruct (existsb _ vlp).
  - rewrite res_App. apply direct_nolam; auto. now apply directors_closed.
  - rewrite res_Lam. destruct (isfree x t); auto. apply direct_nolam; auto.
    now apply directors_closed.
Qed.

Lemma res_free y t vlp : isfree y (res t vlp) = isfree y t && negb (mem y vlp).
Proof.
  revert vlp; induction t; intros vlp; try reflexivity.
  - unfold res; cbn. fold (mem x vlp). destruct (mem x vlp) eqn:M; cbn.
    + destruct (String.eqb y x) eqn:E; auto. apply String.eqb_eq in E. subst. now rewrite M.
    + destruct (String.eqb y x) eqn:E; auto. apply String.eqb_eq in E. subst. now rewrite M.
  - rewrite res_App, direct_free by now apply directors_closed.
    rewrite IHt1, IHt2. cbn. now rewrite andb_orb_distrib_l.
  - rewrite res_Lam. cbn.
    assert (E : isfree y (res t (x :: vlp))
                = negb (String.eqb y x) && isfree y t && negb (mem y vlp)).
    { rewrite IHt. cbn. fold (mem y vlp).
      now destruct (String.eqb y x), (isfree y t), (mem y vlp). }
    destruct (isfree x t); [exact E|].
    rewrite direct_free by now apply directors_closed. exact E.
Qed.

Lemma feed_free y f l :
  isfree y (feed f (map Var l)) = isfree y f || mem y l.
Proof.
  induction l as [|a l IH]; cbn [map].
  - unfold feed. cbn. now rewrite orb_false_r.
  - rewrite feed_cons. cbn. rewrite IH. fold (mem y l).
    now destruct (isfree y f), (mem y l), (String.eqb y a).
Qed.

Lemma need_mem P seen vlp y : mem y (need P seen vlp) = P y && mem y vlp && negb (mem y seen).
Proof.
  apply eq_true_iff_eq. rewrite mem_in. unfold need. rewrite filter_In, firsts_in.
  rewrite !andb_true_iff, negb_true_iff, <- (not_true_iff_false (mem y seen)), !mem_in.
  tauto.
Qed.

Lemma compile_conv t vlp r :
  conv (mean r (feed (res t vlp) (map Var (need (fvl t) [] vlp)))) (mean r t).
Proof.
  revert vlp r; induction t as [x|p|n|a IHa b IHb|x a IHa]; intros vlp r.
  - unfold res, fvl; cbn [compile isfree]. fold (mem x vlp).
    destruct (mem x vlp) eqn:M; cbn [fst].
    + rewrite need_single by assumption. apply red_sound. apply red_I.
    + rewrite need_none; [apply cv_refl|]. intros v Hv. apply String.eqb_neq.
      intros ->. apply mem_in in Hv. congruence.
  - rewrite need_none by reflexivity. apply cv_refl.
  - rewrite need_none by reflexivity. apply cv_refl.
  - rewrite res_App. eapply cv_trans; [apply reds_sound, directors_red|].
    cbn. now apply cv_app.
  - assert (E : need (fvl a) [x] vlp = need (fvl (Lam x a)) [] vlp).
    { rewrite <- (need_seen (fvl (Lam x a)) x [] vlp).
      - unfold need. apply filter_ext_in. intros v Hv. rewrite firsts_in in Hv.
        unfold fvl; cbn. destruct (String.eqb v x) eqn:Q; auto.
        apply String.eqb_eq in Q. subst. cbn in Hv. tauto.
      - left. unfold fvl; cbn. now rewrite String.eqb_refl. }
    specialize (IHa (x :: vlp) (bind r x)).
    assert (NF : isfree x (feed (res a (x :: vlp)) (map Var (need (fvl a) [x] vlp))) = false).
    { rewrite feed_free, res_free, need_mem. cbn. rewrite String.eqb_refl. cbn.
      now rewrite !andb_false_r. }
    rewrite need_cons in IHa by reflexivity. unfold fvl at 1 in IHa.
    rewrite res_Lam, <- E. destruct (isfree x a) eqn:F.
    + cbn [map] in IHa. rewrite feed_cons in IHa. now apply mean_abs.
    + eapply cv_trans.
      { apply reds_sound. exact (directors_red (fun _ => false) (fvl a) Var [x] vlp None _ _). }
      rewrite need_false. apply mean_abs; [exact NF|].
      eapply cv_trans; [apply red_sound, red_K|exact IHa].
Qed.

Lemma large_ok t r : conv (mean r (res t [])) (mean r t).
Proof. apply (compile_conv t [] r). Qed.

Lemma directors_snoc P1 P2 seen l x cc :
  fst (directors (l ++ [x]) (need P1 seen (l ++ [x])) (need P2 seen (l ++ [x])) cc)
  = let c := fst (directors l (need P1 seen l) (need P2 seen l) cc) in
    if mem x l || mem x seen then c else cc_next c (P1 x) (P2 x).
Proof.
  revert seen cc; induction l as [|v l IH]; intros seen cc.
  - cbn [app mem existsb orb]. destruct (mem x seen) eqn:M.
    + rewrite !need_skip by assumption. reflexivity.
    + cbn [directors]. rewrite !need_head by assumption. cbn.
      now destruct (P1 x), (P2 x).
  - cbn [app]. cbn [directors]. cbn [mem existsb]. fold (mem x l).
    destruct (mem v seen) eqn:M.
    + rewrite !need_skip by assumption. rewrite !need_notseen by assumption.
      rewrite IH. destruct (String.eqb x v) eqn:E; cbn; [|reflexivity].
      apply String.eqb_eq in E. subst v. now rewrite M, orb_true_r.
    + rewrite !need_head, !need_cons by assumption.
      specialize (IH (v :: seen) (cc_next cc (P1 v) (P2 v))).
      cbn [mem existsb] in IH. fold (mem x seen) in IH.
      assert (Q : mem x l || (String.eqb x v || mem x seen)
                  = String.eqb x v || mem x l || mem x seen)
        by now destruct (mem x l), (String.eqb x v).
      rewrite Q in IH. fold (mem x seen).
      destruct (P1 v), (P2 v); cbn [tl cc_next] in *;
        try exact IH;
        (repeat match goal with |- context [directors ?a ?b ?c ?d] =>
           destruct (directors a b c d) end); cbn [fst] in *; exact IH.
Qed.

(* A variable at the far end of vlp is the first argument taken. *)
Lemma compile_apply t l x n :
  if isfree x t && negb (mem x l)
  then reds (App (res t (l ++ [x])) n) (put x n (res t l))
  else res t (l ++ [x]) = res t l.
Proof.
  revert l; induction t as [y|p|c|a IHa b IHb|y a IHa]; intros l.
  - unfold res; cbn. rewrite existsb_app. cbn. fold (mem y l). rewrite orb_false_r.
    destruct (String.eqb x y) eqn:E; cbn.
    + apply String.eqb_eq in E. subst y. rewrite String.eqb_refl, orb_true_r.
      destruct (mem x l) eqn:M; cbn; [reflexivity|].
      rewrite String.eqb_refl. apply reds_one, red_I.
    + rewrite String.eqb_sym in E. now rewrite E, orb_false_r.
  - reflexivity.
  - reflexivity.
  - rewrite !res_App, directors_snoc. cbn [isfree].
    specialize (IHa l). specialize (IHb l). cbn [mem existsb].
    rewrite orb_false_r. destruct (mem x l) eqn:M; cbn [negb] in *;
      rewrite ?andb_false_r, ?andb_true_r in *.
    + now rewrite IHa, IHb.
    + set (c := fst (directors l (need (fvl a) [] l) (need (fvl b) [] l) None)).
      cbv zeta. unfold fvl.
      destruct (isfree x a || isfree x b) eqn:O.
      * eapply reds_step; [apply cc_next_red; exact O|].
        rewrite direct_put by now apply directors_closed.
        assert (A : reds (appo (isfree x a) (res a (l ++ [x])) n) (put x n (res a l))).
        { destruct (isfree x a) eqn:Fa; cbn; [exact IHa|]. rewrite IHa.
          rewrite put_notfree; [constructor|apply res_nolam|].
          now rewrite res_free, Fa. }
        assert (B : reds (appo (isfree x b) (res b (l ++ [x])) n) (put x n (res b l))).
        { destruct (isfree x b) eqn:Fb; cbn; [exact IHb|]. rewrite IHb.
          rewrite put_notfree; [constructor|apply res_nolam|].
          now rewrite res_free, Fb. }
        destruct c; cbn; repeat apply reds_app; auto; constructor.
      * apply orb_false_iff in O as [Fa Fb]. rewrite Fa, Fb in *. cbn.
        now rewrite IHa, IHb.
  - specialize (IHa (y :: l)). cbn [app mem existsb] in IHa. fold (mem x l) in IHa.
    rewrite !res_Lam. cbn [isfree].
    rewrite (directors_snoc (fun _ => false) (fvl a) [y] l x None).
    cbn [mem existsb]. fold (mem x l). rewrite orb_false_r.
    set (c := fst (directors l _ _ None)). cbv zeta. unfold fvl.
    assert (C : closed_o c) by now apply directors_closed.
    destruct (String.eqb x y) eqn:E; cbn [negb andb orb] in *.
    + rewrite andb_false_r in IHa. rewrite orb_true_r, IHa. reflexivity.
    + rewrite orb_false_r. destruct (mem x l) eqn:M; cbn [negb] in *;
        rewrite ?andb_false_r, ?andb_true_r in *.
      * now rewrite IHa.
      * destruct (isfree x a) eqn:Fx.
        -- destruct (isfree y a) eqn:Fy; [exact IHa|].
           eapply reds_step; [apply cc_next_red; reflexivity|]. cbn [appo].
           rewrite direct_put by assumption. cbn [put].
           destruct c; cbn; repeat apply reds_app; auto; constructor.
        -- rewrite IHa. destruct (isfree y a); reflexivity.
Qed.

Lemma large_apply x t n :
  reds (App (res (Lam x t) []) n) (put x n (res t [])).
Proof.
  pose proof (compile_apply t [] x n) as H. cbn [app mem existsb negb] in H.
  rewrite andb_true_r in H. rewrite res_Lam. destruct (isfree x t) eqn:F; [exact H|].
  rewrite H. cbn. rewrite put_notfree.
  - apply reds_one, red_K.
  - apply res_nolam.
  - now rewrite res_free, F.
Qed.
