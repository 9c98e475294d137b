(* Overload resolution: what happens to the store when contexts are dropped. *)
From Coq Require Import String List Bool Arith Lia.
From Verif Require Import TyModel TyThms InfModel InfSpec InfThms InfRun InfTop InfEnd OvModel.
Import ListNotations.
Open Scope list_scope.

(* ---- contexts only put variables back ---- *)
Definition nvdiff (d : diff) : Prop := Forall (fun pn => snd pn = NVar) d.
Definition allnv (s : tstate) : Prop := Forall nvdiff (t_ctx s).

Lemma bind_nv s p q s' : allnv s -> bind_var s p q = UOk s' -> allnv s'.
Proof.
  unfold bind_var, allnv. intros A E. destruct (t_ctx s) as [|d ctx]; [discriminate|].
  injection E as <-. inversion_clear A. cbn. constructor; [|assumption]. now constructor.
Qed.
Lemma unify_nv f : forall s p q s', allnv s ->
  unify f s p q = UOk s' \/ unify f s p q = UFail s' -> allnv s'.
Proof.
  induction f as [|f IH]; intros s p q s' A E; [destruct E; discriminate|]. cbn [unify] in E.
  destruct (get_real f (t_heap s) p) as [p'|]; [|destruct E; discriminate].
  destruct (get_real f (t_heap s) q) as [q'|]; [|destruct E; discriminate].
  destruct (nth_error (t_heap s) p') as [[|a|c1 k1]|] eqn:N1;
    destruct (nth_error (t_heap s) q') as [[|a'|c2 k2]|] eqn:N2;
    try (destruct E; discriminate).
  4: { eapply IH; eauto. }
  4: { destruct (con_eqb c1 c2); [|destruct E as [[=]|[= <-]]; assumption].
       clear N1 N2. revert k2 s A E. induction k1 as [|a k1 IHk]; intros k2 s A E; cbn in E.
       - destruct E as [[= <-]|[=]]. assumption.
       - destruct k2 as [|b k2]; [destruct E; discriminate|].
         destruct (unify f s a b) as [s1|s1| |] eqn:Eu; try (destruct E; discriminate).
         + eapply IHk; [|exact E]. eapply IH; eauto.
         + destruct E as [[=]|[= <-]]. eapply IH; eauto. }
  all: destruct (occurs f (t_heap s) p' q') as [[]|]; try (destruct E; discriminate).
  all: try (destruct (Nat.eqb p' q'); destruct E as [E|E]; try discriminate; injection E as <-; assumption).
  all: destruct E as [E|E]; [eapply bind_nv; eauto|].
  all: unfold bind_var in E; destruct (t_ctx s); discriminate.
Qed.

Definition keeps {A} (m : M A) : Prop := forall s, allnv s ->
  match m s with ROk _ s' | RFail s' => allnv s' | _ => True end.
Lemma keeps_bind {A B} (m : M A) (k : A -> M B) : keeps m -> (forall a, keeps (k a)) -> keeps (bind m k).
Proof. intros H K s N. unfold bind. specialize (H s N). destruct (m s); auto. now apply K. Qed.
Lemma keeps_ret {A} (a : A) : keeps (ret a).
Proof. intros s N. exact N. Qed.
Lemma keeps_fail {A} : keeps (@fail A).
Proof. intros s N. exact N. Qed.
Lemma keeps_crash {A} : keeps (@crash A).
Proof. intros s N. exact I. Qed.
Lemma keeps_new n : keeps (new n).
Proof. intros s N. exact N. Qed.
Lemma keeps_node p : keeps (node p).
Proof. intros s N. exact N. Qed.
Lemma keeps_real f p : keeps (real f p).
Proof. intros s N. unfold real. destruct (get_real f (t_heap s) p); auto. Qed.
Lemma keeps_unif f p q : keeps (unif f p q).
Proof. intros s N. unfold unif. destruct (unify f s p q) eqn:E; auto; eapply unify_nv; eauto. Qed.
Lemma keeps_hint f h p : keeps (check_hint f h p).
Proof. destruct h; [apply keeps_unif|apply keeps_ret]. Qed.
Lemma keeps_arrow f a b : keeps (make_arrow f a b).
Proof. unfold make_arrow. repeat (apply keeps_bind; [apply keeps_real|intros]). apply keeps_new. Qed.
Lemma keeps_fresh f g p : keeps (fresh_inst f g p).
Proof. intros s N. unfold fresh_inst. destruct (copy_type f g p (t_heap s)) as [[]|]; auto. Qed.
Lemma keeps_arg f h a b : keeps (arg_and_result f h a b).
Proof.
  unfold arg_and_result. apply keeps_bind; [apply keeps_node|]. intros [[|q|c [|x l]]|]; try apply keeps_crash.
  apply keeps_bind; [apply keeps_unif|intros _]. apply keeps_bind; [apply keeps_real|intros fn].
  apply keeps_bind; [apply keeps_node|]. intros [[|q|c' [|y [|z l']]]|]; try apply keeps_crash.
  apply keeps_bind; [apply keeps_hint|intros _; apply keeps_real].
Qed.
Lemma keeps_apply f h a b : keeps (apply_types f h a b).
Proof.
  unfold apply_types. apply keeps_bind; [apply keeps_real|intros fn].
  apply keeps_bind; [apply keeps_real|intros arg]. apply keeps_bind; [apply keeps_node|].
  intros [[|q|c l]|]; try apply keeps_fail.
  - apply keeps_bind; [apply keeps_new|intros v]. apply keeps_bind; [apply keeps_arrow|intros ex].
    apply keeps_bind; [apply keeps_unif|intros _]. apply keeps_bind; [apply keeps_real|intros fn'].
    apply keeps_arg.
  - destruct c; try apply keeps_fail. apply keeps_arg.
Qed.
Lemma keeps_fun f gh fns x todo : keeps (build_fun f gh fns x todo).
Proof.
  unfold build_fun. destruct (nth_error fns x); [|apply keeps_crash].
  apply keeps_bind; [apply keeps_fresh|intros]. apply keeps_bind; [apply keeps_real|intros]. apply keeps_ret.
Qed.
Lemma keeps_args f gh fns ds : forall p todo, keeps (build_args f gh fns p ds todo).
Proof.
  induction ds as [|d ds IH]; intros p todo; cbn; [apply keeps_ret|].
  apply keeps_bind; [apply keeps_fun|intros q]. apply keeps_bind; [apply keeps_apply|intros]. apply IH.
Qed.
Lemma keeps_call f gh fns g todo : keeps (build_call f gh fns g todo).
Proof.
  unfold build_call. destruct (nth_error fns g); [|apply keeps_crash].
  apply keeps_bind; [apply keeps_fun|intros]. apply keeps_args.
Qed.

(* ---- restoring ---- *)
Lemma upd_nth h p n q m : nth_error (upd h p n) q = Some m -> m = n \/ nth_error h q = Some m.
Proof.
  intros E. destruct (Nat.eq_dec p q) as [->|D].
  - destruct (Nat.lt_ge_cases q (length h)).
    + rewrite upd_same in E by assumption. injection E as <-. auto.
    + rewrite upd_out in E by assumption. auto.
  - rewrite upd_other in E by assumption. auto.
Qed.
Lemma restore_nv d : nvdiff d -> forall h p n, nth_error (restore d h) p = Some n ->
  n = NVar \/ nth_error h p = Some n.
Proof.
  unfold restore. induction 1 as [|[q m] d E D IH]; intros h p n H; cbn in H; [auto|].
  cbn in E. subst m. apply IH in H as [->|H]; [auto|]. apply upd_nth in H as [->|H]; auto.
Qed.

Section Ar.
Variable ar : con -> nat.

Lemma restore_store d h : nvdiff d -> store ar h -> store ar (restore d h).
Proof.
  intros D (IR & AC & AR). split; [|split].
  - intros p n q E I. rewrite restore_length. apply restore_nv in E as [->|E]; [destruct I| |assumption].
    eapply IR; eauto.
  - intros p. specialize (AC p). induction AC as [p _ IH]. constructor. intros q (n & E & I).
    apply restore_nv in E as [->|E]; [destruct I| |assumption]. apply IH. exists n. auto.
  - intros p c k E. apply restore_nv in E as [E|E]; [discriminate| |assumption]. eapply AR; eauto.
Qed.

(* The state after a part of the search: new nodes, and nothing else. *)
Definition same (s s' : tstate) : Prop :=
  okst ar s' /\ allnv s' /\ t_ctx s' = t_ctx s /\ exists t, t_heap s' = t_heap s ++ t.

Lemma same_refl s : okst ar s -> allnv s -> same s s.
Proof. intros O N. split; [assumption|]. split; [assumption|]. split; [reflexivity|]. exists []. now rewrite app_nil_r. Qed.
Lemma same_trans s1 s2 s3 : same s1 s2 -> same s2 s3 -> same s1 s3.
Proof.
  intros (_ & _ & C1 & t1 & E1) (O & N & C2 & t2 & E2). split; [assumption|]. split; [assumption|].
  split; [congruence|]. exists (t1 ++ t2). now rewrite E2, E1, app_assoc.
Qed.
Lemma same_ext s s' : same s s' -> ext s s'.
Proof.
  intros (_ & _ & C & t & E). assert (s' = set_heap s (t_heap s ++ t)) as ->; [|apply ext_app].
  destruct s'; cbn in *. unfold set_heap. congruence.
Qed.
Lemma same_len s s' : same s s' -> length (t_heap s) <= length (t_heap s').
Proof. intros (_ & _ & _ & t & ->). rewrite app_length. lia. Qed.

Lemma pop_same s s1 : okst ar s -> okst ar s1 -> allnv s1 -> ext (push_ctx s) s1 ->
  exists s2, pop s1 = ROk tt s2 /\ same s s2.
Proof.
  intros O O1 N X. destruct (pop_back _ _ X) as (s2 & Ep & C & L & H).
  unfold pop. rewrite Ep. exists s2. split; [reflexivity|].
  unfold pop_ctx in Ep. destruct (t_ctx s1) as [|d ctx] eqn:Ec; [discriminate|]. injection Ep as <-.
  cbn in *. unfold allnv in N. rewrite Ec in N. inversion_clear N as [|? ? Nd Nc].
  split; [|split; [|split]].
  - destruct (restore_store d _ Nd (okst_store _ _ O1)) as (A & B & D).
    split; [exact A|]. split; [exact B|]. split; [exact D|]. cbn. rewrite C. apply O.
  - exact Nc.
  - exact C.
  - cbn. exists (skipn (length (t_heap s)) (restore d (t_heap s1))).
    rewrite <- (firstn_skipn (length (t_heap s)) (restore d (t_heap s1))) at 1. f_equal.
    destruct X as [_ X]. cbn in X. rewrite Ec in X. destruct X as (_ & e & -> & X).
    rewrite app_nil_r. exact X.
Qed.

(* ---- readings ---- *)
Lemma reading_prefix h t r : reading (h ++ t) r -> reading h r.
Proof.
  intros R p n E. apply R. rewrite nth_error_app1; [assumption|]. eapply nth_lt; eauto.
Qed.
Lemma expand_prefix h t : in_range h -> forall f p, p < length h -> expand f (h ++ t) p = expand f h p.
Proof.
  intros IR. induction f as [|f IH]; intros p L; cbn; [reflexivity|].
  rewrite nth_error_app1 by assumption. destruct (nth_error h p) as [[|a|c k]|] eqn:N; auto.
  - apply IH. eapply IR; eauto. now left.
  - f_equal. apply map_ext_in. intros a I. apply IH. eapply IR; eauto.
Qed.
Lemma expand_vars h : in_range h -> forall f p v, p < length h -> In v (tvars (expand f h p)) -> v < length h.
Proof.
  intros IR. induction f as [|f IH]; intros p v L I; cbn in I; [destruct I as [<-|[]]; assumption|].
  destruct (nth_error h p) as [[|a|c k]|] eqn:N; cbn in I; try (destruct I as [<-|[]]; assumption).
  - eapply IH; [|exact I]. eapply IR; eauto. now left.
  - assert (K : forall a, In a k -> a < length h) by (intros; eapply IR; eauto).
    clear N. induction k as [|a k IHk]; cbn in I; [destruct I|].
    apply in_app_iff in I as [I|I]; [eapply IH; [|exact I]; apply K; now left|].
    apply IHk; [assumption|intros; apply K; now right].
Qed.
Lemma reading_app h t r : in_range h -> store ar (h ++ t) -> reading h r ->
  exists r', reading (h ++ t) r' /\ agree (length h) r r'.
Proof.
  intros IR (IR' & AC' & _) R. destruct (expand_reading _ IR' AC') as (D & RD & _).
  set (r0 := fun p => if p <? length h then r p else Nd (LVar p) []).
  exists (fun p => inst r0 (expand D (h ++ t) p)). split; [now apply inst_reading|].
  intros p L. rewrite expand_prefix by assumption. rewrite (reading_inst h r D p R).
  apply inst_ext. intros v I. unfold r0. apply expand_vars in I; [|assumption|assumption].
  apply Nat.ltb_lt in I. now rewrite I.
Qed.
Lemma same_reading s s' r : okst ar s -> same s s' -> reading (t_heap s) r ->
  exists r', reading (t_heap s') r' /\ agree (length (t_heap s)) r r'.
Proof.
  intros O (O' & _ & _ & t & E) R. rewrite E. apply reading_app; [apply O| |assumption].
  rewrite <- E. now apply okst_store.
Qed.
Lemma same_back s s' r : same s s' -> reading (t_heap s') r -> reading (t_heap s) r.
Proof. intros (_ & _ & _ & t & E) R. rewrite E in R. eapply reading_prefix; eauto. Qed.

(* The reading that reads all variables alike. *)
Lemma flat_reading h c : in_range h -> acyclic h ->
  exists r, reading h r /\ forall p, nth_error h p = Some NVar -> r p = c.
Proof.
  intros IR AC. destruct (expand_reading _ IR AC) as (D & RD & _).
  exists (fun p => inst (fun _ => c) (expand D h p)). split; [now apply inst_reading|].
  intros p E. destruct D; cbn; [reflexivity|]. now rewrite E.
Qed.
Lemma eq_list_true eq k1 : forall k2, eq_list eq k1 k2 = Some true -> Forall2 (fun a b => eq a b = Some true) k1 k2.
Proof.
  induction k1 as [|a k1 IH]; intros [|b k2]; cbn; try discriminate; [constructor|].
  destruct (eq a b) as [[]|] eqn:E; try discriminate. constructor; auto.
Qed.
Lemma type_eq_true n ve h r c : reading h r -> (forall p, nth_error h p = Some NVar -> r p = c) ->
  forall p q, type_eq n ve h p q = Some true -> r p = r q.
Proof.
  intros R V. induction n as [|n IH]; intros p q E; cbn in E; [discriminate|].
  destruct (Nat.eqb_spec p q) as [->|D]; [reflexivity|].
  destruct (get_real n h p) as [p'|] eqn:Gp; [|discriminate].
  destruct (get_real n h q) as [q'|] eqn:Gq; [|discriminate].
  rewrite (proj2 (get_real_sound _ _ _ _ Gp) r R), (proj2 (get_real_sound _ _ _ _ Gq) r R).
  destruct (nth_error h p') as [[|a|c1 k1]|] eqn:Np; try discriminate;
    destruct (nth_error h q') as [[|a'|c2 k2]|] eqn:Nq; try discriminate.
  - now rewrite (V _ Np), (V _ Nq).
  - destruct (con_eqb c1 c2) eqn:Ec; [|discriminate]. apply con_eqb_eq in Ec as ->.
    rewrite (R _ _ Np), (R _ _ Nq). f_equal. apply eq_list_true in E.
    clear Np Nq. induction E as [|x y k1 k2 Exy F IHk]; cbn; [reflexivity|]. f_equal; auto.
Qed.

(* ---- matches ---- *)
Lemma matches_ok fuel veq s alt cur : okst ar s -> allnv s -> alt < length (t_heap s) -> cur < length (t_heap s) ->
  match matches fuel veq alt cur s with
  | ROk b s1 => okst ar s1 /\ allnv s1 /\ ext s s1 /\ length (t_heap s1) = length (t_heap s) /\
      if b then (forall x, reading (t_heap s1) x -> reading (t_heap s) x)
             /\ (forall x, reading (t_heap s) x -> x alt = x cur -> reading (t_heap s1) x)
             /\ exists x, reading (t_heap s1) x /\ x alt = x cur
      else forall x, reading (t_heap s) x -> x alt <> x cur
  | RFail _ | RCrash => False
  | RStuck => True
  end.
Proof.
  intros O N La Lc. unfold matches.
  destruct (type_eq fuel (veq s) (t_heap s) alt cur) as [[]|] eqn:T; [| |exact I].
  - split; [assumption|]. split; [assumption|]. split; [apply ext_refl|]. split; [reflexivity|].
    split; [auto|]. split; [auto|].
    destruct (flat_reading (t_heap s) (Nd (LVar 0) [])) as (x & R & V); [apply O|apply O|].
    exists x. split; [assumption|]. eapply type_eq_true; eauto.
  - pose proof (unify_spec ar fuel s alt cur O La Lc) as U.
    destruct (unify fuel s alt cur) as [s1|s1| |] eqn:E; cbn in U; [| |destruct U|exact I].
    + destruct U as (O1 & L1 & _ & B). split; [assumption|].
      split; [eapply unify_nv; eauto|]. split; [apply grows_ext; eapply unify_grows; eauto|].
      split; [assumption|]. split; [intros x R; now apply B in R|]. split; [intros x R X; now apply B|].
      destruct (expand_reading (t_heap s1)) as (D & R & _); [apply O1|apply O1|].
      exists (expand D (t_heap s1)). split; [assumption|]. now apply B in R.
    + destruct U as (O1 & L1 & B). split; [assumption|]. split; [eapply unify_nv; eauto|].
      split; [apply grows_ext; eapply unify_grows; eauto|]. split; [assumption|exact B].
Qed.
End Ar.
