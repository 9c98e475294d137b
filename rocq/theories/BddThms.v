(** The properties of the BDD package, for every state a session reaches. *)
From stdpp Require Import gmap strings list.
From Coq Require Import NArith Lia.
From Verif Require Import BddModel BddWf BddOps BddVar BddQuant BddRelprod BddDen BddSubst BddSize BddCount BddGc BddSwap BddSave BddHist.
Open Scope N_scope.

(** [reached s rs]: some session leaves the manager in state [s] with formulas
    [rs] in the registers.  The session runs the code as it is and does not use
    the relational product, or runs it with the quantifier tags put right (see
    the refutations of C04 for why relprod is set apart). *)
Definition reached (s : bst) (rs : list fml) : Prop := exists tg sz h,
  0 < sz /\ sensible 0 h /\ (tg = good_tag \/ tg = c_tag /\ Forall no_relprod h) /\
  session tg sz h = Some (s, rs).
(** Formulas [fs] mean the same in [s'] as in [s]. *)
Definition kept (s s' : bst) (fs : list fml) : Prop := forall f, f ∈ fs -> forall E, den s' f E = den s f E.

Lemma reached_WF s rs : reached s rs -> WF s /\ forall f, f ∈ rs -> live s f.
Proof.
  intros (tg&sz&h&Hsz&Hs&Ht&E). destruct (session_ok tg sz h Hsz Hs) as (st&vs&E'&[W H]&_); [tauto|].
  rewrite E in E'. injection E' as <-. split; [done|]. intros f Hf.
  apply elem_of_list_lookup in Hf as [k Hk]. by destruct (vals_lookup _ _ _ _ _ H Hk) as (?&?&?&?).
Qed.
Lemma execs_snoc tg h c : forall st, execs tg (h ++ [c]) st = match execs tg h st with Some st' => exec tg c st' | None => None end.
Proof.
  induction h as [|d h IH]; intros st; cbn.
  - by destruct (exec tg c st).
  - destruct (exec tg d st); [apply IH|done].
Qed.
Lemma sensible_snoc h c : forall n, sensible n (h ++ [c]) <-> sensible n h /\ arity_ok (foldl regs_after n h) c.
Proof. induction h as [|d h IH]; intros n; cbn; [tauto|]. rewrite IH. tauto. Qed.
Lemma regs_count tg h : forall st st' , (exists vs, holds st vs) -> sensible (length st.2) h ->
  (tg = good_tag \/ Forall no_relprod h) -> execs tg h st = Some st' -> foldl regs_after (length st.2) h = length st'.2.
Proof.
  induction h as [|d h IH]; intros st st' [vs Hh] Hs Ht E; cbn in *; [by injection E as <-|].
  pose proof (vals_length _ _ _ (proj2 Hh)) as Hl. destruct Hs as [Hd Hs].
  destruct (exec_ok tg d st vs Hh) as (st1&vs1&E1&H1&_&L1).
  { by rewrite <- Hl. }
  { destruct Ht as [?|Ht]; [by left|]. right. by apply Forall_cons in Ht as [? _]. }
  rewrite E1 in E. pose proof (vals_length _ _ _ (proj2 H1)) as Hl1.
  assert (length st1.2 = regs_after (length st.2) d) as Hq by congruence.
  rewrite <- (IH st1 st'); [by rewrite Hq|by exists vs1|by rewrite Hq| |done].
  destruct Ht as [?|Ht]; [by left|]. right. by apply Forall_cons in Ht as [_ ?].
Qed.
Lemma exec_tg tg tg' c st : no_relprod c -> exec tg c st = exec tg' c st.
Proof. intros H. destruct st as [s rs], c; cbn [no_relprod] in H; try contradiction; reflexivity. Qed.
(** What one more command makes of a reached state is reached. *)
Lemma reached_step s rs c s' rs' tg : reached s rs -> arity_ok (length rs) c -> no_relprod c ->
  exec tg c (s, rs) = Some (s', rs') -> reached s' rs'.
Proof.
  intros (tg0&sz&h&Hsz&Hs&Ht&E) Ha Hn Ec. exists tg0, sz, (h ++ [c]).
  assert (exec tg0 c (s, rs) = Some (s', rs')) as Ec' by (rewrite <- Ec; by apply exec_tg).
  split_and!; [done| | |].
  - apply sensible_snoc. split; [done|].
    destruct (session_ok tg0 sz h Hsz Hs) as (st&vs&E'&Hh&_); [tauto|].
    assert (foldl regs_after 0%nat h = length rs) as ->; [|done].
    apply (regs_count tg0 h (B_Init sz, []) (s, rs)); try done; [|tauto].
    exists []. split; [by apply B_Init_WF|constructor].
  - destruct Ht as [?|[? ?]]; [by left|]. right. split; [done|]. apply Forall_app. split; [done|]. by constructor.
  - unfold session in *. by rewrite execs_snoc, E.
Qed.

Lemma ext_kept s s' rs : WF s -> WF s' -> ext s s' -> (forall f, f ∈ rs -> live s f) -> kept s s' rs.
Proof. intros W W' X L f Hf E. apply den_ext; auto. Qed.

(** C01 *)
Lemma thm_session sz h : 0 < sz -> sensible 0 h -> Forall no_relprod h ->
  exists s rs vs, session c_tag sz h = Some (s, rs) /\ meanss h [] vs /\
    Forall2 (fun f F => forall E, den s f E = F E) rs vs.
Proof.
  intros. destruct (session_ok c_tag sz h) as ([s rs]&vs&E&[W H']&M); [done|done|by right|].
  exists s, rs, vs. split_and!; try done. eapply Forall2_impl; [apply H'|]. by intros ? ? [_ ?].
Qed.
Lemma thm_session_fixed sz h : 0 < sz -> sensible 0 h ->
  exists s rs vs, session good_tag sz h = Some (s, rs) /\ meanss h [] vs /\
    Forall2 (fun f F => forall E, den s f E = F E) rs vs.
Proof.
  intros. destruct (session_ok good_tag sz h) as ([s rs]&vs&E&[W H']&M); [done|done|by left|].
  exists s, rs, vs. split_and!; try done. eapply Forall2_impl; [apply H'|]. by intros ? ? [_ ?].
Qed.
Lemma reached_push s rs m c f s' tg : reached s rs -> arity_ok (length rs) c -> no_relprod c ->
  exec tg c (s, rs) = push rs m s -> m s = Some (f, s') -> reached s' (rs ++ [f]).
Proof. intros R Ha Hn E Em. apply (reached_step s rs c s' _ tg); try done. rewrite E. unfold push. by rewrite Em. Qed.
Lemma elem_reg {A} (x : A) l : x ∈ l -> exists i, l !! i = Some x /\ (i < length l)%nat.
Proof. intros H. apply elem_of_list_lookup in H as [i Hi]. exists i. split; [done|]. by eapply lookup_lt_Some. Qed.

Lemma thm_op o s rs a b : reached s rs -> a ∈ rs -> b ∈ rs ->
  exists c s', op_fn o a b s = Some (c, s') /\ reached s' (rs ++ [c]) /\ kept s s' rs /\
    forall E, den s' c E = op_sem o (den s a E) (den s b E).
Proof.
  intros R Ha Hb. destruct (reached_WF s rs R) as [W L].
  destruct (op_fn_spec o s a b W (L a Ha) (L b Hb)) as (c&s'&E&W'&P&Lc&Sc).
  destruct (elem_reg a rs Ha) as (i&Hi&Li), (elem_reg b rs Hb) as (j&Hj&Lj).
  exists c, s'. split_and!; [done| | |].
  - apply (reached_push s rs (op_fn o a b) (COp o i j) c s' c_tag); try done. cbn. by rewrite Hi, Hj.
  - apply ext_kept; try done. by apply pext_ext.
  - intros E0. unfold den. rewrite Sc. rewrite !(sem_den s s') by (first [done|by apply pext_ext|by apply L]). done.
Qed.
Lemma thm_not s rs a : reached s rs -> a ∈ rs ->
  exists c s', B_Not a s = Some (c, s') /\ reached s' (rs ++ [c]) /\ kept s s' rs /\
    forall E, den s' c E = negb (den s a E).
Proof.
  intros R Ha. destruct (reached_WF s rs R) as [W L]. destruct (elem_reg a rs Ha) as (i&Hi&Li).
  exists (bnot a), s. split_and!; [done| |done|].
  - apply (reached_push s rs (B_Not a) (CNot i) (bnot a) s c_tag); try done. cbn. by rewrite Hi.
  - intros E0. unfold den. rewrite sem_bnot; auto.
Qed.
Lemma thm_ite s rs a b c : reached s rs -> a ∈ rs -> b ∈ rs -> c ∈ rs ->
  exists d s', B_Ite a b c s = Some (d, s') /\ reached s' (rs ++ [d]) /\ kept s s' rs /\
    forall E, den s' d E = if den s a E then den s b E else den s c E.
Proof.
  intros R Ha Hb Hc. destruct (reached_WF s rs R) as [W L].
  destruct (B_Ite_spec s a b c W (L a Ha) (L b Hb) (L c Hc)) as (d&s'&E&W'&P&Lc&Sc).
  destruct (elem_reg a rs Ha) as (i&Hi&Li), (elem_reg b rs Hb) as (j&Hj&Lj), (elem_reg c rs Hc) as (k&Hk&Lk).
  exists d, s'. split_and!; [done| | |].
  - apply (reached_push s rs (B_Ite a b c) (CIte i j k) d s' c_tag); try done. cbn. by rewrite Hi, Hj, Hk.
  - apply ext_kept; try done. by apply pext_ext.
  - intros E0. unfold den. rewrite Sc. rewrite !(sem_den s s') by (first [done|by apply pext_ext|by apply L]). done.
Qed.
Lemma thm_var s rs x : reached s rs ->
  exists c s', B_Var x s = Some (c, s') /\ reached s' (rs ++ [c]) /\ kept s s' rs /\ forall E, den s' c E = E x.
Proof.
  intros R. destruct (reached_WF s rs R) as [W L].
  destruct (B_Var_spec x s W) as (c&s'&v&E&W'&X&Lc&Hv&Hn&Hs). exists c, s'. split_and!; [done| | |].
  - by apply (reached_push s rs (B_Var x) (CVar x) c s' c_tag).
  - by apply ext_kept.
  - intros E0. unfold den. rewrite Hs. unfold env_of. by rewrite Hn.
Qed.

(** C02 *)
Lemma thm_canon s rs a b : reached s rs -> a ∈ rs -> b ∈ rs -> a = b <-> forall E, den s a E = den s b E.
Proof.
  intros R Ha Hb. destruct (reached_WF s rs R) as [W L]. split; [by intros ->|].
  intros H. apply (den_canonical s); auto.
Qed.
Lemma thm_taut s rs a : reached s rs -> a ∈ rs ->
  (a = ONE <-> forall E, den s a E = true) /\ (a = ZERO <-> forall E, den s a E = false).
Proof.
  intros R Ha. destruct (reached_WF s rs R) as [W L]. split; split.
  - intros -> E. apply sem_ONE.
  - intros H. apply (den_canonical s); [auto|auto|apply live_const|]. intros E. rewrite H. symmetry. apply sem_ONE.
  - intros -> E. apply sem_ZERO.
  - intros H. apply (den_canonical s); [auto|auto|apply live_const|]. intros E. rewrite H. symmetry. apply sem_ZERO.
Qed.

(** C03 *)
Lemma thm_forall s rs a f : reached s rs -> a ∈ rs -> f ∈ rs ->
  exists r s', quant_forall a f s = Some (r, s') /\ reached s' (rs ++ [r]) /\ kept s s' rs /\
    forall E, den s' r E = true <-> qforall (ndep (den s a)) (den s f) E.
Proof.
  intros R Ha Hf. destruct (reached_WF s rs R) as [W L].
  destruct (quant_forall_spec s a f W (L a Ha) (L f Hf)) as (r&s'&Er&W'&P&Lr&Hs).
  destruct (elem_reg a rs Ha) as (i&Hi&Li), (elem_reg f rs Hf) as (j&Hj&Lj).
  exists r, s'. split_and!; [done| | |].
  - apply (reached_push s rs (quant_forall a f) (CForall i j) r s' c_tag); try done. cbn. by rewrite Hi, Hj.
  - apply ext_kept; try done. by apply pext_ext.
  - intros E. unfold den at 1. assert (env_of s' E = env_of s E) as ->. { unfold env_of. destruct P as (_&_&->&_). done. }
    rewrite Hs. apply (agree_name s a f); auto.
Qed.
Lemma thm_thereis s rs a f : reached s rs -> a ∈ rs -> f ∈ rs ->
  exists r s', quant_thereis a f s = Some (r, s') /\ reached s' (rs ++ [r]) /\ kept s s' rs /\
    forall E, den s' r E = true <-> qthereis (ndep (den s a)) (den s f) E.
Proof.
  intros R Ha Hf. destruct (reached_WF s rs R) as [W L].
  destruct (quant_thereis_spec s a f W (L a Ha) (L f Hf)) as (r&s'&Er&W'&P&Lr&Hs).
  destruct (elem_reg a rs Ha) as (i&Hi&Li), (elem_reg f rs Hf) as (j&Hj&Lj).
  exists r, s'. split_and!; [done| | |].
  - apply (reached_push s rs (quant_thereis a f) (CThereis i j) r s' c_tag); try done. cbn. by rewrite Hi, Hj.
  - apply ext_kept; try done. by apply pext_ext.
  - intros E. unfold den at 1. assert (env_of s' E = env_of s E) as ->. { unfold env_of. destruct P as (_&_&->&_). done. }
    rewrite Hs. apply (agree_name s a f); auto.
Qed.

(** C04: the code as written. *)
Definition agrees (tg : bool -> N) (h : list cmd) : Prop := forall s rs vs,
  session tg 100 h = Some (s, rs) -> meanss h [] vs -> Forall2 (fun f F => forall E, den s f E = F E) rs vs.
Local Open Scope string_scope. Local Open Scope list_scope.
(* relprod_forall x T x *)
Definition h_all : list cmd := [CVar "x"; CConst true; CRelprod false 0 1 0].
(* relprod_thereis x T (x OR y), after (x OR y) AND x was computed *)
Definition h_ex : list cmd := [CVar "x"; CVar "y"; CConst true; COp Or 0 1; COp And 3 0; CRelprod true 0 2 3].
(* (x OR y) AND x, after relprod_thereis x T (x OR y) *)
Definition h_and : list cmd := [CVar "x"; CVar "y"; CConst true; COp Or 0 1; CRelprod true 0 2 3; COp And 3 0].

Definition oneat (x : string) : nenv := fun y => String.eqb x y.
Ltac added0 := eexists; split; [reflexivity|]; intros; reflexivity.
Lemma ndep_x : ndep (fun E : nenv => E "x") "x".
Proof. exists (fun _ => false). by vm_compute. Qed.
Lemma nupd_off E x b y : x <> y -> nupd E x b y = E y.
Proof. intros H. unfold nupd. destruct (String.eqb_spec y x); [by subst|done]. Qed.

(** The session gives register [k] the value [b] under [E0]. *)
Definition answers (tg : bool -> N) (h : list cmd) (k : nat) (E0 : nenv) (b : bool) : bool :=
  match session tg 100 h with
  | Some (s, rs) => match rs !! k with Some f => Bool.eqb (den s f E0) b | None => false end
  | None => false
  end.
Lemma answers_wrong tg h k E0 b vs F : answers tg h k E0 b = true -> meanss h [] vs ->
  vs !! k = Some F -> F E0 = negb b -> ~ agrees tg h.
Proof.
  unfold answers. intros Ha M HF Hb H. destruct (session tg 100 h) as [[s rs]|] eqn:E; [|done].
  specialize (H s rs vs E M). destruct (Forall2_lookup_r _ _ _ _ _ H HF) as (f&Hf&Hd). rewrite Hf in Ha.
  rewrite Hd, Hb in Ha. by destruct b.
Qed.
Lemma h_all_wrong : ~ agrees c_tag h_all.
Proof.
  apply (answers_wrong c_tag h_all 2 (fun _ => false) true [fun E => E "x"; fun _ => true; fun _ => false] (fun _ => false)).
  - vm_compute. reflexivity.
  - eapply ms_cons; [added0|]. eapply ms_cons; [added0|]. eapply ms_cons; [|apply ms_nil].
    eexists _, _, _. split; [done|]. split; [done|]. split; [done|]. eexists. split; [done|].
    intros E0. split; [done|]. intros HQ. specialize (HQ (nupd E0 "x" false)). cbn in HQ.
    rewrite HQ; [done|]. intros x Hx. apply nupd_off. intros <-. apply Hx, ndep_x.
  - reflexivity.
  - reflexivity.
Qed.
Definition vs_base : list bfun := [fun E => E "x"; fun E => E "y"; fun _ => true; fun E => E "x" || E "y"].
Lemma meanss_base h vs : meanss h vs_base vs ->
  meanss ([CVar "x"; CVar "y"; CConst true; COp Or 0 1] ++ h) [] vs.
Proof.
  intros H. eapply ms_cons; [added0|]. eapply ms_cons; [added0|]. eapply ms_cons; [added0|].
  eapply ms_cons; [eexists _, _; split; [done|]; split; [done|]; added0|]. exact H.
Qed.
Lemma means_ex vs : vs !! 0%nat = Some (fun E : nenv => E "x") -> vs !! 2%nat = Some (fun _ : nenv => true) ->
  vs !! 3%nat = Some (fun E : nenv => E "x" || E "y") -> means (CRelprod true 0 2 3) vs (vs ++ [fun _ => true]).
Proof.
  intros H0 H2 H3. eexists _, _, _. split; [done|]. split; [done|]. split; [done|]. eexists. split; [done|].
  intros E0. split; [|done]. intros _. exists (nupd E0 "x" true). split; [|done].
  intros x Hx. apply nupd_off. intros <-. apply Hx, ndep_x.
Qed.
Lemma h_ex_wrong : ~ agrees c_tag h_ex.
Proof.
  set (v4 := fun E : nenv => (E "x" || E "y") && E "x").
  apply (answers_wrong c_tag h_ex 5 (fun _ => false) false (vs_base ++ [v4] ++ [fun _ => true]) (fun _ => true)).
  - vm_compute. reflexivity.
  - apply (meanss_base [COp And 3 0; CRelprod true 0 2 3]).
    eapply ms_cons; [eexists _, _; split; [done|]; split; [done|]; eexists; split; [done|]; done|].
    eapply ms_cons; [by apply means_ex|]. apply ms_nil.
  - reflexivity.
  - reflexivity.
Qed.
Lemma h_and_wrong : ~ agrees c_tag h_and.
Proof.
  set (v5 := fun E : nenv => (E "x" || E "y") && E "x").
  apply (answers_wrong c_tag h_and 5 (fun _ => false) true ((vs_base ++ [fun _ => true]) ++ [v5]) v5).
  - vm_compute. reflexivity.
  - apply (meanss_base [CRelprod true 0 2 3; COp And 3 0]).
    eapply ms_cons; [by apply means_ex|].
    eapply ms_cons; [eexists _, _; split; [done|]; split; [done|]; eexists; split; [done|]; done|]. apply ms_nil.
  - reflexivity.
  - reflexivity.
Qed.
Lemma h_sens : sensible 0 h_all /\ sensible 0 h_ex /\ sensible 0 h_and.
Proof. cbn. repeat split; lia. Qed.
Local Close Scope string_scope.

(** C05 *)
Lemma thm_subst s rs prs f : reached s rs -> Forall (fun p => p.2 ∈ rs) prs -> f ∈ rs -> NoDup prs.*1 ->
  exists r s', do_substitute prs [f] s = Some (Some [r], s') /\ kept s s' rs /\
    forall E, den s' r E = den s f (fun x => match assoc x prs with Some g => den s g E | None => E x end).
Proof.
  intros R Hp Hf Hnd. destruct (reached_WF s rs R) as [W L].
  destruct (do_substitute_spec s prs [f] W) as (o&s'&Eo&W'&X&Ho).
  { eapply Forall_impl; [apply Hp|]. intros [x g] Hg. by apply L. }
  { constructor; [by apply L|constructor]. }
  destruct o as [rs'|]; [|done]. destruct Ho as [_ Ho].
  apply Forall2_cons_inv_l in Ho as (r&l'&[Lr Dr]&Hnil&->). apply Forall2_nil_inv_l in Hnil as ->.
  exists r, s'. split_and!; [done|by apply ext_kept|done].
Qed.
Lemma thm_subst_dup s rs prs f : reached s rs -> Forall (fun p => p.2 ∈ rs) prs -> f ∈ rs -> ~ NoDup prs.*1 ->
  exists s', do_substitute prs [f] s = Some (None, s') /\ kept s s' rs.
Proof.
  intros R Hp Hf Hnd. destruct (reached_WF s rs R) as [W L].
  destruct (do_substitute_spec s prs [f] W) as (o&s'&Eo&W'&X&Ho).
  { eapply Forall_impl; [apply Hp|]. intros [x g] Hg. by apply L. }
  { constructor; [by apply L|constructor]. }
  destruct o as [rs'|]; [by destruct Ho|]. exists s'. split; [done|by apply ext_kept].
Qed.

(** C06 *)
Lemma thm_depends s rs f : reached s rs -> f ∈ rs ->
  exists l, depends [f] s = Some (l, s) /\
    forall x, x ∈ l <-> exists E E', (forall y, y <> x -> E y = E' y) /\ den s f E <> den s f E'.
Proof.
  intros R Hf. destruct (reached_WF s rs R) as [W L].
  destruct (depends_spec s [f] W) as (l&E&Hl); [constructor; [by apply L|constructor]|].
  exists l. split; [done|]. intros x. rewrite Hl. split.
  - intros (g&->%elem_of_list_singleton&E0&Hd). exists (nupd E0 x true), (nupd E0 x false). split; [|done].
    intros y Hy. by rewrite !nupd_off.
  - intros (E1&E2&Hag&Hd). exists f. split; [by apply elem_of_list_singleton|].
    assert (forall E b, E x = b -> den s f (nupd E x b) = den s f E) as HE.
    { intros E0 b Hb. unfold den. apply sem_env_ext; [done| |auto]. intros v Hv. unfold env_of.
      destruct (vnames s !! N.to_nat v) as [y|]; [|done]. unfold nupd. destruct (String.eqb_spec y x); congruence. }
    assert (forall b, den s f (nupd E1 x b) = den s f (nupd E2 x b)) as H12.
    { intros b. unfold den. apply sem_env_ext; [done| |auto]. intros v Hv. unfold env_of.
      destruct (vnames s !! N.to_nat v) as [y|]; [|done]. unfold nupd. destruct (String.eqb_spec y x); auto. }
    exists E1. destruct (E1 x) eqn:X1, (E2 x) eqn:X2.
    + exfalso. apply Hd. rewrite <- (HE E1 true), <- (HE E2 true) by done. apply H12.
    + rewrite (HE E1 true) by done. rewrite H12, (HE E2 false) by done. done.
    + rewrite (HE E1 false) by done. rewrite H12, (HE E2 true) by done. congruence.
    + exfalso. apply Hd. rewrite <- (HE E1 false), <- (HE E2 false) by done. apply H12.
Qed.

(** C07 *)
Lemma thm_count s rs xs f : reached s rs -> f ∈ rs -> NoDup xs -> exists r s',
  truth_cover xs f s = Some (r, s') /\ kept s s' rs /\
  match r with
  | Ok n => (forall x, ndep (den s f) x -> x ∈ xs) /\ forall E, count_sat xs (den s f) E = n
  | Err => ~ forall x, ndep (den s f) x -> x ∈ xs
  end.
Proof.
  intros R Hf Hnd. destruct (reached_WF s rs R) as [W L].
  destruct (truth_cover_spec s xs f W Hnd (L f Hf)) as (r&s'&E&W'&X&Hr). exists r, s'.
  split_and!; [done|by apply ext_kept|]. done.
Qed.

(** C08 *)
Lemma thm_gc s rs : reached s rs -> exists s' rc, gc s rs = Some (s', rc) /\ reached s' rs /\ kept s s' rs /\
  (forall j, is_Some (nodes s' !! j) <-> rooted s rs j /\ is_Some (nodes s !! j)) /\
  (forall j, is_Some (nodes s !! j) -> nodes s' !! j = None -> j ∈ free s') /\
  (forall k f g r, cache s' !! (k, f, g) = Some r -> cache s !! (k, f, g) = Some r /\ live s' f /\ live s' g /\ live s' r).
Proof.
  intros R. destruct (reached_WF s rs R) as [W L].
  destruct (gc_spec s rs W L) as (s'&rc&E&W'&P&L'&HN&_). exists s', rc. split_and!; [done| | |done| |].
  - apply (reached_step s rs CGc s' rs c_tag); try done. cbn. by rewrite E.
  - intros f Hf E0. unfold den. rewrite (pext_sem s' s) by auto. f_equal. unfold env_of. destruct P as (_&_&->&_). done.
  - unfold gc in E. destruct (gc_marks s rs) as [m|] eqn:Em; [|done]. injection E as <- <-.
    intros j Hj Hj'. cbn in *. apply elem_of_app. left. apply elem_of_elements, elem_of_difference. split; [by apply elem_of_dom|].
    intros Hm. destruct Hj as [n Hj]. apply (map_filter_lookup_None_2 (M := gmap N)) in Hj' || idtac.
    assert (filter (fun p : N * node => p.1 ∈ m.1) (nodes s) !! j = Some n) as HH; [|congruence].
    by apply map_filter_lookup_Some.
  - intros k f g r Hc. destruct (wf_cache _ W' _ _ _ _ Hc) as (?&?&?&_). split_and!; try done.
    unfold gc in E. destruct (gc_marks s rs) as [m|] eqn:Em; [|done]. injection E as <- <-. cbn in Hc.
    by apply map_filter_lookup_Some in Hc as [? _].
Qed.

(** C09 *)
Lemma thm_reorder s rs ps : reached s rs -> (forall k, k ∈ ps -> (S k < length (ord s))%nat) ->
  exists s', gc_reorder s rs ps = Some s' /\ reached s' rs /\ kept s s' rs /\
    rev_of s' = foldl exch (rev_of s) ps /\ (forall v, v < nvars s -> rev_of s' !! N.to_nat (ORDER s' v) = Some v).
Proof.
  intros R Hps. destruct (reached_WF s rs R) as [W L].
  destruct (gc_reorder_spec s rs ps W L Hps) as (s'&E&W'&Hvn&_&Hrev&Hr). exists s'. split_and!; [done| | |done|].
  - apply (reached_step s rs (CReorder ps) s' rs c_tag); try done. cbn.
    assert (filter (fun k => (S k < length (ord s))%nat) ps = ps) as ->; [|by rewrite E].
    clear -Hps. induction ps as [|p ps IH]; [done|]. rewrite filter_cons. case_decide as Hd.
    + f_equal. apply IH. intros k Hk. apply Hps. by right.
    + exfalso. apply Hd, Hps. by left.
  - intros f Hf E0. destruct (Hr f Hf) as [_ Hs]. unfold den. rewrite Hs. f_equal. unfold env_of. by rewrite Hvn.
  - destruct (rev_of_ok s' W') as [_ Hk]. intros v Hv. apply Hk. pose proof (wf_len _ W) as A1. pose proof (wf_len _ W') as A2.
    unfold nvars in *. rewrite Hvn in A2. lia.
Qed.

(** C10 *)
Lemma thm_save_load s1 rs1 s2 rs2 fs : reached s1 rs1 -> reached s2 rs2 -> (forall f, f ∈ fs -> f ∈ rs1) ->
  exists file, Save_BDDs fs s1 = Some file /\
  exists gs s2', Load_BDDs file s2 = Some (gs, s2') /\ kept s2 s2' rs2 /\
    Forall2 (fun g f => forall E, den s2' g E = den s1 f E) gs fs.
Proof.
  intros R1 R2 Hfs. destruct (reached_WF s1 rs1 R1) as [W1 L1]. destruct (reached_WF s2 rs2 R2) as [W2 L2].
  destruct (Save_Load s1 s2 fs W1) as (file&E&gs&s2'&El&W'&X&_&HD); [by apply Forall_forall; auto|done|].
  exists file. split; [done|]. exists gs, s2'. split_and!; [done|by apply ext_kept|done].
Qed.
