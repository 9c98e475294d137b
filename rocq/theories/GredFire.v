(** * One primitive *)

From Coq Require Import String List Bool Arith ZArith Lia.
From Verif Require Import GredModel GredSpec GredConf GredFail GredHeap GredParts.
Import ListNotations.
Open Scope list_scope.
Open Scope nat_scope.

Lemma tsize_apps_le t ts : tsize t <= tsize (apps t ts).
Proof.
  revert t. induction ts as [|u ts IH]; intros t; [constructor|].
  change (apps t (u :: ts)) with (apps (TApp t u) ts).
  specialize (IH (TApp t u)). cbn in IH. lia.
Qed.

Lemma tsize_apps ts u t : In u ts -> tsize u < tsize (apps t ts).
Proof.
  revert t. induction ts as [|v ts IH]; intros t; [contradiction|].
  change (apps t (v :: ts)) with (apps (TApp t v) ts). intros [->|H]; [|auto].
  pose proof (tsize_apps_le (TApp t u) ts). cbn in H. lia.
Qed.

Lemma wsteps_apps ts ts' : Forall2 wsteps ts ts' -> forall t t', wsteps t t' ->
  wsteps (apps t ts) (apps t' ts').
Proof.
  induction 1; intros t t' W; [exact W|].
  apply (IHForall2 (TApp t x) (TApp t' y)). now apply wsteps_app.
Qed.

Lemma Forall2_in_l {A B} (P : A -> B -> Prop) l l' x :
  Forall2 P l l' -> In x l -> exists y, In y l' /\ P x y.
Proof.
  induction 1; intros [].
  - subst. exists y. split; [now left|assumption].
  - destruct IHForall2 as (z & I & Q); [assumption|]. exists z. split; [now right|assumption].
Qed.

Section Fire.
Variable s : nat -> bool.
Notation tree := (tree s).
Notation good := (good s).
Notation run := (run s).
Notation tnode := (tnode s).
Notation ev_ok := (ev_ok s).

Lemma trees_fun h al ts ts' :
  Forall2 (tree h) al ts -> Forall2 (tree h) al ts' -> ts = ts'.
Proof.
  intros A. revert ts'. induction A; intros ts' B; inversion B; subst; [reflexivity|].
  f_equal; [eapply tree_fun; eassumption|auto].
Qed.

(** ** A redex *)

Definition spn (R : addr -> Prop) (h : heap) (root : addr) (p : prim)
    (sp al : list addr) (ts : list tm) : Prop :=
  good h R /\ dec R /\ R (bottom sp root) /\ get h root = Some (Prm p) /\
  length sp = arity p /\ chain h root sp al /\ Forall2 (tree h) al ts.

(** What can be reached from the arguments. *)
Definition argR (h : heap) (al : list addr) (x : addr) : Prop :=
  exists a, In a al /\ reach h a x.

Lemma chain_R h (R : addr -> Prop) : closed h R -> forall sp root al,
  chain h root sp al -> R (bottom sp root) ->
  R root /\ (forall x, In x sp -> R x) /\ (forall x, In x al -> R x).
Proof.
  intros C. induction sp as [|b sp IH]; intros root al CH B; destruct al as [|a al];
    try contradiction.
  - split; [exact B|]. split; intros x [].
  - destruct CH as [G CH]. rewrite bottom_cons in B.
    destruct (IH _ _ CH B) as (X & Y & Z1).
    split; [eapply C; [exact X|exact G|cbn; auto]|]. split.
    + intros x [<-|H]; auto.
    + intros x [<-|H]; auto. eapply C; [exact X|exact G|cbn; auto].
Qed.

Lemma spn_tree R h root p sp al ts :
  spn R h root p sp al ts -> tree h (bottom sp root) (apps (TPrm p) ts).
Proof.
  intros (G & D & B & GR & L & CH & F).
  destruct (good_tree _ _ _ _ G B) as (t & T).
  destruct (chain_tree s h sp root al (TPrm p) CH (tree_prm _ _ _ _ GR) t T) as (ts' & F' & ->).
  now rewrite (trees_fun _ _ _ _ F F').
Qed.

Lemma spn_can_fail R h root p sp al ts :
  spn R h root p sp al ts -> can_fail (apps (TPrm p) ts) = true.
Proof.
  intros (G & D & B & GR & L & CH & F).
  assert (LT : length ts = arity p).
  { rewrite <- (Forall2_len _ _ _ F), <- L. clear -CH. revert root al CH.
    induction sp; intros root [|x al]; cbn; try contradiction; auto.
    intros [_ CH]. f_equal. eauto. }
  assert (NP : partial (apps (TPrm p) ts) = false).
  { unfold partial. rewrite spine_prim. apply Nat.ltb_ge. lia. }
  pose proof (spine_prim p ts) as SP.
  unfold can_fail. destruct (apps (TPrm p) ts) eqn:E; try discriminate SP.
  - now rewrite NP.
  - exfalso. cbn in SP. injection SP as _ SP. subst ts. pose proof (arity_pos p).
    cbn in LT. lia.
Qed.

Lemma spn_args R h root p sp al ts : spn R h root p sp al ts ->
  good h (argR h al) /\ dec (argR h al) /\ (forall x, argR h al x -> R x) /\
  ~ argR h al (bottom sp root) /\ (forall a, In a al -> argR h al a).
Proof.
  intros SP. pose proof (spn_tree _ _ _ _ _ _ _ SP) as TR.
  destruct SP as (G & D & B & GR & L & CH & F).
  destruct (chain_R _ _ (proj1 G) _ _ _ CH B) as (RR & RS & RA).
  assert (SUB : forall x, argR h al x -> R x).
  { intros x (a & A & X). eapply reach_least; [apply G|apply RA; exact A|exact X]. }
  split; [|split; [|split; [|split]]].
  - eapply good_weaken; [exact G| |exact SUB].
    intros x n y (a & A & X) E C. exists a. split; [exact A|].
    eapply reach_child; eassumption.
  - intros x. clear -F. induction F as [|a t al ts T F IH].
    + right. intros (a & [] & _).
    + destruct (reach_dec s _ _ _ x T) as [Y|N].
      * left. exists a. split; [now left|exact Y].
      * destruct IH as [(b & I & Y)|N2].
        -- left. exists b. split; [now right|exact Y].
        -- right. intros (b & [<-|I] & Y); [contradiction|]. apply N2. exists b. auto.
  - exact SUB.
  - intros (a & A & X). destruct (Forall2_in_l _ _ _ _ F A) as (t & I & T).
    destruct (tree_reach s _ _ _ X _ T) as (u & U & LE).
    rewrite (tree_fun s _ _ _ U _ TR) in LE.
    pose proof (tsize_apps ts t (TPrm p) I). lia.
  - intros a A. exists a. split; [exact A|constructor].
Qed.

(** ** The spine while arguments are evaluated *)

Lemma chain_partial h : forall sp root al ts tr p l,
  chain h root sp al -> Forall2 (tree h) al ts -> tree h root tr ->
  spine tr [] = Some (p, l) -> length l + length sp <= arity p ->
  forall x, In x sp -> x = bottom sp root \/ exists t, tree h x t /\ partial t = true.
Proof.
  induction sp as [|b sp IH]; intros root al ts tr p l CH F T S1 L x X; [contradiction|].
  destruct al as [|a al]; [contradiction|]. destruct CH as [G CH].
  inversion F as [|? ta ? ts' TA F']; subst.
  assert (TB : tree h b (TApp tr ta)) by (eapply tree_app; eassumption).
  assert (SB : spine (TApp tr ta) [] = Some (p, l ++ [ta])) by exact (spine_ext _ [] [ta] _ _ S1).
  rewrite bottom_cons. destruct X as [<-|X].
  - destruct sp as [|c sp]; [left; reflexivity|]. right. exists (TApp tr ta).
    split; [exact TB|]. unfold partial. rewrite SB. apply Nat.ltb_lt.
    rewrite app_length. cbn in *. lia.
  - eapply IH; try eassumption. rewrite app_length. cbn in *. lia.
Qed.

Lemma chain_ext h h' : forall sp root al, chain h root sp al ->
  (forall x, In x sp -> get h' x = get h x) -> chain h' root sp al.
Proof.
  induction sp as [|b sp IH]; intros root al CH E; destruct al as [|a al]; try contradiction; auto.
  destruct CH as [G CH]. split.
  - rewrite E; [exact G|now left].
  - apply IH; [exact CH|]. intros x X. apply E. now right.
Qed.

Lemma run_get (Q : addr -> Prop) h h1 x t : run Q h h1 -> dec Q -> tree h x t ->
  (Q x -> partial t = true) -> get h1 x = get h x.
Proof.
  intros U D T P. destruct (D x) as [Y|N].
  - exact (run_papp _ _ _ _ U x t Y T (P Y)).
  - unfold get. rewrite (run_out _ _ _ _ U); auto. eapply tree_lt; exact T.
Qed.

Lemma trees_run (Q : addr -> Prop) h h1 al ts : run Q h h1 -> (forall a, In a al -> Q a) ->
  Forall2 (tree h) al ts ->
  exists ts1, Forall2 (tree h1) al ts1 /\ Forall2 wsteps ts ts1.
Proof.
  intros U A F. induction F as [|a t al ts T F IH].
  - exists []. split; constructor.
  - destruct IH as (ts1 & F1 & W1); [intros b I; apply A; now right|].
    destruct (run_red _ _ _ _ U a t (A _ (or_introl eq_refl)) T) as (t1 & T1 & S1).
    exists (t1 :: ts1). split; constructor; assumption.
Qed.

Lemma spn_run R h root p sp al ts h1 :
  spn R h root p sp al ts -> run (argR h al) h h1 ->
  run R h h1 /\ exists ts1, spn (ext R h h1) h1 root p sp al ts1 /\ Forall2 wsteps ts ts1.
Proof.
  intros SP U. destruct (spn_args _ _ _ _ _ _ _ SP) as (GQ & DQ & SUB & NQ & AQ).
  pose proof SP as (G & D & B & GR & L & CH & F).
  assert (UR : run R h h1) by (eapply run_weaken; eassumption).
  split; [exact UR|].
  destruct (trees_run _ _ _ _ _ U AQ F) as (ts1 & F1 & W1).
  exists ts1. split; [|exact W1].
  assert (TR : tree h root (TPrm p)) by now apply tree_prm.
  split; [exact (run_good _ _ _ _ UR)|]. split; [now apply ext_dec|].
  split; [now left|]. split; [|split; [exact L|split; [|exact F1]]].
  - rewrite (run_get _ _ _ _ _ U DQ TR); [exact GR|]. intros _.
    destruct p; reflexivity.
  - eapply chain_ext; [exact CH|]. intros x X.
    destruct (chain_R _ _ (proj1 G) _ _ _ CH B) as (_ & RS & _).
    destruct (good_tree _ _ _ _ G (RS _ X)) as (t & T).
    apply (run_get _ _ _ _ _ U DQ T). intros QX.
    assert (LE : length (@nil tm) + length sp <= arity p) by (cbn; lia).
    destruct (chain_partial h sp root al ts (TPrm p) p [] CH F TR eq_refl LE x X)
      as [->|(t' & T' & P')]; [contradiction|].
    now rewrite (tree_fun s _ _ _ T _ T').
Qed.

Lemma spn_eval R h root p sp al ts ev a h1 r :
  spn R h root p sp al ts -> ev_ok ev -> In a al -> ev h a = Ret h1 r ->
  r = a /\ run (argR h al) h h1 /\ run R h h1 /\
  (exists t, tree h1 a t /\ wh t = true) /\
  exists ts1, spn (ext R h h1) h1 root p sp al ts1 /\ Forall2 wsteps ts ts1.
Proof.
  intros SP OK A E. destruct (spn_args _ _ _ _ _ _ _ SP) as (GQ & DQ & SUB & NQ & AQ).
  destruct (OK _ _ _ _ _ GQ DQ (AQ _ A) E) as (-> & U & T).
  destruct (spn_run _ _ _ _ _ _ _ _ SP U) as (UR & X).
  auto 6.
Qed.

Lemma ev_more (Q : addr -> Prop) h1 h2 ev a h3 r :
  run Q h1 h2 -> dec Q -> ev_ok ev -> ext Q h1 h2 a -> ev h2 a = Ret h3 r ->
  r = a /\ run Q h1 h3 /\ run (ext Q h1 h2) h2 h3 /\ exists t, tree h3 a t /\ wh t = true.
Proof.
  intros U D OK A E.
  destruct (OK _ _ _ _ _ (run_good _ _ _ _ U) (ext_dec s _ _ _ D) A E) as (-> & V & T).
  split; [reflexivity|]. split; [eapply run_trans; eassumption|]. auto.
Qed.

(** ** Writing the redex *)

Lemma spn_set R h root p sp al ts h2 n tn :
  spn R h root p sp al ts -> run (argR h al) h h2 -> tnode h2 n tn ->
  (forall y, child n y -> ext (argR h al) h h2 y) ->
  wsteps (apps (TPrm p) ts) tn -> run R h (set_nd h2 (bottom sp root) n).
Proof.
  intros SP U T C W. destruct (spn_args _ _ _ _ _ _ _ SP) as (GQ & DQ & SUB & NQ & AQ).
  pose proof (spn_tree _ _ _ _ _ _ _ SP) as TR.
  pose proof (spn_can_fail _ _ _ _ _ _ _ SP) as CF.
  destruct SP as (G & D & B & GR & L & CH & F).
  eapply run_eval_set; eassumption.
Qed.

Lemma spn_here R h root p sp al ts : spn R h root p sp al ts -> run (argR h al) h h.
Proof. intros SP. apply run_refl. apply (spn_args _ _ _ _ _ _ _ SP). Qed.

Lemma spn_fail R h root p sp al ts m :
  spn R h root p sp al ts -> run R h (set_nd h (bottom sp root) (Fail m)).
Proof.
  intros SP. pose proof (spn_can_fail _ _ _ _ _ _ _ SP) as CF.
  eapply (spn_set R h root p sp al ts h (Fail m) (TFail m)); auto.
  - exact (spn_here _ _ _ _ _ _ _ SP).
  - exact eq_refl.
  - cbn. contradiction.
  - apply wsteps_one, ws_fail, CF.
Qed.

(** By a copy of another node. *)
Lemma spn_copy R h root p sp al ts h2 x tx :
  spn R h root p sp al ts -> run (argR h al) h h2 -> ext (argR h al) h h2 x ->
  tree h2 x tx -> wsteps (apps (TPrm p) ts) tx ->
  run R h (overwrite h2 (bottom sp root) x).
Proof.
  intros SP U X T W. destruct (tree_get _ _ _ _ T) as (n & G).
  unfold overwrite. rewrite G. eapply spn_set; try eassumption.
  - apply (tree_node _ _ _ _ _ G). exact T.
  - intros y C. destruct (run_good _ _ _ _ U) as [CL _]. eapply CL; eassumption.
Qed.

(** By a copy of a failure. *)
Lemma spn_copy_fail R h root p sp al ts h2 x :
  spn R h root p sp al ts -> run (argR h al) h h2 -> is_fail h2 x = true ->
  run R h (overwrite h2 (bottom sp root) x).
Proof.
  intros SP U FX. destruct (is_fail_get _ _ FX) as (m & G).
  rewrite (overwrite_fail _ _ _ _ G). eapply spn_set; try eassumption.
  - exact eq_refl.
  - cbn. contradiction.
  - apply wsteps_one, ws_fail. exact (spn_can_fail _ _ _ _ _ _ _ SP).
Qed.

(** After the redex has been put in disorder and a branch evaluated. *)
Lemma spn_frame R h root p sp al ts bad ev a h2 r :
  spn R h root p sp al ts -> ev_ok ev -> In a al ->
  ev (set_nd h (bottom sp root) bad) a = Ret h2 r ->
  (forall t t', tree h a t -> wsteps t t' -> wsteps (apps (TPrm p) ts) t') ->
  r = a /\ run R h (overwrite h2 (bottom sp root) a).
Proof.
  intros SP OK A E W. destruct (spn_args _ _ _ _ _ _ _ SP) as (GQ & DQ & SUB & NQ & AQ).
  pose proof (spn_tree _ _ _ _ _ _ _ SP) as TR.
  destruct (tree_get _ _ _ _ TR) as (old & GO).
  destruct (OK _ _ _ _ _ (good_frame s _ _ _ bad GQ NQ) DQ (AQ _ A) E) as (-> & U & _).
  split; [reflexivity|].
  pose proof (run_frame s _ _ _ _ _ _ GQ NQ GO U) as U2.
  destruct (Forall2_in_l _ _ _ _ (proj2 (proj2 (proj2 (proj2 (proj2 (proj2 SP)))))) A) as (t & _ & T).
  destruct (run_red _ _ _ _ U2 a t (AQ _ A) T) as (t' & T' & S').
  destruct (tree_get _ _ _ _ T') as (n & G).
  assert (NE : bottom sp root <> a) by (intros Q; apply NQ; rewrite Q; auto).
  assert (G2 : get h2 a = Some n) by (rewrite get_set_other in G; auto).
  unfold overwrite. rewrite G2.
  rewrite <- (upd_upd h2 (bottom sp root) old n).
  eapply spn_set; try eassumption.
  - apply (tree_node _ _ _ _ _ G). exact T'.
  - intros y C. destruct (run_good _ _ _ _ U2) as [CL _]. eapply CL; try eassumption.
    left. auto.
  - eauto.
Qed.

End Fire.
