(** * The loop, and what it means for a whole run *)

From Coq Require Import String List Bool Arith ZArith Lia.
From Verif Require Import GredModel GredSpec GredConf GredFail GredHeap GredParts GredFire GredThms.
Import ListNotations.
Open Scope list_scope.
Open Scope nat_scope.

Section Loop.
Variable s : nat -> bool.
Notation tree := (tree s).
Notation good := (good s).
Notation run := (run s).
Notation ev_ok := (ev_ok s).

Lemma bottom_app sp rest : forall root, bottom (sp ++ rest) root = bottom rest (bottom sp root).
Proof.
  induction sp as [|a sp IH]; intros root; [reflexivity|].
  cbn [app]. rewrite !bottom_cons. apply IH.
Qed.

Lemma chain_split h sp rest : forall root al, chain h root (sp ++ rest) al ->
  exists al1 al2, al = al1 ++ al2 /\ chain h root sp al1 /\ chain h (bottom sp root) rest al2.
Proof.
  induction sp as [|a sp IH]; intros root al CH.
  - exists [], al. cbn. auto.
  - destruct al as [|x al]; [contradiction|]. destruct CH as [G CH].
    destruct (IH _ _ CH) as (al1 & al2 & -> & C1 & C2).
    exists (x :: al1), al2. rewrite bottom_cons. cbn. auto.
Qed.

Lemma trees_exist h (R : addr -> Prop) al : good h R -> (forall a, In a al -> R a) ->
  exists ts, Forall2 (tree h) al ts.
Proof.
  intros G. induction al as [|a al IH]; intros A; [exists []; constructor|].
  destruct IH as (ts & F); [intros b B; apply A; now right|].
  destruct (good_tree _ _ _ _ G (A _ (or_introl eq_refl))) as (t & T).
  exists (t :: ts). constructor; assumption.
Qed.

(** The nodes above a node are larger. *)
Lemma chain_above h (R : addr -> Prop) : good h R -> forall sp root al t, chain h root sp al ->
  R (bottom sp root) -> tree h root t ->
  forall x, In x sp -> exists u, tree h x u /\ tsize t < tsize u.
Proof.
  intros G. induction sp as [|b sp IH]; intros root al t CH B T x X; [contradiction|].
  destruct al as [|a al]; [contradiction|]. destruct CH as [GB CH]. rewrite bottom_cons in B.
  destruct (chain_R _ _ (proj1 G) _ _ _ CH B) as (RB & _ & _).
  destruct (good_tree _ _ _ _ G RB) as (u & U).
  destruct (tree_child s _ _ _ _ root U GB) as (v & V & LT); [now left|].
  rewrite (tree_fun s _ _ _ V _ T) in LT.
  destruct X as [<-|X]; [eauto|].
  destruct (IH _ _ _ CH B U x X) as (w & W & LT2). exists w. split; [exact W|lia].
Qed.

Lemma spine_fail ts m : spine (apps (TFail m) ts) [] = None.
Proof.
  assert (H : forall t, (forall l, spine t l = None) -> spine (apps t ts) [] = None).
  { induction ts as [|u ts IH]; intros t N; [apply N|].
    change (apps t (u :: ts)) with (apps (TApp t u) ts). apply IH. intros l. cbn. apply N. }
  apply H. reflexivity.
Qed.

Lemma go_ok fuel : forall c R h root sp al h' r,
  good h R -> dec R -> R (bottom sp root) -> chain h root sp al ->
  go fuel (Watch s) c h root sp = Ret h' r ->
  r = bottom sp root /\ run R h h' /\ exists t, tree h' r t /\ wh t = true.
Proof.
  induction fuel as [|fuel IH]; intros c R h root sp al h' r G D B CH E; [discriminate E|].
  cbn [go] in E.
  destruct (chain_R _ _ (proj1 G) _ _ _ CH B) as (RR & RS & RA).
  destruct (good_tree _ _ _ _ G RR) as (tr & TR).
  destruct (good_tree _ _ _ _ G B) as (tb & TB).
  destruct (chain_tree s h sp root al tr CH TR tb TB) as (ts & F & ->).
  destruct (get h root) as [n|] eqn:GN; [|discriminate E].
  assert (LEAF : match sp with [] => Ret h root | _ => Die end = Ret h' r -> wh tr = true ->
            r = bottom sp root /\ run R h h' /\ exists t, tree h' r t /\ wh t = true).
  { intros EE W. destruct sp; [|discriminate EE]. injection EE as <- <-.
    split; [reflexivity|]. split; [now apply run_refl|]. eauto. }
  pose proof (proj1 (tree_node _ _ _ _ _ GN) TR) as N.
  destruct n.
  - rewrite <- (bottom_cons root sp l).
    refine (IH c R h l (root :: sp) (r0 :: al) h' r G D _ (conj GN CH) E).
    now rewrite bottom_cons.
  - destruct N as (? & ? & -> & _). apply LEAF; [exact E|reflexivity].
  - cbn in N. subst. apply LEAF; [exact E|reflexivity].
  - cbn in N. subst. apply LEAF; [exact E|reflexivity].
  - cbn in N. subst. apply LEAF; [exact E|reflexivity].
  - cbn in N. subst. apply LEAF; [exact E|reflexivity].
  - cbn in N. subst tr. destruct (length sp <? arity p) eqn:LS.
    + injection E as <- <-. split; [reflexivity|]. split; [now apply run_refl|].
      exists (apps (TPrm p) ts). split; [exact TB|]. apply partial_wh.
      unfold partial. rewrite spine_prim, <- (Forall2_len _ _ _ F).
      replace (length al) with (length sp); [exact LS|].
      clear -CH. revert root al CH. induction sp; intros root [|y al]; cbn; try contradiction; auto.
      intros [_ CH]. f_equal. eauto.
    + apply Nat.ltb_ge in LS. apply bind_inv in E. destruct E as (h1 & redex & EF & E).
      set (sp0 := firstn (arity p) sp) in *. set (rest := skipn (arity p) sp) in *.
      assert (SPE : sp = sp0 ++ rest) by (symmetry; apply firstn_skipn).
      rewrite SPE in CH, B, EF. rewrite SPE, bottom_app. rewrite bottom_app in B.
      destruct (chain_split _ _ _ _ _ CH) as (al1 & al2 & -> & C1 & C2).
      destruct (chain_R _ _ (proj1 G) _ _ _ C2 B) as (RX & _ & _).
      set (rx := bottom sp0 root) in *.
      destruct (good_reach s _ _ _ G RX) as (G0 & D0).
      assert (BX : reach h rx (bottom sp0 root)) by constructor.
      destruct (chain_R _ _ (proj1 G0) _ _ _ C1 BX) as (_ & _ & RA0).
      destruct (trees_exist _ _ _ G0 RA0) as (ts0 & F0).
      assert (SP : spn s (reach h rx) h root p sp0 al1 ts0).
      { split; [exact G0|]. split; [exact D0|]. split; [exact BX|]. split; [exact GN|].
        split; [|auto]. unfold sp0. rewrite firstn_length. lia. }
      assert (OK : forall c, ev_ok (fun h a => if is_forced h a then Ret h a
                                              else go fuel (Watch s) c h a [])).
      { intros c' Q g a g' q GQ DQ QA EQ. cbn in EQ. destruct (is_forced g a) eqn:FG.
        - injection EQ as <- <-. split; [reflexivity|]. split; [now apply run_refl|].
          destruct GQ as [_ GQ]. destruct (GQ _ QA) as (t & T & _ & W). eauto.
        - destruct (IH c' Q g a [] [] g' q GQ DQ QA Logic.I EQ) as (-> & U & T). auto. }
      destruct (fire_ok s p _ _ _ _ _ _ _ _ _ _ _ _ OK SP EF) as (-> & U0).
      fold rx in E |- *.
      assert (SUB : forall x, reach h rx x -> R x).
      { intros x X. eapply reach_least; [apply G|exact RX|exact X]. }
      assert (U : run R h h1) by (eapply run_weaken; eassumption).
      destruct (good_tree _ _ _ _ G RX) as (tx & TX).
      destruct (IH c (ext R h h1) h1 rx rest al2 h' r) as (-> & U2 & T2).
      * exact (run_good _ _ _ _ U).
      * now apply (ext_dec s).
      * now left.
      * eapply chain_ext; [exact C2|]. intros x X.
        destruct (chain_above _ _ G _ _ _ _ C2 B TX x X) as (u & TU & LT).
        unfold get. rewrite (run_out _ _ _ _ U0); auto.
        -- eapply tree_lt; exact TU.
        -- intros K. destruct (tree_reach s _ _ _ K _ TX) as (v & V & LE).
           rewrite (tree_fun s _ _ _ V _ TU) in LE. lia.
      * exact E.
      * split; [reflexivity|]. split; [eapply run_trans; eassumption|exact T2].
  - cbn in N. subst tr. destruct sp as [|b sp]; [apply LEAF; [exact E|reflexivity]|].
    injection E as <- <-. split; [reflexivity|].
    rewrite (overwrite_fail _ _ _ _ GN).
    assert (CF : can_fail (apps (TFail s0) ts) = true).
    { pose proof (spine_fail ts s0) as SF. destruct al as [|x al]; [contradiction|].
      inversion F as [|? t1 ? ts1 _ _]; subst.
      assert (P : partial (apps (TFail s0) (t1 :: ts1)) = false) by (unfold partial; now rewrite SF).
      assert (A : exists u v, apps (TFail s0) (t1 :: ts1) = TApp u v).
      { clear. cbn. generalize (TFail s0) at 1. revert t1.
        induction ts1 as [|w ts1 IH]; intros t1 t; cbn; [eauto|apply IH]. }
      destruct A as (u & v & A). unfold can_fail. rewrite A in *. now rewrite P. }
    split.
    + eapply run_fail; eassumption.
    + exists (TFail s0). split; [|reflexivity].
      destruct (tree_get _ _ _ _ TB) as (k & GK).
      apply (tree_node _ _ _ (Fail s0)); [eapply get_set_same; exact GK|exact eq_refl].
Qed.

Lemma traverse_ok fuel c : ev_ok (traverse_left fuel (Watch s) c).
Proof.
  intros R h a h' r G D A E. unfold traverse_left in E. destruct (is_forced h a) eqn:F.
  - injection E as <- <-. split; [reflexivity|]. split; [now apply run_refl|].
    destruct G as [_ G]. destruct (G _ A) as (t & T & _ & W). eauto.
  - destruct (go_ok fuel c R h a [] [] h' r G D A Logic.I E) as (-> & U & T). auto.
Qed.

Lemma force_top_ok fuel : ev_ok (force_top fuel (Watch s)).
Proof. unfold force_top. apply force_ok, traverse_ok. Qed.

End Loop.

(** ** Watching a run changes nothing unless it is cut off *)

Definition agree (x y : res) : Prop := x = Cut \/ x = y.

Lemma agree_refl x : agree x x.
Proof. now right. Qed.

Lemma agree_bind x y k k' : agree x y -> (forall h a, agree (k h a) (k' h a)) ->
  agree (bind x k) (bind y k').
Proof.
  intros [->| ->] K; [now left|]. destruct y; cbn; try apply agree_refl. apply K.
Qed.

Lemma agree_arg h a k k' : (forall x, agree (k x) (k' x)) ->
  agree (with_arg h a k) (with_arg h a k').
Proof. unfold with_arg. destruct (right_of h a); auto using agree_refl. Qed.

Lemma agree_bool h a k k' : (forall x, agree (k x) (k' x)) ->
  agree (with_bool h a k) (with_bool h a k').
Proof. unfold with_bool. destruct (get h a) as [[]|]; auto using agree_refl. Qed.

Lemma agree_force_loop ev ev' : (forall h a, agree (ev h a) (ev' h a)) ->
  forall fuel h a todo, agree (force_loop ev fuel h a todo) (force_loop ev' fuel h a todo).
Proof.
  intros A. induction fuel; intros h a todo; [apply agree_refl|]. cbn.
  destruct todo as [|cur todo]; [apply agree_refl|].
  destruct (is_forced h cur); [apply IHfuel|].
  apply agree_bind; [apply A|]. intros h1 c1. destruct (is_fail h1 c1); [apply agree_refl|].
  destruct (get (make_forced h1 c1) c1) as [[]|]; apply IHfuel.
Qed.

Lemma agree_force ev ev' fuel : (forall h a, agree (ev h a) (ev' h a)) ->
  forall h a, agree (force ev fuel h a) (force ev' fuel h a).
Proof.
  intros A h a. unfold force. destruct (is_forced h a); [apply agree_refl|].
  now apply agree_force_loop.
Qed.

Ltac agr :=
  repeat (intros;
    match goal with
    | |- agree ?x ?x => apply agree_refl
    | |- agree Cut _ => now left
    | |- agree (bind _ _) (bind _ _) => apply agree_bind
    | |- agree (with_arg _ _ _) (with_arg _ _ _) => apply agree_arg
    | |- agree (with_bool _ _ _) (with_bool _ _ _) => apply agree_bool
    | |- agree (force _ _ _ _) (force _ _ _ _) => apply agree_force
    | |- agree (if ?b then _ else _) (if ?b then _ else _) => destruct b
    | |- agree (match ?b with _ => _ end) (match ?b with _ => _ end) => destruct b
    | H : forall c h a, agree _ _ |- _ => apply H
    end).

Lemma agree_fire s tl tl' fuel c p h sp :
  (forall c h a, agree (tl c h a) (tl' c h a)) ->
  agree (fire (Watch s) tl fuel c p h sp) (fire Code tl' fuel c p h sp).
Proof.
  intros A. unfold fire. destruct p; try (solve [unfold select; agr]).
  (* the conditional *)
  apply agree_arg; intros a1. apply agree_bind; [apply A|]. intros h1 b1.
  destruct (is_fail h1 b1); [apply agree_refl|].
  apply agree_arg; intros a2. apply agree_arg; intros a3. apply agree_bool; intros b.
  cbn [allowed].
  destruct (feq b FOne); [solve [agr]|]. destruct (feq b FZero); [solve [agr]|].
  destruct (feq (FAnd c b) FZero).
  { destruct (sem s c); [solve [agr]|now left]. }
  destruct (feq (FAnd c (FNot b)) FZero).
  { destruct (sem s c); [solve [agr]|now left]. }
  agr.
Qed.

Lemma agree_go s fuel : forall c h root sp,
  agree (go fuel (Watch s) c h root sp) (go fuel Code c h root sp).
Proof.
  induction fuel as [|fuel IH]; intros c h root sp; [apply agree_refl|]. cbn [go].
  destruct (get h root) as [[]|]; try apply agree_refl; [apply IH|].
  destruct (length sp <? arity p); [apply agree_refl|].
  apply agree_bind; [|intros; apply IH]. apply agree_fire.
  intros c' g a. destruct (is_forced g a); [apply agree_refl|apply IH].
Qed.

Lemma agree_top s fuel h a : agree (force_top fuel (Watch s) h a) (force_top fuel Code h a).
Proof.
  unfold force_top. apply agree_force. intros g b. unfold traverse_left.
  destruct (is_forced g b); [apply agree_refl|apply agree_go].
Qed.

(** ** Programs without variables *)

Definition no_vars (h : heap) : Prop := forall a f, get h a = Some (Bool f) -> fvars f = [].

(** Never cut off, and no variables afterwards. *)
Definition calm (x : res) : Prop :=
  match x with Ret h _ => no_vars h | Cut => False | _ => True end.

Definition calm_ev (ev : heap -> addr -> res) : Prop := forall h a, no_vars h -> calm (ev h a).

Lemma calm_bind x k : calm x -> (forall h a, no_vars h -> calm (k h a)) -> calm (bind x k).
Proof. destruct x; cbn; auto; contradiction. Qed.

Lemma calm_arg h a k : (forall x, calm (k x)) -> calm (with_arg h a k).
Proof. unfold with_arg. destruct (right_of h a); cbn; auto. Qed.

Lemma calm_bool h a k : no_vars h -> (forall f, fvars f = [] -> calm (k f)) -> calm (with_bool h a k).
Proof.
  intros N K. unfold with_bool. destruct (get h a) as [[]|] eqn:G; cbn; auto.
  apply K. eapply N; exact G.
Qed.

Definition node_calm (n : node) : Prop := match n with Bool f => fvars f = [] | _ => True end.

Lemma get_set_cases h a b n m : get (set_nd h a n) b = Some m ->
  (a = b /\ m = n) \/ get h b = Some m.
Proof.
  destruct (Nat.eq_dec a b) as [->|N].
  - destruct (get h b) as [k|] eqn:G.
    + rewrite (get_set_same _ _ _ _ G). intros Q. injection Q as <-. auto.
    + unfold get, set_nd in *. rewrite upd_same. destruct (nth_error h b); discriminate.
  - rewrite get_set_other by exact N. auto.
Qed.

Lemma no_vars_set h a n : no_vars h -> node_calm n -> no_vars (set_nd h a n).
Proof.
  intros N C b f G. destruct (get_set_cases _ _ _ _ _ G) as [[_ Q]|Q].
  - subst n. exact C.
  - eapply N; exact Q.
Qed.

Lemma no_vars_get h a n : no_vars h -> get h a = Some n -> node_calm n.
Proof. intros N G. destruct n; cbn; auto. eapply N; exact G. Qed.

Lemma no_vars_overwrite h a b : no_vars h -> no_vars (overwrite h a b).
Proof.
  intros N. unfold overwrite. destruct (get h b) eqn:G; auto.
  apply no_vars_set; [exact N|]. eapply no_vars_get; eassumption.
Qed.

Lemma no_vars_make h a : no_vars h -> no_vars (make_forced h a).
Proof. intros N b f G. rewrite get_make in G. eapply N; exact G. Qed.

Lemma no_vars_alloc h n : no_vars h -> node_calm n -> no_vars (h ++ [mk_cell false n]).
Proof.
  intros N C b f G. unfold get in G.
  destruct (lt_dec b (length h)).
  - rewrite nth_error_app1 in G by assumption. apply (N b f). exact G.
  - rewrite nth_error_app2 in G by lia. destruct (b - length h) as [|k]; cbn in G.
    + injection G as ->. exact C.
    + destruct k; discriminate G.
Qed.

Lemma calm_force_loop ev : calm_ev ev -> forall fuel h a todo,
  no_vars h -> calm (force_loop ev fuel h a todo).
Proof.
  intros A. induction fuel; intros h a todo N; [exact Logic.I|]. cbn.
  destruct todo as [|cur todo]; [exact N|].
  destruct (is_forced h cur); [now apply IHfuel|].
  apply calm_bind; [now apply A|]. intros h1 c1 N1.
  destruct (is_fail h1 c1); [now apply no_vars_overwrite|].
  pose proof (no_vars_make _ c1 N1).
  destruct (get (make_forced h1 c1) c1) as [[]|]; now apply IHfuel.
Qed.

Lemma calm_force ev fuel : calm_ev ev -> calm_ev (force ev fuel).
Proof.
  intros A h a N. unfold force. destruct (is_forced h a); [exact N|].
  now apply calm_force_loop.
Qed.

Lemma feq_no_vars f : fvars f = [] -> feq f FOne = true \/ feq f FZero = true.
Proof.
  intros V. unfold feq. rewrite !V. cbn.
  destruct (sem (fun n => existsb (Nat.eqb n) []) f) eqn:E; cbn in E; rewrite E; auto.
Qed.

Ltac clm :=
  repeat (intros;
    match goal with
    | |- calm (bind _ _) => apply calm_bind
    | |- calm (with_arg _ _ _) => apply calm_arg
    | |- calm (with_bool _ _ _) => apply calm_bool
    | |- calm (if ?b then _ else _) => destruct b
    | |- calm (force _ _ _ _) => apply calm_force
    | |- calm_ev (?f _) => solve [auto]
    | |- calm (match ?b with _ => _ end) => destruct b
    | |- calm (Ret (overwrite _ _ _) _) => apply no_vars_overwrite
    | |- calm (Ret (set_nd _ _ _) _) => apply no_vars_set
    | |- calm (Ret _ _) => assumption
    | |- calm Die => exact Logic.I
    | |- calm (Stop _) => exact Logic.I
    | |- no_vars (set_nd _ _ _) => apply no_vars_set
    | |- no_vars (_ ++ [_]) => apply no_vars_alloc
    | |- no_vars _ => assumption
    | |- node_calm (Bool _) => cbn
    | |- node_calm _ => exact Logic.I
    | H : forall c, calm_ev (?f c) |- calm (?f _ _ _) => apply H
    | |- fvars (if ?b then _ else _) = _ => destruct b
    | |- _ = _ => cbn; solve [reflexivity | congruence | 
        repeat match goal with H : fvars _ = [] |- _ => rewrite H end; reflexivity]
    end).

Lemma calm_fire m tl fuel c p h sp :
  (forall c, calm_ev (tl c)) -> no_vars h -> calm (fire m tl fuel c p h sp).
Proof.
  intros A N. unfold fire. destruct p; try (solve [unfold select, alloc; clm]).
  apply calm_arg; intros a1. apply calm_bind; [now apply A|]. intros h1 b1 N1.
  destruct (is_fail h1 b1); [now apply no_vars_overwrite|].
  apply calm_arg; intros a2. apply calm_arg; intros a3. apply calm_bool; [exact N1|].
  intros b V. destruct (feq_no_vars b V) as [Q|Q]; rewrite Q.
  - clm.
  - destruct (feq b FOne); clm.
Qed.

Lemma calm_go m fuel : forall c h root sp, no_vars h -> calm (go fuel m c h root sp).
Proof.
  induction fuel as [|fuel IH]; intros c h root sp N; [exact Logic.I|]. cbn [go].
  destruct (get h root) as [[]|]; try exact Logic.I; try (destruct sp; [exact N|exact Logic.I]).
  - now apply IH.
  - destruct (length sp <? arity p); [exact N|].
    apply calm_bind; [|intros; now apply IH]. apply calm_fire; [|exact N].
    intros c' g a NG. destruct (is_forced g a); [exact NG|now apply IH].
  - destruct sp; [exact N|]. now apply no_vars_overwrite.
Qed.

Lemma calm_top m fuel h a : no_vars h -> calm (force_top fuel m h a).
Proof.
  intros N. unfold force_top. apply calm_force; [|exact N].
  intros g b NG. unfold traverse_left. destruct (is_forced g b); [exact NG|now apply calm_go].
Qed.

(** ** Whole runs *)

(** All nodes of the heap stand for trees without [catch] and [NONE]. *)
Definition graph (s : nat -> bool) (h : heap) : Prop :=
  forall x, x < length h -> exists t, tree s h x t /\ plain t = true.

Lemma graph_good s h : fresh h -> graph s h -> good s h (fun x => x < length h).
Proof.
  intros F G. split.
  - intros x n y X E C. destruct (G _ X) as (t & T & _).
    destruct (tree_child s _ _ _ _ y T E C) as (u & U & _). eapply tree_lt; exact U.
  - intros x X. destruct (G _ X) as (t & T & P). exists t.
    split; [exact T|]. split; [exact P|]. rewrite F. discriminate.
Qed.

Theorem force_sound s fuel h a h' r :
  fresh h -> graph s h -> a < length h ->
  force_top fuel Code h a = Ret h' r -> force_top fuel (Watch s) h a <> Cut ->
  r = a /\
  (exists t', tree s h' a t' /\ (whnf t' = true \/ exists m, t' = TFail m)) /\
  forall x t, tree s h x t ->
    exists t', tree s h' x t' /\ (failfree t' = true -> steps t t').
Proof.
  intros F G A E NC.
  assert (EW : force_top fuel (Watch s) h a = Ret h' r).
  { destruct (agree_top s fuel h a) as [Q|Q]; [contradiction|congruence]. }
  assert (D : dec (fun x => x < length h)) by (intros x; destruct (lt_dec x (length h)); auto).
  destruct (force_top_ok s fuel _ _ _ _ _ (graph_good _ _ F G) D A EW) as (-> & U & t & T & W).
  split; [reflexivity|]. split.
  - exists t. split; [exact T|]. destruct t; cbn in W |- *; eauto.
  - intros x u TU. pose proof (tree_lt _ _ _ _ TU) as LX.
    destruct (run_red _ _ _ _ U x u LX TU) as (t' & T' & S').
    exists t'. split; [exact T'|]. now apply wsteps_failfree.
Qed.

(** The answer, when it is data, is the only one. *)
Theorem force_answer s fuel h a h' r t d :
  fresh h -> graph s h -> tree s h a t ->
  force_top fuel Code h a = Ret h' r -> force_top fuel (Watch s) h a <> Cut ->
  tree s h' r d -> data d = true ->
  steps t d /\ forall v, steps t v -> data v = true -> v = d.
Proof.
  intros F G T E NC TD DD.
  destruct (force_sound s fuel h a h' r F G (tree_lt _ _ _ _ T) E NC) as (-> & _ & K).
  destruct (K _ _ T) as (t' & T' & S').
  rewrite (tree_fun s _ _ _ T' _ TD) in S'.
  assert (FF : failfree d = true).
  { clear -DD. induction d; cbn in *; try discriminate; auto.
    apply andb_prop in DD. destruct DD. now rewrite IHd1, IHd2. }
  specialize (S' FF). split; [exact S'|].
  intros v SV DV. eapply data_unique; eassumption.
Qed.

Theorem concrete_never_cut s fuel h a :
  no_vars h -> force_top fuel (Watch s) h a <> Cut.
Proof. intros N C. pose proof (calm_top (Watch s) fuel h a N) as Q. now rewrite C in Q. Qed.
