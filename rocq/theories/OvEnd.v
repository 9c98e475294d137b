(* Overload resolution always ends. *)
From Coq Require Import String List Bool Arith Lia Relations Wellfounded.
From Verif Require Import TyModel TyThms InfModel InfSpec InfThms InfRun InfTop InfEnd
  OvModel OvSpec OvPath OvStore OvThms.
Import ListNotations.
Open Scope list_scope.

Lemma settled_then {A B} (m : nat -> M A) (k : nat -> A -> M B) s :
  settled (fun f => m f s) ->
  (forall a s1 f, m f s = ROk a s1 -> settled (fun f => k f a s1)) ->
  settled (fun f => bind (m f) (k f) s).
Proof.
  intros (F & o & No & E) K. destruct o as [a s1|s1| |]; [| | |congruence].
  - destruct (K a s1 F (E F (le_n _))) as (F2 & o & No2 & E2). exists (Nat.max F F2), o. split; [assumption|].
    intros f L. unfold bind. rewrite E by lia. apply E2. lia.
  - exists F, (RFail s1). split; [discriminate|]. intros f L. unfold bind. now rewrite E.
  - exists F, RCrash. split; [discriminate|]. intros f L. unfold bind. now rewrite E.
Qed.

(* ---- Type_eq ---- *)
Lemma eq_list_mono (e e' : nat -> nat -> option bool) : (forall a b x, e a b = Some x -> e' a b = Some x) ->
  forall k1 k2 x, eq_list e k1 k2 = Some x -> eq_list e' k1 k2 = Some x.
Proof.
  intros H. induction k1 as [|a k1 IH]; intros [|b k2] x E; cbn in *; auto.
  destruct (e a b) as [[]|] eqn:Eab; try discriminate; rewrite (H _ _ _ Eab); auto.
Qed.
Lemma type_eq_mono f : forall f' ve h p q b, f <= f' -> type_eq f ve h p q = Some b -> type_eq f' ve h p q = Some b.
Proof.
  induction f as [|f IH]; intros f' ve h p q b L E; [discriminate|]. destruct f' as [|f']; [lia|].
  cbn in *. destruct (Nat.eqb p q); [assumption|].
  destruct (get_real f h p) as [p'|] eqn:Ep; [|discriminate].
  destruct (get_real f h q) as [q'|] eqn:Eq; [|discriminate].
  rewrite (get_real_mono f f' _ _ _ ltac:(lia) Ep), (get_real_mono f f' _ _ _ ltac:(lia) Eq).
  destruct (nth_error h p') as [[|a|c1 k1]|], (nth_error h q') as [[|a'|c2 k2]|]; auto.
  destruct (con_eqb c1 c2); auto. eapply eq_list_mono; [|exact E].
  intros x y z. apply IH. lia.
Qed.
Lemma type_eq_total ve h : in_range h -> acyclic h -> forall p q, p < length h -> q < length h ->
  exists f b, type_eq f ve h p q = Some b.
Proof.
  intros IR AC p. pose proof (Acc_clos_trans _ _ _ (AC p)) as W. induction W as [p _ IH]. intros q Lp Lq.
  destruct (get_real_total h p (AC p) IR Lp) as (f1 & p' & Ep).
  destruct (get_real_total h q (AC q) IR Lq) as (f2 & q' & Eq).
  destruct (get_real_sound _ _ _ _ Ep) as [(n1 & N1 & X1) _].
  destruct (get_real_sound _ _ _ _ Eq) as [(n2 & N2 & X2) _].
  assert (G : forall f, f1 <= f -> f2 <= f -> type_eq (S f) ve h p q =
    if Nat.eqb p q then Some true else
    match n1, n2 with
    | NVar, NVar => Some (ve p' q')
    | NCon c1 k1, NCon c2 k2 => if con_eqb c1 c2 then eq_list (type_eq f ve h) k1 k2 else Some false
    | _, _ => Some false
    end).
  { intros f A B. cbn. rewrite (get_real_mono f1 f _ _ _ A Ep), (get_real_mono f2 f _ _ _ B Eq), N1, N2.
    reflexivity. }
  destruct (Nat.eqb p q) eqn:Epq.
  { exists (S (f1 + f2)), true. apply G; lia. }
  destruct n1 as [|a|c1 k1]; [|now destruct (X1 a)|].
  { destruct n2 as [|a|c2 k2]; exists (S (f1 + f2)); rewrite G by lia; eauto. }
  destruct n2 as [|a|c2 k2]; [|now destruct (X2 a)|].
  { exists (S (f1 + f2)); rewrite G by lia; eauto. }
  destruct (con_eqb c1 c2) eqn:Ec; [|exists (S (f1 + f2)); rewrite G by lia; eauto].
  assert (K : exists f b, eq_list (type_eq f ve h) k1 k2 = Some b).
  { assert (K1 : forall a, In a k1 -> clos_trans _ (child h) a p).
    { intros a I. eapply child_real; [exact Ep|]. exists (NCon c1 k1). auto. }
    assert (K2 : forall a, In a k1 -> a < length h) by (intros; eapply IR; [exact N1|assumption]).
    assert (K3 : forall a, In a k2 -> a < length h) by (intros; eapply IR; [exact N2|assumption]).
    clear - IH K1 K2 K3. revert k2 K3. induction k1 as [|a k1 IHk]; intros [|b k2] K3; try (exists 0; cbn; eauto; fail).
    destruct (IH a (K1 a (or_introl eq_refl)) b) as (f & x & E); [apply K2; now left|apply K3; now left|].
    destruct IHk with (k2 := k2) as (f' & y & E').
    - intros; apply K1; now right.
    - intros; apply K2; now right.
    - intros; apply K3; now right.
    - exists (f + f'). cbn. rewrite (type_eq_mono f (f + f') _ _ _ _ _ ltac:(lia) E). destruct x; [|eauto].
      exists y. eapply eq_list_mono; [|exact E']. intros u v z. apply type_eq_mono. lia. }
  destruct K as (f & b & E). exists (S (f + f1 + f2)), b. rewrite G by lia.
  eapply eq_list_mono; [|exact E]. intros u v z. apply type_eq_mono. lia.
Qed.

Section End_.
Variable ar : con -> nat.
Hypothesis BA : base_arities ar.
Variable gheap : heap.
Variable sigma : rd.
Hypothesis GS : store ar gheap.
Hypothesis GR : reading gheap sigma.
Hypothesis GV : forall p, nth_error gheap p = Some NVar -> sigma p = Nd (LVar p) [].
Variable fns : list fn.
Hypothesis GT : good_table fns sigma gheap.
Variable veq : tstate -> nat -> nat -> bool.

Lemma okst_pre s : okst ar s -> pre ar s None.
Proof. intros O. split; [assumption|discriminate]. Qed.

Lemma settled_unify s p q : okst ar s -> p < length (t_heap s) -> q < length (t_heap s) ->
  exists F u, u <> UStuck /\ forall f, F <= f -> unify f s p q = u.
Proof.
  intros O Lp Lq. destruct (unify_stops_aux ar (nvars (t_heap s)) s p q O (le_n _) Lp Lq) as [F E].
  exists F, (unify F s p q). split; [assumption|]. intros f L. eapply unify_mono; eauto.
Qed.
Lemma settled_matches s alt cur : okst ar s -> alt < length (t_heap s) -> cur < length (t_heap s) ->
  settled (fun f => matches f veq alt cur s).
Proof.
  intros O La Lc. destruct (type_eq_total (veq s) (t_heap s)) with (p := alt) (q := cur) as (f & b & E);
    [apply O|apply O|assumption|assumption|].
  destruct (settled_unify s alt cur O La Lc) as (F & u & Nu & EU).
  exists (f + F). unfold matches. destruct b.
  - exists (ROk true s). split; [discriminate|]. intros f' L. now rewrite (type_eq_mono f f' _ _ _ _ _ ltac:(lia) E).
  - exists (match u with UOk s => ROk true s | UFail s => ROk false s | UCrash => RCrash | UStuck => RStuck end).
    split; [destruct u; congruence|]. intros f' L. rewrite (type_eq_mono f f' _ _ _ _ _ ltac:(lia) E).
    now rewrite EU by lia.
Qed.
Lemma settled_must s p q : okst ar s -> p < length (t_heap s) -> q < length (t_heap s) ->
  settled (fun f => must_unify f p q s).
Proof.
  intros O Lp Lq. destruct (settled_unify s p q O Lp Lq) as (F & u & Nu & EU). exists F.
  exists (match u with UOk s => ROk tt s | UFail _ => RCrash | UCrash => RCrash | UStuck => RStuck end).
  split; [destruct u; congruence|]. intros f L. unfold must_unify. now rewrite EU.
Qed.

Lemma settled_fun s f todo : okst ar s -> nth_error fns f <> None ->
  settled (fun n => build_fun n gheap fns f todo s).
Proof.
  intros O Nf. unfold build_fun. destruct (nth_error fns f) as [F|] eqn:E; [|congruence].
  apply settled_then; [eapply settled_fresh; eauto; eapply GT; eauto|].
  intros p s1 n E1.
  pose proof (wp_fresh ar n gheap sigma GS GR GV s None (fn_type F) sigma (okst_pre _ O) (proj1 GT _ _ E)) as W.
  rewrite E1 in W. destruct W as (r1 & S1 & Lp & _).
  apply settled_then; [apply (settled_real ar); [|exact Lp]; apply okst_pre; apply S1|].
  intros q s2 n2 E2. apply settled_ret.
Qed.
Lemma settled_args ds : forall s p todo, okst ar s -> p < length (t_heap s) ->
  (forall d, In d ds -> nth_error fns d <> None) ->
  settled (fun n => build_args n gheap fns p ds todo s).
Proof.
  induction ds as [|d ds IH]; intros s p todo O Lp D; cbn [build_args]; [apply settled_ret|].
  apply settled_then; [apply settled_fun; [assumption|]; apply D; now left|].
  intros q s1 n E1.
  pose proof (wp_fun ar gheap sigma GS GR GV fns GT n s None d todo (Nd (LVar 0) []) (okst_pre _ O)
    (D d (or_introl eq_refl)) ltac:(discriminate)) as W.
  rewrite E1 in W. destruct W as (r1 & S1 & Lq & _). assert (O1 := proj1 S1). assert (L1 := step_len _ _ _ _ _ S1).
  apply settled_then; [apply (settled_apply ar BA); [now apply okst_pre|lia|assumption|exact I]|].
  intros p2 s2 n2 E2.
  pose proof (wp_apply ar BA n2 s1 None None p (fst q) (Nd (LVar 0) []) (okst_pre _ O1) ltac:(lia) Lq I ltac:(discriminate)) as W.
  rewrite E2 in W. destruct W as (r2 & S2 & Lp2 & _).
  apply IH; [apply S2|assumption|]. intros e I. apply D. now right.
Qed.
Lemma settled_call s g G todo : okst ar s -> nth_error fns g = Some G ->
  (forall d, In d (fn_impl G) -> nth_error fns d <> None) ->
  settled (fun n => build_call n gheap fns g todo s).
Proof.
  intros O EG D. unfold build_call. rewrite EG.
  apply settled_then; [apply settled_fun; [assumption|congruence]|].
  intros q s1 n E1.
  pose proof (wp_fun ar gheap sigma GS GR GV fns GT n s None g todo (Nd (LVar 0) []) (okst_pre _ O)
    ltac:(congruence) ltac:(discriminate)) as W.
  rewrite E1 in W. destruct W as (r1 & S1 & Lq & _). apply settled_args; [apply S1|assumption|assumption].
Qed.

Lemma core_in k : forall p c, p < length gheap -> find_core_type gheap k p = Some c -> c < length gheap.
Proof.
  induction k as [|k IH]; intros p c L E; cbn in E; [congruence|].
  destruct (nth_error gheap p) as [[|a|c0 [|x [|y l]]]|] eqn:N; try discriminate.
  eapply IH; [|exact E]. eapply (proj1 GS); [exact N|]. cbn. auto.
Qed.

Lemma settled_one (sub : nat -> list occ -> M answer) f cur rest g s :
  (forall todo s, okst ar s -> allnv s -> occs_ok fns (length (t_heap s)) todo -> settled (fun n => sub n todo s)) ->
  okst ar s -> allnv s -> cur < length (t_heap s) ->
  occs_ok fns (length (t_heap s)) rest -> good_fn fns sigma gheap g ->
  settled (fun n => one_alt n gheap fns veq (sub n) f cur rest g s).
Proof.
  intros SUB O NV Lc TR (G & c & lg & EG & EC & SG & FG). unfold one_alt. rewrite EG, EC.
  assert (DI : forall d, In d (fn_impl G) -> nth_error fns d <> None).
  { intros d I. clear - FG I. induction FG as [|a b ds l Ha F IH]; [destruct I|].
    destruct I as [<-|I]; [|auto]. destruct Ha as (F0 & v & E & _). congruence. }
  assert (Lgc : c < length gheap) by (eapply core_in; [|exact EC]; eapply GT; eauto).
  apply settled_then; [eapply settled_fresh; eauto|].
  intros alt s1 n E1.
  pose proof (wp_fresh ar n gheap sigma GS GR GV s None c sigma (okst_pre _ O) Lgc) as W.
  assert (N1 := keeps_fresh n gheap c s NV). rewrite E1 in W, N1.
  destruct W as (r1 & S1 & La & _). assert (O1 := proj1 S1). assert (L1 := step_len _ _ _ _ _ S1).
  apply settled_then; [apply settled_const; discriminate|].
  intros [] sp n' Ep. injection Ep as <-.
  assert (Op : okst ar (push_ctx s1)) by (apply store_push; now apply okst_store).
  assert (Np : allnv (push_ctx s1)) by (constructor; [constructor|exact N1]).
  apply settled_then; [apply settled_matches; [assumption|exact La|cbn; lia]|].
  intros b s2 n2 E2.
  pose proof (matches_ok ar n2 veq (push_ctx s1) alt cur Op Np La ltac:(cbn; lia)) as MK. rewrite E2 in MK.
  destruct MK as (O2 & N2 & X2 & L2 & _). cbn in L2. destruct b.
  2: { apply settled_then; [|intros; apply settled_ret]. apply settled_const. unfold pop. destruct (pop_ctx true s2); discriminate. }
  apply settled_then; [eapply settled_call; eauto|].
  intros nw s3 n3 E3.
  pose proof (wp_call ar BA gheap sigma GS GR GV fns GT n3 g G s2 None rest [] (Nd (LVar 0) []) (okst_pre _ O2) EG DI ltac:(discriminate)) as W.
  assert (N3 := keeps_call n3 gheap fns g rest s2 N2). rewrite E3 in W, N3.
  destruct W as (r3 & S3 & Ln & us & Eu & Ou & _). assert (O3 := proj1 S3). assert (L3 := step_len _ _ _ _ _ S3).
  apply settled_then; [apply settled_must; [assumption|assumption|lia]|].
  intros [] s4 n4 E4. unfold must_unify in E4.
  pose proof (unify_spec ar n4 s3 (fst nw) cur O3 Ln ltac:(lia)) as U.
  destruct (unify n4 s3 (fst nw) cur) as [s4'|s4'| |] eqn:EU; try discriminate. injection E4 as <-.
  destruct U as (O4 & L4 & _).
  assert (N4 : allnv s4') by (eapply unify_nv; eauto).
  apply settled_then.
  - apply SUB; [assumption|assumption|]. rewrite Eu, L4. intros o I. apply in_app_iff in I as [I|I].
    + apply Ou. now apply in_rev.
    + apply (fun L => occs_mono fns (length (t_heap s)) _ rest L TR o I). lia.
  - intros a s5 n5 _. apply settled_then; [|intros; apply settled_ret].
    apply settled_const. unfold pop. destruct (pop_ctx true s5); discriminate.
Qed.

Theorem nbr_settles depth : forall todo s, okst ar s -> allnv s -> occs_ok fns (length (t_heap s)) todo ->
  settled (fun n => nbr_succ n gheap fns veq depth todo s).
Proof.
  induction depth as [|depth IH]; intros [|[f p] rest] s O N T; cbn [nbr_succ];
    try (apply settled_const; discriminate).
  destruct (T (f, p) (or_introl eq_refl)) as [Lp Nf]. cbn in Lp, Nf.
  destruct (nth_error fns f) as [F|] eqn:EF; [|congruence].
  assert (TR : occs_ok fns (length (t_heap s)) rest) by (intros o I; apply T; now right).
  apply settled_then; [apply (settled_real ar); [now apply okst_pre|assumption]|].
  intros cur s' n E. unfold real in E. destruct (get_real n (t_heap s) p) as [q|] eqn:G; [|discriminate].
  injection E as -> <-. destruct (get_real_sound _ _ _ _ G) as [(m & Nn & _) _]. assert (Lc := nth_lt _ _ _ Nn).
  assert (GA : forall g, In g (fn_alts F) -> good_fn fns sigma gheap g) by (intros; eapply (proj2 GT); eauto).
  clear G Nn Nf Lp EF T. revert s O N Lc TR GA. generalize 0 (@None (list nat)). induction (fn_alts F) as [|g alts IHa];
    intros i found s O N Lc TR GA; cbn [try_alts]; [apply settled_ret|].
  apply settled_then.
  - apply settled_one; auto. apply GA. now left.
  - intros a s1 n1 E1.
    pose proof (one_ok ar BA gheap sigma GS GR GV fns GT n1 veq depth (nbr_succ n1 gheap fns veq depth) f cur rest g s
      (nbr_ok ar BA gheap sigma GS GR GV fns GT n1 veq depth) O N Lc TR (GA g (or_introl eq_refl))) as OK.
    rewrite E1 in OK. destruct OK as [S1 _]. assert (L1 := same_len ar _ _ S1).
    assert (REST : forall found', settled (fun n => try_alts n gheap fns veq (nbr_succ n gheap fns veq depth) f cur rest (S i) alts found' s1)).
    { intros found'. apply IHa; [apply S1|apply S1|lia|eapply occs_mono; eauto|intros; apply GA; now right]. }
    destruct a, found; try apply REST; apply settled_ret.
Qed.
End End_.
