(** Dependencies and quantification: B_Depends, quantify, B_forall, B_thereis
    of /repo/src/bin/fl/new_bdd.c. *)
From stdpp Require Import gmap strings list.
From Coq Require Import NArith Lia.
From Verif Require Import BddModel BddWf BddOps.
Open Scope N_scope.
Local Arguments N.mul : simpl never.
Local Arguments N.add : simpl never.

(** ** Model *)

(** new_bdd.c 614-650 (B_Depends).  The two recursive calls of the C code are
    evaluated left to right here (C leaves the order open). *)
Fixpoint depends_rec (fuel : nat) (f : fml) : M fml := fun s =>
  match fuel with
  | O => None
  | S fuel =>
    if decide (f.2 = 0) then Some (ONE, s) else
    match cache s !! (tDEPENDS, f, f) with
    | Some r => Some (r, s)
    | None =>
      (let* n := get_node f in
       let* dl := depends_rec fuel n.1.2 in
       let* dr := depends_rec fuel n.2 in
       let* d := B_And dl dr in
       let* x := find_insert n.1.1 ONE ZERO in
       let* r := B_And d x in
       let* _ := cache_insert tDEPENDS f f r in
       ret r) s
    end
  end.
Definition B_Depends (f : fml) : M fml := fun s => depends_rec (S (length (ord s))) f s.

(** new_bdd.c 2661-2723 (quantify).  [ty] is the int argument 'type'. *)
Fixpoint quantify_rec (fuel : nat) (f vf : fml) (ty : N) : M fml := fun s =>
  match fuel with
  | O => None
  | S fuel =>
    if decide (vf.2 = 0) then Some (f, s) else
    if decide (f.2 = 0) then Some (f, s) else
    match cache s !! (ty, f, vf) with
    | Some r => Some (r, s)
    | None =>
      (let* nv := get_node vf in
       let* n := get_node f in
       let index := nv.1.1 in
       let cur := n.1.1 in
       let* r :=
         (if decide (ORDER s index < ORDER s cur) then quantify_rec fuel f nv.1.2 ty
          else if decide (ORDER s cur < ORDER s index) then
            let* a := quantify_rec fuel (lsonc f n) vf ty in
            let* b := quantify_rec fuel (rsonc f n) vf ty in
            find_insert cur a b
          else
            let* a := quantify_rec fuel (lsonc f n) nv.1.2 ty in
            let* b := quantify_rec fuel (rsonc f n) nv.1.2 ty in
            step (if decide (ty = tUNIVERSAL) then tAND else tOR) a b) in
       let* _ := cache_insert ty f vf r in
       ret r) s
    end
  end.
Definition quantify (f vf : fml) (ty : N) : M fml := fun s =>
  quantify_rec (S (length (ord s) + length (ord s))) f vf ty s.

(** new_bdd.c 652-664 (B_forall, B_thereis). *)
Definition B_forall (var f : fml) : M fml := quantify f var tUNIVERSAL.
Definition B_thereis (var f : fml) : M fml := quantify f var tEXISTENTIAL.

(** graph.c 4116-4136 (P_QUANT_FORALL, P_QUANT_THEREIS). *)
Definition quant_forall (a f : fml) : M fml := let* v := B_Depends a in B_forall v f.
Definition quant_thereis (a f : fml) : M fml := let* v := B_Depends a in B_thereis v f.

(** ** Distinguishing assignments *)
Fixpoint envs (k : nat) : list env :=
  match k with
  | O => [fun _ => false]
  | S k => envs k ≫= (fun e => [upd e (N.of_nat k) true; upd e (N.of_nat k) false])
  end.

Lemma envs_cover k e : exists e', e' ∈ envs k /\ forall v, v < N.of_nat k -> e' v = e v.
Proof.
  induction k as [|k (e'&Hin&He)].
  - exists (fun _ => false). split; [by left|]. intros. lia.
  - exists (upd e' (N.of_nat k) (e (N.of_nat k))). split.
    + cbn. apply elem_of_list_bind. exists e'. split; [|done].
      destruct (e (N.of_nat k)); [left|right; left].
    + intros v Hv. destruct (decide (v = N.of_nat k)) as [->|]; [by rewrite upd_eq|].
      rewrite upd_ne by done. apply He. lia.
Qed.

Lemma differ s f g : WFn s -> live s f -> live s g -> f <> g ->
  exists e, sem s e f <> sem s e g.
Proof.
  intros W Lf Lg Hne.
  destruct (decide (Forall (fun e => sem s e f = sem s e g) (envs (length (ord s))))) as [H|H].
  - exfalso. apply Hne. apply (canonical s W); [done|done|]. intros e.
    destruct (envs_cover (length (ord s)) e) as (e'&Hin&He).
    rewrite Forall_forall in H. specialize (H e' Hin).
    rewrite (sem_env_ext s e e') by (try done; intros; by rewrite He).
    rewrite H. apply sem_env_ext; try done.
  - apply not_Forall_Exists in H; [|intros ?; apply _].
    apply Exists_exists in H as (e&_&He). by exists e.
Qed.

Lemma sem_env_eq s e e' f : WFn s -> live s f -> (forall v, e v = e' v) -> sem s e f = sem s e' f.
Proof. intros. apply sem_env_ext; auto. Qed.

Lemma upd_comm e v w a b x : v <> w -> upd (upd e v a) w b x = upd (upd e w b) v a x.
Proof. intros. unfold upd. repeat case_decide; congruence. Qed.
Lemma upd_upd e v a b x : upd (upd e v a) v b x = upd e v b x.
Proof. unfold upd. repeat case_decide; congruence. Qed.

Lemma dep_node s n i v l r : WFn s -> nodes s !! i = Some (v, l, r) -> forall w,
  dep (fun e => sem s e (n, i)) w <->
  w = v \/ dep (fun e => sem s e l) w \/ dep (fun e => sem s e r) w.
Proof.
  intros W E w.
  pose proof (wf_node _ W _ _ _ _ E) as (Hv&_&Hne&Ll&Lr&Ol&Or&_).
  assert (forall e, sem s e (n, i) = xorb n (if e v then sem s e l else sem s e r)) as Hs
    by (intros; by apply sem_node).
  split.
  - intros [e He]. destruct (decide (w = v)) as [->|Hwv]; [by left|]. right.
    rewrite !Hs, !upd_ne in He by done. destruct (e v).
    + left. exists e. intros Heq. apply He. by rewrite Heq.
    + right. exists e. intros Heq. apply He. by rewrite Heq.
  - intros [->|[[e He]|[e He]]].
    + destruct (differ s l r W Ll Lr Hne) as [e He]. exists e.
      destruct (sem_cof s e n i v l r W E) as [-> ->].
      intros Heq. apply He. by destruct n, (sem s e l), (sem s e r).
    + destruct (decide (w = v)) as [->|Hwv].
      { exfalso. apply He. by rewrite !(sem_upd_above s v _ W Hv l). }
      exists (upd e v true). rewrite !Hs. rewrite !(upd_ne _ w _ v), upd_eq by done.
      rewrite !(sem_env_eq s (upd (upd e v true) w _) (upd (upd e w _) v true) l W Ll)
        by (intros; by apply upd_comm).
      rewrite !(sem_upd_above s v true W Hv l Ll Ol). intros Heq. apply He.
      by destruct n, (sem s (upd e w true) l), (sem s (upd e w false) l).
    + destruct (decide (w = v)) as [->|Hwv].
      { exfalso. apply He. by rewrite !(sem_upd_above s v _ W Hv r). }
      exists (upd e v false). rewrite !Hs. rewrite !(upd_ne _ w _ v), upd_eq by done.
      rewrite !(sem_env_eq s (upd (upd e v false) w _) (upd (upd e w _) v false) r W Lr)
        by (intros; by apply upd_comm).
      rewrite !(sem_upd_above s v false W Hv r Lr Or). intros Heq. apply He.
      by destruct n, (sem s (upd e w true) r), (sem s (upd e w false) r).
Qed.

Lemma dep_const s b v : ~ dep (fun e => sem s e (b, 0)) v.
Proof. intros [e He]. apply He. by rewrite !sem_const. Qed.

(** ** B_Depends *)
Definition prod_of (s : bst) (r : fml) (vs : list N) : Prop :=
  live s r /\ forall e, sem s e r = forallb e vs.

Lemma depends_rec_spec fuel : forall s f, WF s -> live s f ->
  (N.to_nat (nvars s - lvl s f) < fuel)%nat ->
  spec (depends_rec fuel f) s (fun r s' => exists vs, prod_of s' r vs /\
    forall v, v ∈ vs <-> dep (fun e => sem s e f) v).
Proof.
  induction fuel as [|fuel IH]; intros s f W Lf Hfuel; [lia|].
  unfold spec. cbn [depends_rec].
  destruct (decide (f.2 = 0)) as [Hf|Hf].
  { apply (spec_ret ONE s); [done|]. exists []. split.
    - split; [apply live_const|]. intros e. by rewrite sem_ONE.
    - intros v. destruct f as [b ?]. cbn in Hf. subst. split; [by intros ?%elem_of_nil|].
      intros H. by apply dep_const in H. }
  destruct (cache s !! (tDEPENDS, f, f)) as [r|] eqn:Ec.
  { apply (spec_ret r s); [done|]. apply (wf_cache _ W) in Ec as (_&_&Lr&Hc).
    destruct Hc as [[[?|[?|?]] _]|[[? _]|[[? _]|[_ (vs&Hvs&Hc)]]]]; try done.
    exists vs. split; [by split|done]. }
  destruct (live_cases _ _ Lf) as [?|(v&l&r&E)]; [done|].
  pose proof (wf_node _ W _ _ _ _ E) as (Hv&_&Hne&Ll&Lr&Ol&Or&_).
  unfold bind at 1, get_node at 1. rewrite E. cbn [fst snd].
  assert (lvl s f = ORDER s v) as Hlf by (unfold lvl; by rewrite E).
  pose proof (ORDER_lt_nvars _ _ W Hv). pose proof (lvl_le s l W). pose proof (lvl_le s r W).
  apply spec_bind. eapply spec_weaken; [apply (IH s l); [done|done|lia]|].
  intros dl s1 W1 P1 (vl&[Ldl Sdl]&Hvl) _ _.
  apply spec_bind. eapply spec_weaken; [apply (IH s1 r); [done|plive|]|].
  { rewrite (pext_nvars _ _ P1), (pext_lvl s s1) by done. lia. }
  intros dr s2 W2 P2 (vr&[Ldr Sdr]&Hvr) _ _.
  apply spec_bind. eapply spec_weaken; [apply B_And_spec; [done|plive|plive]|].
  intros d s3 W3 P3 [Ld Sd] _ _.
  pose proof (pext_trans _ _ _ (pext_trans _ _ _ P1 P2) P3) as P13.
  apply spec_bind. eapply spec_weaken; [apply (find_insert_spec v ONE ZERO s3); try plive; try done|].
  { by rewrite (pext_nvars _ _ P13). }
  { rewrite (pext_ORDER _ _ _ P13). unfold lvl. cbn [ONE snd]. rewrite (wf_zero _ W3).
    by rewrite (pext_nvars _ _ P13). }
  { rewrite (pext_ORDER _ _ _ P13). unfold lvl. cbn [ZERO snd]. rewrite (wf_zero _ W3).
    by rewrite (pext_nvars _ _ P13). }
  intros x s4 W4 P4 [Lx Sx] _ _.
  apply spec_bind. eapply spec_weaken; [apply B_And_spec; [done|plive|plive]|].
  intros r' s5 W5 P5 [Lr' Sr'] _ _.
  assert (forall e, sem s5 e r' = forallb e (v :: vl ++ vr)) as HS.
  { intros e. rewrite Sr', Sx, sem_ONE, sem_ZERO. rewrite (pext_sem s3 s4) by done.
    rewrite Sd. rewrite (pext_sem s1 s2) by done. rewrite Sdl, Sdr. cbn.
    rewrite forallb_app. by destruct (e v), (forallb e vl), (forallb e vr). }
  assert (forall w, w ∈ v :: vl ++ vr <-> dep (fun e => sem s e f) w) as HD.
  { intros w. destruct f as [n i]. cbn in E.
    rewrite (dep_node s n i v l r W E w).
    rewrite elem_of_cons, elem_of_app, Hvl, Hvr.
    assert (dep (fun e => sem s1 e r) w <-> dep (fun e => sem s e r) w) as ->; [|done].
    split; apply dep_ext; intros; by rewrite (pext_sem s s1). }
  pose proof (pext_trans _ _ _ (pext_trans _ _ _ P13 P4) P5) as P15.
  apply spec_bind. eapply spec_weaken; [apply cache_insert_spec; try done; try plive|].
  { do 3 right. split; [done|]. exists (v :: vl ++ vr). split; [|done].
    intros w. rewrite HD. split; apply dep_ext; intros; by rewrite (pext_sem s s5). }
  intros ? s6 W6 P6 Hn _ _. apply spec_ret; [done|].
  exists (v :: vl ++ vr). split; [|done]. split; [plive|].
  intros e. rewrite (pext_sem s5 s6) by done. done.
Qed.

Lemma B_Depends_spec s f : WF s -> live s f ->
  spec (B_Depends f) s (fun r s' => exists vs, prod_of s' r vs /\
    forall v, v ∈ vs <-> dep (fun e => sem s e f) v).
Proof. intros. unfold spec, B_Depends. apply depends_rec_spec; try done. unfold nvars. lia. Qed.

(** ** The variables read by quantify from a product *)
Lemma dep_lt s f v : WFn s -> live s f -> dep (fun e => sem s e f) v -> v < nvars s.
Proof.
  intros W L [e He]. destruct (N.lt_ge_cases v (nvars s)) as [|Hge]; [done|].
  exfalso. apply He. apply sem_env_ext; [done| |done].
  intros w Hw. rewrite !upd_ne by lia. done.
Qed.

Lemma prod_dep s r vs : prod_of s r vs -> forall v, dep (fun e => sem s e r) v <-> v ∈ vs.
Proof.
  intros [_ H] v. split.
  - intros [e He]. rewrite !H in He. destruct (decide (v ∈ vs)) as [|Hv]; [done|].
    exfalso. apply He. clear -Hv. induction vs as [|w vs IH]; [done|]. cbn.
    rewrite !upd_ne by (intros ->; apply Hv; left). rewrite IH; [done|].
    intros Hi. apply Hv. by right.
  - intros Hv. exists (fun _ => true). rewrite !H.
    assert (forallb (upd (fun _ => true) v true) vs = true) as ->.
    { apply forallb_forall. intros w _. unfold upd. by case_decide. }
    assert (forallb (upd (fun _ => true) v false) vs = false) as ->; [|done].
    apply not_true_iff_false. rewrite forallb_forall. intros Hall.
    specialize (Hall v). rewrite upd_eq in Hall.
    by discriminate Hall; apply elem_of_list_In.
Qed.

Lemma chain_prod_gen s : WFn s -> forall r, live s r -> forall b vs, prod_of s (b, r.2) vs ->
  forall v, v ∈ chain s r <-> v ∈ vs.
Proof.
  intros W. refine (lvl_ind s _ W _ _).
  - intros c b vs Hp v. rewrite chain_zero by done. rewrite <- (prod_dep s _ vs Hp).
    split; [by intros ?%elem_of_nil|]. intros H. by apply dep_const in H.
  - intros n i v l r E IHl _ b vs Hp w. cbn [fst snd] in Hp.
    rewrite (chain_node s n i v l r W E).
    pose proof (wf_node _ W _ _ _ _ E) as (Hv&Hl1&Hne&Ll&Lr&Ol&Or&_).
    pose proof Hp as [Lf Hs].
    assert (b = true) as ->.
    { pose proof (sem_alltrue s W _ Lf) as Ht. rewrite Hs in Ht. cbn in Ht. rewrite <- Ht.
      by apply forallb_forall. }
    assert (v ∈ vs) as Hvin.
    { apply (prod_dep s (true, i) vs Hp). apply (dep_node s true i v l r W E). by left. }
    assert (prod_of s (negb l.1, l.2) (filter (fun x => x <> v) vs)) as Hp'.
    { split; [done|]. intros e. change (negb l.1, l.2) with (bnot l). rewrite sem_bnot by done.
      destruct (sem_cof s e true i v l r W E) as [C _]. rewrite Hs in C.
      rewrite xorb_true_l in C. rewrite <- C. clear. induction vs as [|x vs IH]; [done|].
      rewrite filter_cons. cbn. case_decide as Hx.
      - rewrite upd_ne by done. cbn. by rewrite IH.
      - destruct (decide (x = v)) as [->|]; [|done]. rewrite upd_eq. cbn. done. }
    rewrite elem_of_cons, (IHl _ _ Hp'), elem_of_list_filter. split.
    + by intros [->|[_ ?]].
    + intros Hw. destruct (decide (w = v)); [by left|right; done].
Qed.
Lemma chain_prod s r vs : WFn s -> prod_of s r vs -> forall v, v ∈ chain s r <-> v ∈ vs.
Proof. intros W Hp. apply (chain_prod_gen s W r (proj1 Hp) r.1 vs). by destruct r. Qed.

(** ** Quantification *)
Definition env_ext (P : env -> bool) : Prop := forall e e', (forall v, e v = e' v) -> P e = P e'.

Lemma upd_env_eq e e' v b : (forall x, e x = e' x) -> forall x, upd e v b x = upd e' v b x.
Proof. intros H x. unfold upd. by case_decide. Qed.

Lemma qvars_env op vs P : env_ext P -> env_ext (qvars op vs P).
Proof.
  intros HP. induction vs as [|w vs IH]; [done|]. intros e e' H. cbn.
  f_equal; apply IH; by apply upd_env_eq.
Qed.
Lemma qvars_ite op vs v A B e : v ∉ vs ->
  qvars op vs (fun e : env => if e v then A e else B e) e =
  if e v then qvars op vs A e else qvars op vs B e.
Proof.
  revert e. induction vs as [|w vs IH]; intros e H; [done|]. cbn.
  apply not_elem_of_cons in H as [H1 H2]. rewrite !IH by done. rewrite !upd_ne by done.
  by destruct (e v).
Qed.
Lemma qvars_indep op vs v P : env_ext P -> (forall e b, P (upd e v b) = P e) ->
  forall e b, qvars op vs P (upd e v b) = qvars op vs P e.
Proof.
  intros HP Hv. induction vs as [|w vs IH]; intros e b; [done|]. cbn.
  destruct (decide (w = v)) as [->|Hne].
  - f_equal; apply qvars_env; try done; intros; by apply upd_upd.
  - f_equal.
    + rewrite (qvars_env op vs P HP (upd (upd e v b) w true) (upd (upd e w true) v b))
        by (intros; by apply upd_comm). apply IH.
    + rewrite (qvars_env op vs P HP (upd (upd e v b) w false) (upd (upd e w false) v b))
        by (intros; by apply upd_comm). apply IH.
Qed.

Lemma sem_env_ext' s f : WFn s -> live s f -> env_ext (fun e => sem s e f).
Proof. intros W L e e' H. by apply sem_env_eq. Qed.

Definition ty_op (ty : N) : bool -> bool -> bool := if decide (ty = tUNIVERSAL) then andb else orb.
Lemma ty_op_idem ty b : ty_op ty b b = b.
Proof. unfold ty_op. case_decide; by destruct b. Qed.

Lemma chain_order s : WFn s -> forall f, live s f -> forall v, v ∈ chain s f ->
  v < nvars s /\ lvl s f <= ORDER s v.
Proof.
  intros W. refine (lvl_ind s _ W _ _).
  - intros b v. rewrite chain_zero by done. by intros ?%elem_of_nil.
  - intros n i w l r E IHl _ v. rewrite (chain_node s n i w l r W E).
    pose proof (wf_node _ W _ _ _ _ E) as (Hw&_&_&_&_&Ol&_).
    rewrite (lvl_node s n i w l r E).
    intros [->|Hin]%elem_of_cons; [done|]. destruct (IHl v Hin). split; [done|]. lia.
Qed.

Lemma cache_sem_quant s ty f vf r : (ty = tUNIVERSAL \/ ty = tEXISTENTIAL) ->
  cache_sem s ty f vf r <->
  forall e, sem s e r = qvars (ty_op ty) (chain s vf) (fun e => sem s e f) e.
Proof.
  intros Hty. unfold cache_sem, ty_op. split.
  - destruct Hty as [->| ->]; intros [[[?|[?|?]] _]|[[? H]|[[? H]|[? _]]]]; try done.
  - destruct Hty as [->| ->]; intros H.
    + right. left. split; [done|]. intros e. rewrite H. done.
    + right. right. left. split; [done|]. intros e. rewrite H. done.
Qed.

Lemma pext_chain s s' f : WFn s -> WFn s' -> pext s s' -> live s f -> chain s' f = chain s f.
Proof. intros. apply ext_chain; try done. by apply pext_ext. Qed.

Lemma quantify_rec_spec ty fuel : (ty = tUNIVERSAL \/ ty = tEXISTENTIAL) ->
  forall s f vf, WF s -> live s f -> live s vf ->
  (N.to_nat (nvars s - lvl s f) + N.to_nat (nvars s - lvl s vf) < fuel)%nat ->
  spec (quantify_rec fuel f vf ty) s (fun r s' => live s' r /\
    forall e, sem s' e r = qvars (ty_op ty) (chain s vf) (fun e => sem s e f) e).
Proof.
  intros Hty. induction fuel as [|fuel IH]; intros s f vf W Lf Lvf Hfuel; [lia|].
  unfold spec. cbn [quantify_rec].
  destruct (decide (vf.2 = 0)) as [Hv0|Hv0].
  { apply (spec_ret f s); [done|]. split; [done|]. intros e.
    destruct vf as [b ?]. cbn in Hv0. subst. by rewrite chain_zero. }
  destruct (decide (f.2 = 0)) as [Hf0|Hf0].
  { apply (spec_ret f s); [done|]. split; [done|]. destruct f as [b ?]. cbn in Hf0. subst.
    intros e. rewrite sem_const. rewrite (qvars_ext (ty_op ty) (chain s vf) _ (fun _ => b))
      by (intros; by rewrite sem_const).
    clear. revert e. induction (chain s vf) as [|w vs IHvs]; intros e; [done|]. cbn.
    rewrite <- !IHvs. by rewrite ty_op_idem. }
  destruct (cache s !! (ty, f, vf)) as [r|] eqn:Ec.
  { apply (spec_ret r s); [done|]. apply (wf_cache _ W) in Ec as (_&_&Lr&Hc).
    split; [done|]. by apply cache_sem_quant. }
  destruct (live_cases _ _ Lvf) as [?|(idx&vl&vr&Ev)]; [done|].
  destruct (live_cases _ _ Lf) as [?|(cur&l&r&E)]; [done|].
  unfold bind at 1, get_node at 1. rewrite Ev.
  unfold bind at 1, get_node at 1. rewrite E. cbn [fst snd].
  pose proof (wf_node _ W _ _ _ _ Ev) as (Hidx&_&_&Lvl&_&Ovl&_).
  pose proof (wf_node _ W _ _ _ _ E) as (Hcur&_).
  destruct (live_lsonc s f cur l r W E) as [Lls Lrs].
  destruct (lvl_sonsc s f cur l r W E) as (Olf&Ols&Ors).
  pose proof (fun e => sem_sonsc s f cur l r e W E) as Hsf.
  set (ls := lsonc f (cur, l, r)) in *. set (rs := rsonc f (cur, l, r)) in *.
  assert (lvl s vf = ORDER s idx) as Olvf by (unfold lvl; by rewrite Ev).
  assert (chain s vf = idx :: chain s vl) as Hch.
  { destruct vf. cbn in Ev. by apply (chain_node _ _ _ _ _ _ W Ev). }
  pose proof (ORDER_lt_nvars _ _ W Hidx). pose proof (ORDER_lt_nvars _ _ W Hcur).
  pose proof (lvl_le s vl W). pose proof (lvl_le s ls W). pose proof (lvl_le s rs W).
  assert (forall r s', WF s' -> pext s s' -> live s' r ->
    (forall e, sem s' e r = qvars (ty_op ty) (chain s vf) (fun e => sem s e f) e) ->
    spec (let* _ := cache_insert ty f vf r in ret r) s' (fun r s' => live s' r /\
    forall e, sem s' e r = qvars (ty_op ty) (chain s vf) (fun e => sem s e f) e)) as Hend.
  { intros r1 s1 W1 P1 L1 S1. apply spec_bind.
    eapply spec_weaken; [apply cache_insert_spec; try done; try plive|].
    { apply cache_sem_quant; [done|]. intros e. rewrite S1.
      rewrite (pext_chain s s1) by done. apply qvars_ext. intros. by rewrite (pext_sem s s1). }
    intros _ s2 W2 P2 _ _ _. apply spec_ret; [done|]. split; [plive|].
    intros e. by rewrite (pext_sem s1 s2). }
  change (spec (let* r0 := (if decide (ORDER s idx < ORDER s cur) then quantify_rec fuel f vl ty
          else if decide (ORDER s cur < ORDER s idx) then
            let* a := quantify_rec fuel ls vf ty in
            let* b := quantify_rec fuel rs vf ty in
            find_insert cur a b
          else
            let* a := quantify_rec fuel ls vl ty in
            let* b := quantify_rec fuel rs vl ty in
            step (if decide (ty = tUNIVERSAL) then tAND else tOR) a b) in
       let* _ := cache_insert ty f vf r0 in
       ret r0) s (fun r0 s' => live s' r0 /\
    forall e, sem s' e r0 = qvars (ty_op ty) (chain s vf) (fun e => sem s e f) e)).
  apply spec_bind.
  destruct (decide (ORDER s idx < ORDER s cur)) as [Hlt|Hlt].
  { eapply spec_weaken; [apply (IH s f vl); try done; lia|].
    intros r1 s1 W1 P1 [L1 S1] _ _. apply Hend; try done.
    intros e. rewrite S1, Hch. cbn.
    rewrite !(qvars_indep _ _ idx) ; [by rewrite ty_op_idem|by apply sem_env_ext'| |by apply sem_env_ext'|];
      intros; apply sem_upd_above; try done; lia. }
  destruct (decide (ORDER s cur < ORDER s idx)) as [Hgt|Hgt].
  { apply spec_bind. eapply spec_weaken; [apply (IH s ls vf); try done; lia|].
    intros a s1 W1 P1 [La Sa] _ _.
    apply spec_bind. eapply spec_weaken; [apply (IH s1 rs vf); try done; try plive|].
    { rewrite !(pext_lvl s s1), (pext_nvars _ _ P1) by done. lia. }
    intros b s2 W2 P2 [Lb Sb] _ _.
    pose proof (pext_trans _ _ _ P1 P2) as P12.
    assert (forall k s' t, WF s' -> pext s s' -> live s t -> live s' k -> ORDER s cur < lvl s t ->
      (forall e, sem s' e k = qvars (ty_op ty) (chain s vf) (fun e => sem s e t) e) ->
      ORDER s' cur < lvl s' k) as Hlvl.
    { intros k s' t W' P' Lt Lk Ot Sk. rewrite (pext_ORDER _ _ _ P').
      enough (N.succ (ORDER s cur) <= lvl s' k) by lia.
      apply lvl_ge; try done.
      { rewrite (pext_nvars _ _ P'). lia. }
      intros v Hv Ho e b'. rewrite (pext_nvars _ _ P') in Hv. rewrite (pext_ORDER _ _ _ P') in Ho.
      rewrite !Sk. apply qvars_indep; [by apply sem_env_ext'|].
      intros. apply sem_upd_above; try done. lia. }
    assert (forall e, sem s2 e b = qvars (ty_op ty) (chain s vf) (fun e => sem s e rs) e) as Sb'.
    { intros e. rewrite Sb, (pext_chain s s1) by done. apply qvars_ext. intros.
      by rewrite (pext_sem s s1). }
    assert (forall e, sem s2 e a = qvars (ty_op ty) (chain s vf) (fun e => sem s e ls) e) as Sa'.
    { intros e. rewrite (pext_sem s1 s2) by done. apply Sa. }
    eapply spec_weaken; [apply (find_insert_spec cur a b s2); try done; try plive|].
    { by rewrite (pext_nvars _ _ P12). }
    { apply (Hlvl a s2 ls); try done. plive. }
    { by apply (Hlvl b s2 rs). }
    intros r3 s3 W3 P3 [L3 S3] _ _. apply Hend; try done.
    { by eapply pext_trans. }
    intros e. rewrite S3, Sa', Sb'.
    rewrite <- qvars_ite; [by apply qvars_ext|].
    intros Hin. apply (chain_order s W vf Lvf) in Hin. lia. }
  assert (cur = idx) as -> by (apply (wf_ord_inj _ W); try done; lia).
  apply spec_bind. eapply spec_weaken; [apply (IH s ls vl); try done; lia|].
  intros a s1 W1 P1 [La Sa] _ _.
  apply spec_bind. eapply spec_weaken; [apply (IH s1 rs vl); try done; try plive|].
  { rewrite !(pext_lvl s s1), (pext_nvars _ _ P1) by done. lia. }
  intros b s2 W2 P2 [Lb Sb] _ _.
  assert (forall e, sem s2 e b = qvars (ty_op ty) (chain s vl) (fun e => sem s e rs) e) as Sb'.
  { intros e. rewrite Sb, (pext_chain s s1) by done. apply qvars_ext. intros.
    by rewrite (pext_sem s s1). }
  eapply spec_weaken; [apply step_spec; try done; try plive|].
  { case_decide; [by left|right; by left]. }
  intros r3 s3 W3 P3 [L3 S3] _ _. apply Hend; try done.
  { eapply pext_trans; [|done]. by eapply pext_trans. }
  intros e. rewrite S3, Sb'. rewrite (pext_sem s1 s2) by done. rewrite Sa, Hch. cbn.
  assert (forall x y, opsem (if decide (ty = tUNIVERSAL) then tAND else tOR) x y = ty_op ty x y) as ->.
  { intros. unfold ty_op. by case_decide. }
  f_equal.
  - rewrite <- (qvars_indep (ty_op ty) (chain s vl) idx (fun e => sem s e ls)) with (b := true).
    2: by apply sem_env_ext'. 2: { intros. apply sem_upd_above; try done. }
    clear -Hsf Hcur W Lvf Lvl Hidx Ovl.
    assert (idx ∉ chain s vl) as Hni. { intros Hin. apply (chain_order s W vl Lvl) in Hin. lia. }
    rewrite (qvars_ext _ _ (fun e => sem s e f) (fun e => if e idx then sem s e ls else sem s e rs)) by done.
    rewrite qvars_ite by done. by rewrite upd_eq.
  - rewrite <- (qvars_indep (ty_op ty) (chain s vl) idx (fun e => sem s e rs)) with (b := false).
    2: by apply sem_env_ext'. 2: { intros. apply sem_upd_above; try done. }
    clear -Hsf Hcur W Lvf Lvl Hidx Ovl.
    assert (idx ∉ chain s vl) as Hni. { intros Hin. apply (chain_order s W vl Lvl) in Hin. lia. }
    rewrite (qvars_ext _ _ (fun e => sem s e f) (fun e => if e idx then sem s e ls else sem s e rs)) by done.
    rewrite qvars_ite by done. by rewrite upd_eq.
Qed.

(** ** Meaning of quantification over a list of variables *)
Definition agree_off (vs : list N) (e e' : env) : Prop := forall v, v ∉ vs -> e' v = e v.

Lemma all_vars_spec vs P e : env_ext P ->
  all_vars vs P e = true <-> forall e', agree_off vs e e' -> P e' = true.
Proof.
  intros HP. revert e. induction vs as [|v vs IH]; intros e; cbn.
  - split.
    + intros H e' He. rewrite <- H. apply HP. intros x. apply He. by intros ?%elem_of_nil.
    + intros H. by apply H.
  - rewrite andb_true_iff, !IH. split.
    + intros [H1 H2] e' He. destruct (e' v) eqn:Ev; [apply H1|apply H2]; intros x Hx;
        (destruct (decide (x = v)) as [->|]; [by rewrite upd_eq|rewrite upd_ne by done]);
        apply He; by apply not_elem_of_cons.
    + intros H. split; intros e' He; apply H; intros x Hx; apply not_elem_of_cons in Hx as [? ?];
        rewrite He by done; by apply upd_ne.
Qed.
Lemma some_vars_spec vs P e : env_ext P ->
  some_vars vs P e = true <-> exists e', agree_off vs e e' /\ P e' = true.
Proof.
  intros HP. revert e. induction vs as [|v vs IH]; intros e; cbn.
  - split.
    + intros H. by exists e.
    + intros (e'&He&H). rewrite <- H. apply HP. intros x. symmetry. apply He. by intros ?%elem_of_nil.
  - rewrite orb_true_iff, !IH. split.
    + intros [(e'&He&H)|(e'&He&H)]; exists e'; (split; [|done]); intros x Hx;
        apply not_elem_of_cons in Hx as [? ?]; rewrite He by done; by apply upd_ne.
    + intros (e'&He&H). destruct (e' v) eqn:Ev; [left|right]; exists e'; (split; [|done]);
        intros x Hx; (destruct (decide (x = v)) as [->|]; [by rewrite upd_eq|rewrite upd_ne by done]);
        apply He; by apply not_elem_of_cons.
Qed.

Lemma quant_gen ty s a f : (ty = tUNIVERSAL \/ ty = tEXISTENTIAL) -> WF s -> live s a -> live s f ->
  spec (let* v := B_Depends a in quantify f v ty) s (fun r s' => live s' r /\ exists vs,
    (forall v, v ∈ vs <-> dep (fun e => sem s e a) v) /\
    forall e, sem s' e r = qvars (ty_op ty) vs (fun e => sem s e f) e).
Proof.
  intros Hty W La Lf. apply spec_bind. eapply spec_weaken; [by apply B_Depends_spec|].
  intros p s1 W1 P1 (vs&Hp&Hvs) _ _. unfold quantify.
  pose proof (chain_prod s1 p vs W1 Hp) as Hc. destruct Hp as [Lp _].
  eapply spec_weaken; [apply (quantify_rec_spec ty (S (length (ord s1) + length (ord s1))) Hty s1 f p); try done; try plive|].
  { unfold nvars. lia. }
  intros r s2 W2 P2 [Lr Sr]. split; [done|]. exists (chain s1 p). split.
  - intros v. by rewrite Hc.
  - intros e. rewrite Sr. apply qvars_ext. intros. by rewrite (pext_sem s s1).
Qed.

Lemma quant_forall_spec s a f : WF s -> live s a -> live s f ->
  spec (quant_forall a f) s (fun r s' => live s' r /\ forall e,
    sem s' e r = true <->
    forall e', (forall v, ~ dep (fun e => sem s e a) v -> e' v = e v) -> sem s e' f = true).
Proof.
  intros W La Lf. eapply spec_weaken; [apply (quant_gen tUNIVERSAL); try done; by left|].
  intros r s' W' P (Lr&vs&Hvs&Hr). split; [done|]. intros e. rewrite Hr.
  change (ty_op tUNIVERSAL) with andb. rewrite all_vars_spec by (by apply sem_env_ext').
  unfold agree_off. by setoid_rewrite Hvs.
Qed.
Lemma quant_thereis_spec s a f : WF s -> live s a -> live s f ->
  spec (quant_thereis a f) s (fun r s' => live s' r /\ forall e,
    sem s' e r = true <->
    exists e', (forall v, ~ dep (fun e => sem s e a) v -> e' v = e v) /\ sem s e' f = true).
Proof.
  intros W La Lf. eapply spec_weaken; [apply (quant_gen tEXISTENTIAL); try done; by right|].
  intros r s' W' P (Lr&vs&Hvs&Hr). split; [done|]. intros e. rewrite Hr.
  change (ty_op tEXISTENTIAL) with orb. rewrite some_vars_spec by (by apply sem_env_ext').
  unfold agree_off. by setoid_rewrite Hvs.
Qed.
