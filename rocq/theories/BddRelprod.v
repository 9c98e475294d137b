(** Relational product: Rel_prod of /repo/src/bin/fl/new_bdd.c 911-1043 and
    P_RELPROD_FORALL / P_RELPROD_THEREIS of graph.c 4137-4163. *)
From stdpp Require Import gmap strings list.
From Coq Require Import NArith Lia.
From Verif Require Import BddModel BddWf BddOps BddQuant.
Open Scope N_scope.
Local Arguments N.mul : simpl never.
Local Arguments N.add : simpl never.

(** ** Model *)

(** The private cache of one call (Begin_RelProd allocates a zeroed one).  The
    C table is direct mapped and forgets entries on collision; here none is lost. *)
Notation rcache := (gmap (prod (prod fml fml) fml) fml).

(** Cofactors of [f] with respect to a variable at or above its top one. *)
Definition cofs (s : bst) (f : fml) (n : node) (o : N) : fml * fml :=
  if decide (o < ORDER s n.1.1) then (f, f) else (lsonc f n, rsonc f n).

(** [tg ex] is the value passed as argument 'type' of quantify.  In the C code
    it is the bool 'existential' itself; see [c_tag] below. *)
Fixpoint rel_prod_rec (tg : bool -> N) (fuel : nat) (qv a b : fml) (ex : bool) (rc : rcache)
  : M (fml * rcache) := fun s =>
  match fuel with
  | O => None
  | S fuel =>
    if decide (a = ZERO \/ b = ZERO \/ a = bnot b) then Some ((ZERO, rc), s) else
    if decide (a = ONE \/ a = b) then (let* r := quantify b qv (tg ex) in ret (r, rc)) s else
    if decide (b = ONE) then (let* r := quantify a qv (tg ex) in ret (r, rc)) s else
    if decide (qv.2 = 0) then (let* r := B_And a b in ret (r, rc)) s else
    match rc !! (qv, a, b) with
    | Some r => Some ((r, rc), s)
    | None =>
      (let* nv := get_node qv in
       let* na := get_node a in
       let* nb := get_node b in
       let m := if decide (ORDER s na.1.1 < ORDER s nb.1.1) then na.1.1 else nb.1.1 in
       let o := ORDER s m in
       let ca := cofs s a na o in
       let cb := cofs s b nb o in
       let* rr :=
         (if decide (ORDER s nv.1.1 < o) then rel_prod_rec tg fuel nv.1.2 a b ex rc
          else if decide (o < ORDER s nv.1.1) then
            let* r1 := rel_prod_rec tg fuel qv ca.1 cb.1 ex rc in
            let* r2 := rel_prod_rec tg fuel qv ca.2 cb.2 ex r1.2 in
            let* r := find_insert m r1.1 r2.1 in ret (r, r2.2)
          else
            let* r1 := rel_prod_rec tg fuel nv.1.2 ca.1 cb.1 ex rc in
            let* r2 := rel_prod_rec tg fuel nv.1.2 ca.2 cb.2 ex r1.2 in
            let* r := step (if ex then tOR else tAND) r1.1 r2.1 in ret (r, r2.2)) in
       ret (rr.1, <[(qv, a, b) := rr.1]> rr.2)) s
    end
  end.
Definition rel_prod (tg : bool -> N) (qv a b : fml) (ex : bool) : M fml := fun s =>
  (let* r := rel_prod_rec tg (S (length (ord s) + length (ord s) + length (ord s))) qv a b ex ∅ in
   ret r.1) s.

(** The value of C's 'existential' as an int; new_bdd.c 936 and 938. *)
Definition c_tag (ex : bool) : N := if ex then 1 else 0.
(** The value quantify expects (new_bdd.c 160-163, 2661). *)
Definition good_tag (ex : bool) : N := if ex then tEXISTENTIAL else tUNIVERSAL.

(** graph.c 4137-4163. *)
Definition relprod_gen (tg : bool -> N) (ex : bool) (q a b : fml) : M fml :=
  let* v := B_Depends q in rel_prod tg v a b ex.
Definition relprod_thereis := relprod_gen c_tag true.
Definition relprod_forall := relprod_gen c_tag false.

(** ** With the tags quantify expects, the recursion is right *)
Definition ex_op (ex : bool) : bool -> bool -> bool := if ex then orb else andb.
Definition rp_ok (s : bst) (ex : bool) (qv a b r : fml) : Prop :=
  live s r /\ forall e, sem s e r =
    qvars (ex_op ex) (chain s qv) (fun e => sem s e a && sem s e b) e.
Definition rc_ok (s : bst) (ex : bool) (rc : rcache) : Prop :=
  forall qv a b r, rc !! (qv, a, b) = Some r ->
    live s qv /\ live s a /\ live s b /\ rp_ok s ex qv a b r.

Lemma good_ty ex : ty_op (good_tag ex) = ex_op ex.
Proof. by destruct ex. Qed.
Lemma rp_ok_pext s s' ex qv a b r : WFn s -> WFn s' -> pext s s' ->
  live s qv -> live s a -> live s b -> rp_ok s ex qv a b r -> rp_ok s' ex qv a b r.
Proof.
  intros W W' P Lq La Lb [Lr H]. split; [plive|]. intros e.
  rewrite (pext_sem s s') by done. rewrite H, (pext_chain s s') by done.
  apply qvars_ext. intros. by rewrite !(pext_sem s s').
Qed.
Lemma rc_ok_pext s s' ex rc : WFn s -> WFn s' -> pext s s' -> rc_ok s ex rc -> rc_ok s' ex rc.
Proof.
  intros W W' P H qv a b r E. destruct (H _ _ _ _ E) as (?&?&?&?).
  refine (conj _ (conj _ (conj _ _))); [plive|plive|plive|]. eapply rp_ok_pext; [| |exact P|..]; done.
Qed.

Ltac rcp := cbn [fst snd]; match goal with P : pext ?s ?s', H : rc_ok ?s _ _ |- rc_ok ?s' _ _ =>
  apply (rc_ok_pext s s'); done end.

Lemma quantify_spec ty s f vf : (ty = tUNIVERSAL \/ ty = tEXISTENTIAL) ->
  WF s -> live s f -> live s vf ->
  spec (quantify f vf ty) s (fun r s' => live s' r /\
    forall e, sem s' e r = qvars (ty_op ty) (chain s vf) (fun e => sem s e f) e).
Proof. intros. unfold spec, quantify. apply quantify_rec_spec; try done. unfold nvars. lia. Qed.

Lemma qvars_const op vs b e : op b b = b -> qvars op vs (fun _ => b) e = b.
Proof. intros H. revert e. induction vs as [|w vs IH]; intros e; [done|]. cbn. by rewrite !IH. Qed.
Lemma ex_op_idem ex b : ex_op ex b b = b.
Proof. by destruct ex, b. Qed.

Lemma cofs_spec s f v l r o : WFn s -> live s f -> nodes s !! f.2 = Some (v, l, r) ->
  o <= ORDER s v ->
  let c := cofs s f (v, l, r) o in
  live s c.1 /\ live s c.2 /\ o < lvl s c.1 /\ o < lvl s c.2 /\
  (o = ORDER s v -> forall e, sem s e f = if e v then sem s e c.1 else sem s e c.2) /\
  (o < ORDER s v -> c = (f, f)).
Proof.
  intros W Lf E Ho. unfold cofs. cbn [fst snd].
  destruct (live_lsonc s f v l r W E), (lvl_sonsc s f v l r W E) as (Hl&?&?).
  destruct (decide (o < ORDER s v)); cbn; split_and!; try done; try lia.
  intros -> e. by apply sem_sonsc.
Qed.

Lemma rel_prod_rec_spec ex fuel : forall s qv a b rc, WF s -> live s qv -> live s a -> live s b ->
  rc_ok s ex rc ->
  (N.to_nat (nvars s - lvl s qv) + N.to_nat (nvars s - lvl s a) + N.to_nat (nvars s - lvl s b) < fuel)%nat ->
  spec (rel_prod_rec good_tag fuel qv a b ex rc) s (fun p s' =>
    rp_ok s' ex qv a b p.1 /\ rc_ok s' ex p.2).
Proof.
  induction fuel as [|fuel IH]; intros s qv a b rc W Lq La Lb Hrc Hfuel; [lia|].
  unfold spec. cbn [rel_prod_rec].
  assert (Hgt : good_tag ex = tUNIVERSAL \/ good_tag ex = tEXISTENTIAL) by (destruct ex; auto).
  assert (HQ : forall f, live s f -> (forall e, sem s e f = sem s e a && sem s e b) ->
    spec (let* r := quantify f qv (good_tag ex) in ret (r, rc)) s (fun p s' =>
    rp_ok s' ex qv a b p.1 /\ rc_ok s' ex p.2)).
  { intros f Lf Hf. apply spec_bind. eapply spec_weaken; [by apply quantify_spec|].
    intros r s1 W1 P1 [Lr Sr] _ _. apply spec_ret; [done|]. split; [|rcp].
    split; [done|]. intros e. cbn [fst]. rewrite Sr, good_ty, (pext_chain s s1) by done.
    apply qvars_ext. intros. by rewrite !(pext_sem s s1). }
  destruct (decide (a = ZERO \/ b = ZERO \/ a = bnot b)) as [H0|H0].
  { apply (spec_ret (ZERO, rc) s); [done|]. split; [|done]. split; [apply live_const|].
    intros e. cbn [fst]. rewrite sem_ZERO.
    rewrite (qvars_ext _ _ _ (fun _ => false)); [symmetry; apply qvars_const; by destruct ex|].
    intros e'. destruct H0 as [->|[->| ->]]; rewrite ?sem_ZERO; [done|apply andb_false_r|].
    rewrite sem_bnot by done. by destruct (sem s e' b). }
  destruct (decide (a = ONE \/ a = b)) as [H1|H1].
  { apply HQ; [done|]. intros e. destruct H1 as [->| ->]; [by rewrite sem_ONE|by destruct (sem s e b)]. }
  destruct (decide (b = ONE)) as [->|H2].
  { apply HQ; [done|]. intros e. rewrite sem_ONE. by rewrite andb_true_r. }
  destruct (decide (qv.2 = 0)) as [Hq|Hq].
  { apply spec_bind. eapply spec_weaken; [by apply B_And_spec|].
    intros r s1 W1 P1 [Lr Sr] _ _. apply spec_ret; [done|]. split; [|rcp].
    split; [done|]. intros e. destruct qv as [c i]. cbn in Hq. subst i.
    rewrite chain_zero by done. cbn. rewrite Sr. by rewrite !(pext_sem s s1). }
  destruct (rc !! (qv, a, b)) as [r|] eqn:Erc.
  { apply (spec_ret (r, rc) s); [done|]. split; [|done]. apply (Hrc _ _ _ _ Erc). }
  destruct (live_cases _ _ Lq) as [?|(iv&vl&vr&Ev)]; [done|].
  destruct (live_cases _ _ La) as [Ha|(ia&al&ar&Ea)].
  { exfalso. destruct a as [[] ?]; cbn in Ha; subst; [apply H1|apply H0]; by left. }
  destruct (live_cases _ _ Lb) as [Hb|(ib&bl&br&Eb)].
  { exfalso. destruct b as [[] ?]; cbn in Hb; subst; [done|apply H0]; by right; left. }
  unfold bind at 1, get_node at 1. rewrite Ev.
  unfold bind at 1, get_node at 1. rewrite Ea.
  unfold bind at 1, get_node at 1. rewrite Eb. cbn [fst snd].
  pose proof (wf_node _ W _ _ _ _ Ev) as (Hiv&_&_&Lvl&_&Ovl&_).
  pose proof (wf_node _ W _ _ _ _ Ea) as (Hia&_).
  pose proof (wf_node _ W _ _ _ _ Eb) as (Hib&_).
  set (m := if decide (ORDER s ia < ORDER s ib) then ia else ib).
  assert (Hm : m < nvars s) by (unfold m; by case_decide).
  assert (Hma : ORDER s m <= ORDER s ia) by (unfold m; case_decide; lia).
  assert (Hmb : ORDER s m <= ORDER s ib) by (unfold m; case_decide; lia).
  assert (Hmab : m = ia \/ m = ib) by (unfold m; case_decide; auto).
  pose proof (cofs_spec s a ia al ar (ORDER s m) W La Ea Hma) as (La1&La2&Oa1&Oa2&Sa&Ca).
  pose proof (cofs_spec s b ib bl br (ORDER s m) W Lb Eb Hmb) as (Lb1&Lb2&Ob1&Ob2&Sb&Cb).
  set (ca := cofs s a (ia, al, ar) (ORDER s m)) in *.
  set (cb := cofs s b (ib, bl, br) (ORDER s m)) in *.
  assert (lvl s qv = ORDER s iv) as Olq by (unfold lvl; by rewrite Ev).
  assert (lvl s a = ORDER s ia) as Ola by (unfold lvl; by rewrite Ea).
  assert (lvl s b = ORDER s ib) as Olb by (unfold lvl; by rewrite Eb).
  assert (chain s qv = iv :: chain s vl) as Hch.
  { destruct qv. cbn in Ev. by apply (chain_node _ _ _ _ _ _ W Ev). }
  pose proof (ORDER_lt_nvars _ _ W Hiv). pose proof (ORDER_lt_nvars _ _ W Hia).
  pose proof (ORDER_lt_nvars _ _ W Hib). pose proof (lvl_le s vl W).
  pose proof (lvl_le s ca.1 W). pose proof (lvl_le s ca.2 W).
  pose proof (lvl_le s cb.1 W). pose proof (lvl_le s cb.2 W).
  (* level and meaning of the cofactors together *)
  assert (Sab : forall e, sem s e a && sem s e b =
    if e m then sem s e ca.1 && sem s e cb.1 else sem s e ca.2 && sem s e cb.2).
  { intros e. assert (forall x y (f : fml) (c : fml * fml) k, x <= y -> y = ORDER s k -> k < nvars s ->
      x = ORDER s m -> (x = y -> forall e, sem s e f = if e k then sem s e c.1 else sem s e c.2) ->
      (x < y -> c = (f, f)) -> sem s e f = if e m then sem s e c.1 else sem s e c.2) as Hx.
    { intros x y f c k Hxy Hy Hk Hxm Heq Hlt. destruct (N.eq_dec x y) as [Exy|Nxy].
      - rewrite Heq by done. assert (k = m) as -> by (apply (wf_ord_inj _ W); try done; lia). done.
      - rewrite Hlt by lia. cbn. by destruct (e m). }
    rewrite (Hx _ _ a ca ia Hma eq_refl Hia eq_refl Sa Ca).
    rewrite (Hx _ _ b cb ib Hmb eq_refl Hib eq_refl Sb Cb). by destruct (e m). }
  assert (Hdec : (N.to_nat (nvars s - lvl s ca.1) + N.to_nat (nvars s - lvl s cb.1) <
     N.to_nat (nvars s - lvl s a) + N.to_nat (nvars s - lvl s b))%nat /\
    (N.to_nat (nvars s - lvl s ca.2) + N.to_nat (nvars s - lvl s cb.2) <
     N.to_nat (nvars s - lvl s a) + N.to_nat (nvars s - lvl s b))%nat).
  { assert (forall (f : fml) (c : fml * fml) k, lvl s f = ORDER s k -> ORDER s k < nvars s ->
      ORDER s m <= ORDER s k -> ORDER s m < lvl s c.1 -> ORDER s m < lvl s c.2 ->
      (ORDER s m < ORDER s k -> c = (f, f)) ->
      lvl s f <= lvl s c.1 /\ lvl s f <= lvl s c.2) as Hx.
    { intros f c k Hf Hk Hmk O1 O2 Hc. destruct (N.eq_dec (ORDER s m) (ORDER s k)); [lia|].
      rewrite Hc by lia. cbn. lia. }
    destruct (Hx a ca ia Ola ltac:(lia) Hma Oa1 Oa2 Ca).
    destruct (Hx b cb ib Olb ltac:(lia) Hmb Ob1 Ob2 Cb).
    destruct Hmab as [Em|Em]; rewrite Em in *; lia. }
  destruct Hdec as [Hdec1 Hdec2].
  assert (Eab : env_ext (fun e => sem s e a && sem s e b)).
  { intros e e' He. by rewrite (sem_env_eq s e e' a), (sem_env_eq s e e' b). }
  assert (Hend : forall rr s', WF s' -> pext s s' -> rp_ok s' ex qv a b rr.1 -> rc_ok s' ex rr.2 ->
    spec (ret (rr.1, <[(qv, a, b) := rr.1]> rr.2)) s' (fun p s' =>
    rp_ok s' ex qv a b p.1 /\ rc_ok s' ex p.2)).
  { intros rr s' W' P' Hr Hc. apply spec_ret; [done|]. split; [done|]. cbn.
    intros q' a' b' r'. destruct (decide ((q', a', b') = (qv, a, b))) as [[= -> -> ->]|Hne].
    - rewrite lookup_insert. intros [= <-]. refine (conj _ (conj _ (conj _ _))); [plive|plive|plive|done].
    - rewrite lookup_insert_ne by done. apply Hc. }
  assert (Hlvl : forall k s' t u, WF s' -> pext s s' -> live s t -> live s u -> live s' k ->
      ORDER s m < lvl s t -> ORDER s m < lvl s u ->
      (forall e, sem s' e k = qvars (ex_op ex) (chain s qv) (fun e => sem s e t && sem s e u) e) ->
      ORDER s' m < lvl s' k).
  { intros k s' t u W' P' Lt Lu Lk Ot Ou Sk. rewrite (pext_ORDER _ _ _ P').
    enough (N.succ (ORDER s m) <= lvl s' k) by lia.
    apply lvl_ge; try done.
    { rewrite (pext_nvars _ _ P'). lia. }
    intros v Hv Ho e b'. rewrite (pext_nvars _ _ P') in Hv. rewrite (pext_ORDER _ _ _ P') in Ho.
    rewrite !Sk. apply qvars_indep.
    { intros e1 e2 He. by rewrite (sem_env_eq s e1 e2 t), (sem_env_eq s e1 e2 u). }
    intros. rewrite !sem_upd_above; try done; lia. }
  match goal with |- exists r s', ?m s = _ /\ _ => change (spec m s (fun p s' =>
    rp_ok s' ex qv a b p.1 /\ rc_ok s' ex p.2)) end.
  apply spec_bind.
  destruct (decide (ORDER s iv < ORDER s m)) as [Hlt|Hlt].
  { eapply spec_weaken; [apply (IH s vl a b); try done; lia|].
    intros rr s1 W1 P1 [Hr Hc] _ _. apply Hend; try done.
    destruct Hr as [Lr Sr]. split; [done|]. intros e. rewrite Sr.
    rewrite !(pext_chain s s1), Hch by done. cbn.
    assert (forall b' e, qvars (ex_op ex) (chain s vl) (fun e => sem s1 e a && sem s1 e b) (upd e iv b') =
      qvars (ex_op ex) (chain s vl) (fun e => sem s1 e a && sem s1 e b) e) as Hi.
    { intros b' e0. apply qvars_indep.
      - intros e1 e2 He. by rewrite (sem_env_eq s1 e1 e2 a), (sem_env_eq s1 e1 e2 b) by (try done; plive).
      - intros e1 b1. rewrite !(pext_sem s s1) by done. rewrite !sem_upd_above; try done; lia. }
    rewrite !Hi. by rewrite ex_op_idem. }
  destruct (decide (ORDER s m < ORDER s iv)) as [Hgt'|Hgt'].
  { apply spec_bind. eapply spec_weaken; [apply (IH s qv ca.1 cb.1); try done; lia|].
    intros r1 s1 W1 P1 [Hr1 Hc1] _ _.
    apply spec_bind. eapply spec_weaken; [apply (IH s1 qv ca.2 cb.2); try done; try plive|].
    { rewrite !(pext_lvl s s1), (pext_nvars _ _ P1) by done. lia. }
    intros r2 s2 W2 P2 [Hr2 Hc2] _ _.
    pose proof (pext_trans _ _ _ P1 P2) as P12.
    apply (rp_ok_pext s1 s2) in Hr1; try done; try plive.
    destruct Hr1 as [Lr1 Sr1]. destruct Hr2 as [Lr2 Sr2].
    rewrite (pext_chain s s2) in Sr1, Sr2 by done.
    assert (forall e, sem s2 e r1.1 = qvars (ex_op ex) (chain s qv) (fun e => sem s e ca.1 && sem s e cb.1) e) as S1.
    { intros e. rewrite Sr1. apply qvars_ext. intros. by rewrite !(pext_sem s s2). }
    assert (forall e, sem s2 e r2.1 = qvars (ex_op ex) (chain s qv) (fun e => sem s e ca.2 && sem s e cb.2) e) as S2.
    { intros e. rewrite Sr2. apply qvars_ext. intros. by rewrite !(pext_sem s s2). }
    apply spec_bind.
    eapply spec_weaken; [apply (find_insert_spec m r1.1 r2.1 s2); try done|].
    { by rewrite (pext_nvars _ _ P12). }
    { by apply (Hlvl _ s2 ca.1 cb.1). }
    { by apply (Hlvl _ s2 ca.2 cb.2). }
    intros r s3 W3 P3 [L3 S3] _ _. apply spec_ret; [done|]. intros _ _.
    pose proof (pext_trans _ _ _ P12 P3) as P13.
    intros. apply Hend; try done; cbn [fst snd]; [|rcp].
    split; [done|]. intros e. rewrite S3, S1, S2. rewrite <- qvars_ite.
    - rewrite (pext_chain s s3) by done. apply qvars_ext. intros e'.
      rewrite !(pext_sem s s3) by done. by rewrite Sab.
    - intros Hin. apply (chain_order s W qv Lq) in Hin. lia. }
  assert (m = iv) as Emiv by (apply (wf_ord_inj _ W); try done; lia).
  apply spec_bind. eapply spec_weaken; [apply (IH s vl ca.1 cb.1); try done; lia|].
  intros r1 s1 W1 P1 [Hr1 Hc1] _ _.
  apply spec_bind. eapply spec_weaken; [apply (IH s1 vl ca.2 cb.2); try done; try plive|].
  { rewrite !(pext_lvl s s1), (pext_nvars _ _ P1) by done. lia. }
  intros r2 s2 W2 P2 [Hr2 Hc2] _ _.
  pose proof (pext_trans _ _ _ P1 P2) as P12.
  apply (rp_ok_pext s1 s2) in Hr1; try done; try plive.
  destruct Hr1 as [Lr1 Sr1]. destruct Hr2 as [Lr2 Sr2].
  rewrite (pext_chain s s2) in Sr1, Sr2 by done.
  assert (forall e, sem s2 e r1.1 = qvars (ex_op ex) (chain s vl) (fun e => sem s e ca.1 && sem s e cb.1) e) as S1.
  { intros e. rewrite Sr1. apply qvars_ext. intros. by rewrite !(pext_sem s s2). }
  assert (forall e, sem s2 e r2.1 = qvars (ex_op ex) (chain s vl) (fun e => sem s e ca.2 && sem s e cb.2) e) as S2.
  { intros e. rewrite Sr2. apply qvars_ext. intros. by rewrite !(pext_sem s s2). }
  apply spec_bind.
  eapply spec_weaken; [apply step_spec; try done|].
  { destruct ex; [right; by left|by left]. }
  intros r s3 W3 P3 [L3 S3] _ _. apply spec_ret; [done|]. intros _ _.
  pose proof (pext_trans _ _ _ P12 P3) as P13.
  apply Hend; try done; cbn [fst snd]; [|rcp].
  split; [done|]. intros e. rewrite S3, S1, S2, (pext_chain s s3), Hch by done. cbn.
  assert (forall x y, opsem (if ex then tOR else tAND) x y = ex_op ex x y) as -> by (by destruct ex).
  assert (iv ∉ chain s vl) as Hni. { intros Hin. apply (chain_order s W vl Lvl) in Hin. lia. }
  assert (Hside : forall bb, qvars (ex_op ex) (chain s vl) (fun e => sem s3 e a && sem s3 e b) (upd e iv bb) =
    qvars (ex_op ex) (chain s vl) (fun e => sem s e (if bb then ca.1 else ca.2) && sem s e (if bb then cb.1 else cb.2)) e).
  { intros bb. transitivity (qvars (ex_op ex) (chain s vl) (fun e => sem s e (if bb then ca.1 else ca.2)
      && sem s e (if bb then cb.1 else cb.2)) (upd e iv bb)); [|apply qvars_indep].
    - rewrite (qvars_ext _ _ _ (fun e : env => if e iv then sem s e ca.1 && sem s e cb.1 else sem s e ca.2 && sem s e cb.2)).
      + rewrite qvars_ite by done. rewrite upd_eq. by destruct bb.
      + intros e'. rewrite !(pext_sem s s3) by done. rewrite Sab. by rewrite Emiv.
    - intros e1 e2 He. destruct bb.
      + by rewrite (sem_env_eq s e1 e2 ca.1), (sem_env_eq s e1 e2 cb.1).
      + by rewrite (sem_env_eq s e1 e2 ca.2), (sem_env_eq s e1 e2 cb.2).
    - intros e1 b1. rewrite <- Emiv. destruct bb.
      + by rewrite (sem_upd_above s m b1 W Hm ca.1), (sem_upd_above s m b1 W Hm cb.1).
      + by rewrite (sem_upd_above s m b1 W Hm ca.2), (sem_upd_above s m b1 W Hm cb.2). }
  rewrite !Hside. done.
Qed.

Lemma relprod_good_spec ex s q a b : WF s -> live s q -> live s a -> live s b ->
  spec (relprod_gen good_tag ex q a b) s (fun r s' => live s' r /\ exists vs,
    (forall v, v ∈ vs <-> dep (fun e => sem s e q) v) /\
    forall e, sem s' e r = qvars (ex_op ex) vs (fun e => sem s e a && sem s e b) e).
Proof.
  intros W Lq La Lb. apply spec_bind. eapply spec_weaken; [by apply B_Depends_spec|].
  intros p s1 W1 P1 (vs&Hp&Hvs) _ _. unfold rel_prod.
  pose proof (chain_prod s1 p vs W1 Hp) as Hc. destruct Hp as [Lp _].
  apply spec_bind. eapply spec_weaken.
  { apply (rel_prod_rec_spec ex (S (length (ord s1) + length (ord s1) + length (ord s1))) s1 p a b ∅); try done; try plive.
    unfold nvars. lia. }
  intros r s2 W2 P2 [[Lr Sr] _] _ _. apply spec_ret; [done|]. split; [done|].
  exists (chain s1 p). split.
  - intros v. by rewrite Hc.
  - intros e. rewrite Sr, (pext_chain s1 s2) by done. apply qvars_ext. intros.
    by rewrite !(pext_sem s1 s2), !(pext_sem s s1) by (try done; plive).
Qed.
