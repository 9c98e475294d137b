(* Overload resolution counts the solutions. *)
From Coq Require Import String List Bool Arith Lia.
From Verif Require Import TyModel TyThms InfModel InfSpec InfThms InfRun InfTop InfEnd
  OvModel OvSpec OvPath OvStore.
Import ListNotations.
Open Scope list_scope.

Section Ov.
Variable ar : con -> nat.
Hypothesis BA : base_arities ar.
Variable gheap : heap.
Variable sigma : rd.
Hypothesis GS : store ar gheap.
Hypothesis GR : reading gheap sigma.
Hypothesis GV : forall p, nth_error gheap p = Some NVar -> sigma p = Nd (LVar p) [].
Variable fns : list fn.
Hypothesis GT : good_table fns sigma gheap.
Variable fuel : nat.
Variable veq : tstate -> nat -> nat -> bool.

Notation fun_type := (fun_type fns sigma).
Notation call := (call fns sigma).
Notation over := (fun u : nat * tree => overloaded fns (fst u)).
Notation good_fn := (good_fn fns sigma gheap).

Definition at_ (x : rd) (o : occ) : nat * tree := (fst o, x (snd o)).
Definition occs_ok (n : nat) (todo : list occ) : Prop :=
  forall o, In o todo -> snd o < n /\ nth_error fns (fst o) <> None.

Lemma arrows_inj l : forall l' t t', length l = length l' -> arrows l t = arrows l' t' -> l = l' /\ t = t'.
Proof.
  induction l as [|a l IH]; intros [|b l'] t t' L E; try discriminate; cbn in *; [auto|].
  injection E as -> E. destruct (IH l' t t') as [-> ->]; auto.
Qed.
Lemma inst_arrows v l t : inst v (arrows l t) = arrows (map (inst v) l) (inst v t).
Proof. induction l as [|a l IH]; cbn; [reflexivity|]. unfold arrow, tcon. now rewrite IH. Qed.
Lemma fun_type_inst v d a : fun_type d a -> fun_type d (inst v a).
Proof. intros (F & w & E & ->). exists F, (fun p => inst v (w p)). split; [assumption|]. apply inst_inst. Qed.

Lemma at_agree n x y todo : occs_ok n todo -> agree n x y -> map (at_ y) todo = map (at_ x) todo.
Proof.
  intros T A. apply map_ext_in. intros o I. unfold at_. f_equal. apply A. now apply T.
Qed.

(* ---- functions ---- *)
Lemma wp_fun s r f todo t : pre ar s r -> nth_error fns f <> None ->
  (forall x, r = Some x -> fun_type f t) ->
  wp ar s (build_fun fuel gheap fns f todo s) r (fun a s1 r1 =>
    fst a < length (t_heap s1)
    /\ snd a = (if overloaded fns f then (f, fst a) :: todo else todo)
    /\ (forall x, reading (t_heap s1) x -> fun_type f (x (fst a)))
    /\ (forall x, r1 = Some x -> x (fst a) = t)).
Proof.
  intros P Nf W. unfold build_fun, overloaded. destruct (nth_error fns f) as [F|] eqn:EF; [|congruence].
  assert (V : exists v, forall x, r = Some x -> t = inst v (sigma (fn_type F))).
  { destruct r as [x|]; [|exists (fun _ => t); discriminate].
    destruct (W x eq_refl) as (F' & v & E & ->). rewrite EF in E. injection E as <-. exists v. auto. }
  destruct V as [v V].
  eapply wp_bind; [apply (wp_fresh ar fuel gheap sigma GS GR GV s r (fn_type F) v P); eapply GT; eauto|].
  intros p s1 r1 S1 (Lp & G1 & T1). assert (P1 := step_pre _ _ _ _ _ S1).
  eapply wp_bind; [now apply wp_real|]. intros q s2 r2 S2 (-> & -> & Lq & _ & Eq).
  apply wp_ret; [assumption|]. intros _ _. cbn [fst snd]. split; [assumption|]. split; [reflexivity|]. split.
  - intros x R. rewrite (Eq x R). destruct (G1 x R) as [g ->]. exists F, g. auto.
  - intros x E. assert (R := proj2 P1 x E). rewrite (Eq x R), (T1 x E).
    destruct (step_track _ _ _ _ _ S1 x E) as (y & Ey & _). symmetry. now apply (V y).
Qed.

Lemma wp_args ds : forall s r p todo l t, pre ar s r -> p < length (t_heap s) ->
  (forall d, In d ds -> nth_error fns d <> None) ->
  (forall x, r = Some x -> x p = arrows l t /\ Forall2 fun_type ds l) ->
  wp ar s (build_args fuel gheap fns p ds todo s) r (fun a s1 r1 =>
    fst a < length (t_heap s1)
    /\ exists us, snd a = rev us ++ todo /\ occs_ok (length (t_heap s1)) us
    /\ (forall x, reading (t_heap s1) x -> exists l', x p = arrows l' (x (fst a))
          /\ Forall2 fun_type ds l' /\ map (at_ x) us = filter over (combine ds l'))).
Proof.
  induction ds as [|d ds IH]; intros s r p todo l t P Lp D W; cbn [build_args].
  - apply wp_ret; [assumption|]. cbn [fst snd]. split; [assumption|]. exists [].
    split; [reflexivity|]. split; [intros o []|]. intros x R. exists [].
    split; [reflexivity|]. split; [constructor|reflexivity].
  - set (a0 := match l with [] => t | a :: _ => a end). set (l0 := match l with [] => [] | _ :: l => l end).
    assert (W0 : forall x, r = Some x -> l = a0 :: l0 /\ fun_type d a0 /\ Forall2 fun_type ds l0
        /\ x p = arrow a0 (arrows l0 t)).
    { intros x E. destruct (W x E) as [E1 F]. inversion F; subst. unfold a0, l0. auto. }
    eapply wp_bind; [apply (wp_fun s r d todo a0 P)|].
    { apply D. now left. } { intros x E. now apply (W0 x). }
    intros q s1 r1 S1 (Lq & Eq & Vq & Tq). assert (P1 := step_pre _ _ _ _ _ S1). assert (L1 := step_len _ _ _ _ _ S1).
    assert (W1 : forall x, r1 = Some x -> x p = arrow (x (fst q)) (arrows l0 t) /\ hinted x None (arrows l0 t)).
    { intros x E. split; [|exact I]. destruct (step_track _ _ _ _ _ S1 x E) as (y & Ey & A & _).
      rewrite (Tq x E), (A p Lp). now apply (W0 y). }
    eapply wp_bind; [apply (wp_apply ar BA fuel s1 r1 None p (fst q) (arrows l0 t) P1); [lia|assumption|exact I|assumption]|].
    intros p2 s2 r2 S2 (Lp2 & V2 & T2). assert (P2 := step_pre _ _ _ _ _ S2). assert (L2 := step_len _ _ _ _ _ S2).
    assert (S12 := step_trans _ _ _ _ _ _ _ S1 S2).
    eapply wp_conseq; [apply (IH s2 r2 p2 (snd q) l0 t P2 Lp2)|].
    + intros e I. apply D. now right.
    + intros x E. split; [now apply T2|]. destruct (step_track _ _ _ _ _ S12 x E) as (y & Ey & _). now apply (W0 y).
    + intros a s3 r3 S3 (La & us & Eu & Ou & V3) _ _. split; [assumption|]. assert (L3 := step_len _ _ _ _ _ S3).
      exists (if overloaded fns d then (d, fst q) :: us else us). split; [|split].
      * rewrite Eu, Eq. destruct (overloaded fns d); cbn; [now rewrite <- app_assoc|reflexivity].
      * destruct (overloaded fns d); [|assumption]. intros o [<-|I]; [|now apply Ou]. cbn.
        split; [lia|]. apply D. now left.
      * intros x R. destruct (V3 x R) as (l' & E1 & F1 & M1).
        assert (R2 : reading (t_heap s2) x) by (eapply step_back; eauto).
        assert (R1 : reading (t_heap s1) x) by (eapply step_back; eauto).
        exists (x (fst q) :: l'). split; [|split].
        -- cbn. rewrite <- E1. now apply V2.
        -- constructor; [now apply Vq|assumption].
        -- cbn [combine filter fst]. destruct (overloaded fns d); cbn; [|assumption]. unfold at_ at 1. cbn. now rewrite M1.
Qed.

Lemma wp_call g G s r todo l t : pre ar s r -> nth_error fns g = Some G ->
  (forall d, In d (fn_impl G) -> nth_error fns d <> None) ->
  (forall x, r = Some x -> fun_type g (arrows l t) /\ Forall2 fun_type (fn_impl G) l) ->
  wp ar s (build_call fuel gheap fns g todo s) r (fun a s1 r1 =>
    fst a < length (t_heap s1)
    /\ exists us, snd a = rev us ++ todo /\ occs_ok (length (t_heap s1)) us
    /\ (forall x, reading (t_heap s1) x -> call g (x (fst a)) (map (at_ x) us))
    /\ (forall x, r1 = Some x -> x (fst a) = t
          /\ map (at_ x) us = filter over (combine (g :: fn_impl G) (arrows l t :: l)))).
Proof.
  intros P EG D W. unfold build_call. rewrite EG.
  assert (Ng : nth_error fns g <> None) by congruence.
  eapply wp_bind; [apply (wp_fun s r g todo (arrows l t) P Ng)|].
  { intros x E. now apply (W x). }
  intros q s1 r1 S1 (Lq & Eq & Vq & Tq). assert (P1 := step_pre _ _ _ _ _ S1). assert (L1 := step_len _ _ _ _ _ S1).
  eapply wp_conseq; [apply (wp_args (fn_impl G) s1 r1 (fst q) (snd q) l t P1 Lq D)|].
  { intros x E. split; [now apply Tq|]. destruct (step_track _ _ _ _ _ S1 x E) as (y & Ey & _). now apply (W y). }
  intros a s2 r2 S2 (La & us & Eu & Ou & V) _. split; [assumption|]. assert (L2 := step_len _ _ _ _ _ S2).
  assert (V' : forall x, reading (t_heap s2) x -> exists l', x (fst q) = arrows l' (x (fst a))
    /\ Forall2 fun_type (fn_impl G) l' /\
    map (at_ x) (if overloaded fns g then (g, fst q) :: us else us)
      = filter over (combine (g :: fn_impl G) (x (fst q) :: l'))).
  { intros x R. destruct (V x R) as (l' & E1 & F1 & M1). exists l'. split; [assumption|]. split; [assumption|].
    cbn [combine filter fst]. destruct (overloaded fns g); cbn; [|assumption]. unfold at_ at 1. cbn. now rewrite M1. }
  exists (if overloaded fns g then (g, fst q) :: us else us). split; [|split; [|split]].
  - rewrite Eu, Eq. destruct (overloaded fns g); cbn; [now rewrite <- app_assoc|reflexivity].
  - destruct (overloaded fns g); [|assumption]. intros o [<-|I]; [|now apply Ou]. cbn. split; [lia|assumption].
  - intros x R. destruct (V' x R) as (l' & E1 & F1 & M1). exists G, l'. split; [assumption|].
    split; [|split; [assumption|now rewrite <- E1]]. rewrite <- E1. apply Vq. eapply step_back; eauto.
  - intros x E. assert (R := proj2 (step_pre _ _ _ _ _ S2) x E). destruct (V' x R) as (l' & E1 & F1 & M1).
    destruct (step_track _ _ _ _ _ S2 x E) as (y & Ey & A & _).
    destruct (step_track _ _ _ _ _ S1 y Ey) as (z & Ez & _). destruct (W z Ez) as [_ F].
    assert (X : x (fst q) = arrows l t) by (rewrite (A _ Lq); now apply Tq).
    rewrite X in *. destruct (arrows_inj l l' t (x (fst a))) as [<- <-]; [|assumption|auto].
    rewrite (Forall2_len _ _ _ F), (Forall2_len _ _ _ F1). reflexivity.
Qed.

(* ---- one alternative ---- *)
Definition altp (h : heap) (cur : nat) (rest : list occ) (g : nat) (l : list nat) : Prop :=
  exists x uses, reading h x /\ call g (x cur) uses /\ psol fns sigma (rev uses ++ map (at_ x) rest) l.
Definition altd (h : heap) (cur : nat) (rest : list occ) (g : nat) (n : nat) : Prop :=
  exists x uses, reading h x /\ call g (x cur) uses
    /\ unfinished fns sigma (rev uses ++ map (at_ x) rest) n.
Definition good {A} (s : tstate) (o : res A) (D : Prop) (Q : A -> Prop) : Prop :=
  match o with
  | ROk a s' => same ar s s' /\ Q a
  | RFail s' => D /\ t_ctx s' <> []
  | RCrash => False
  | RStuck => True
  end.
Definition counted (depth : nat) (sub : list occ -> M answer) : Prop := forall todo s, okst ar s -> allnv s ->
  occs_ok (length (t_heap s)) todo ->
  good s (sub todo s) (deep fns sigma (t_heap s) todo depth) (fun a => counts (paths fns sigma (t_heap s) todo) a eq).

Lemma counts_iff {A} (P Q : A -> Prop) a is : (forall x, P x <-> Q x) -> counts P a is -> counts Q a is.
Proof.
  intros H. destruct a; cbn.
  - intros C x q. apply (C x). now apply H.
  - intros (x & p & E & U). exists x. split; [now apply H|]. split; [assumption|]. intros y q. apply U. now apply H.
  - intros (L & x & y & p & q & N). split; [assumption|]. exists x, y. split; [now apply H|]. split; [now apply H|assumption].
Qed.

Lemma occs_mono n n' todo : n <= n' -> occs_ok n todo -> occs_ok n' todo.
Proof. intros L T o I. destruct (T o I). split; [lia|assumption]. Qed.

Lemma one_ok depth sub f cur rest g s : counted depth sub -> okst ar s -> allnv s -> cur < length (t_heap s) ->
  occs_ok (length (t_heap s)) rest -> good_fn g ->
  good s (one_alt fuel gheap fns veq sub f cur rest g s) (altd (t_heap s) cur rest g depth)
    (fun a => counts (altp (t_heap s) cur rest g) a eq).
Proof.
  intros SUB O NV Lc TR (G & c & lg & EG & EC & SG & FG). unfold one_alt. rewrite EG, EC.
  assert (DI : forall d, In d (fn_impl G) -> nth_error fns d <> None).
  { intros d I. clear - FG I. induction FG as [|a b ds l Ha F IH]; [destruct I|].
    destruct I as [<-|I]; [|auto]. destruct Ha as (F0 & v & E & _). congruence. }
  unfold bind at 1. unfold fresh_inst.
  destruct (copy_type fuel gheap c (t_heap s)) as [[alt h1]|] eqn:E1; [|exact I].
  destruct (copy_type_spec ar gheap sigma GR GV GS _ _ _ _ _ E1 (okst_store _ _ O))
    as (S1 & (tl & EH) & La & B1 & V1 & C1).
  set (s1 := set_heap s h1).
  assert (O1 : okst ar s1) by (apply store_okst; [assumption|apply O]).
  assert (SS : same ar s s1) by (split; [assumption|]; split; [exact NV|]; split; [reflexivity|]; now exists tl).
  unfold bind at 1, push. set (sp := push_ctx s1).
  assert (Op : okst ar sp) by now apply store_push.
  assert (Np : allnv sp) by (constructor; [constructor|exact NV]).
  assert (Lc1 : cur < length (t_heap sp)).
  { cbn. rewrite EH, app_length. lia. }
  pose proof (matches_ok ar fuel veq sp alt cur Op Np La Lc1) as MK.
  unfold bind at 1. destruct (matches fuel veq alt cur sp) as [b s2|s2| |]; [|destruct MK|destruct MK|exact I].
  destruct MK as (O2 & N2 & X2 & L2 & MK). destruct b.
  2: { (* no match *)
    destruct (pop_same ar s1 s2 O1 O2 N2 X2) as (s3 & Ep & Sm).
    unfold bind. rewrite Ep. cbn. split; [exact (same_trans ar _ _ _ SS Sm)|].
    intros l (x & uses & R & (G' & l0 & EG' & (G'' & v & EG'' & Ev) & F0 & _) & _).
    rewrite EG in EG', EG''. injection EG' as <-. injection EG'' as <-.
    rewrite SG, inst_arrows in Ev.
    apply arrows_inj in Ev as [_ Ev].
    2: { rewrite map_length, (Forall2_len _ _ _ F0), (Forall2_len _ _ _ FG). reflexivity. }
    destruct (C1 x v R) as (y & Ry & A & Ey). apply (MK y Ry). rewrite Ey, (A cur Lc). congruence. }
  destruct MK as (M1 & M2 & x0 & R0 & E0).
  (* the call of the alternative *)
  assert (Lc2 : cur < length (t_heap s2)) by (rewrite L2; assumption).
  assert (BC : forall r, (forall x, r = Some x -> reading (t_heap s2) x) -> forall l t,
     (forall x, r = Some x -> fun_type g (arrows l t) /\ Forall2 fun_type (fn_impl G) l) -> _)
    by (intros r Hr l t; exact (wp_call g G s2 r rest l t (conj O2 Hr) EG DI)).
  (* it cannot fail *)
  assert (R0p : reading h1 x0) by exact (M1 _ R0).
  destruct (V1 x0 R0p) as [v0 Ev0].
  assert (W0 : fun_type g (arrows (map (inst v0) lg) (x0 cur)) /\ Forall2 fun_type (fn_impl G) (map (inst v0) lg)).
  { split.
    - exists G, v0. split; [assumption|]. rewrite SG, inst_arrows. f_equal. congruence.
    - clear - FG. induction FG; cbn; constructor; auto. now apply fun_type_inst. }
  pose proof (BC (Some x0) ltac:(intros x [= <-]; assumption) _ _ ltac:(intros x [= <-]; exact W0)) as BC0.
  pose proof (keeps_call fuel gheap fns g rest s2 N2) as N3.
  unfold bind at 1. destruct (build_call fuel gheap fns g rest s2) as [nw s3|s3| |] eqn:EB;
    [|destruct BC0; discriminate|destruct BC0|exact I].
  destruct BC0 as (r3 & S3 & Ln & us & Eu & Ou & Vc & Vt).
  assert (O3 := proj1 S3).
  destruct (S3) as (_ & L3 & X3 & B3 & (y0 & -> & Ry0 & A0)).
  (* the unification that cannot fail *)
  unfold bind at 1, must_unify.
  assert (Lc3 : cur < length (t_heap s3)) by lia.
  pose proof (unify_spec ar fuel s3 (fst nw) cur O3 Ln Lc3) as U.
  destruct (unify fuel s3 (fst nw) cur) as [s4|s4| |] eqn:EU; cbn in U; [| |destruct U|exact I].
  2: { destruct U as (_ & _ & U). apply (U y0 Ry0). rewrite (proj1 (Vt y0 eq_refl)). symmetry. now apply A0. }
  destruct U as (O4 & L4 & _ & U).
  assert (N4 : allnv s4) by (eapply unify_nv; eauto).
  assert (X4 : ext s3 s4) by (apply grows_ext; eapply unify_grows; eauto).
  assert (T4 : occs_ok (length (t_heap s4)) (snd nw)).
  { rewrite Eu, L4. intros o I. apply in_app_iff in I as [I|I]; [apply Ou; now apply in_rev|].
    apply (fun L => occs_mono (length (t_heap s)) _ rest L TR o I).
    assert (H := same_len ar _ _ SS). cbn in L2. change (t_heap s1) with h1 in H. lia. }
  pose proof (SUB (snd nw) s4 O4 N4 T4) as SB.
  unfold bind at 1. destruct (sub (snd nw) s4) as [a s5|s5| |]; [| |destruct SB|exact I].
  2: { destruct SB as [(z & Rz & Pz) CX]. split; [|exact CX]. apply U in Rz as [Rz Ez]. exists z, (map (at_ z) us).
       split; [apply B1; apply M1; now apply B3|]. split; [rewrite <- Ez; now apply Vc|].
       rewrite Eu, map_app, map_rev in Pz. exact Pz. }
  destruct SB as [S5 CA].
  assert (X : ext sp s5).
  { eapply ext_trans; [exact X2|]. eapply ext_trans; [exact X3|]. eapply ext_trans; [exact X4|].
    now apply (same_ext ar). }
  destruct (pop_same ar s1 s5 O1 (proj1 S5) (proj1 (proj2 S5)) X) as (s6 & Ep & Sm).
  unfold bind. rewrite Ep. cbn [ret good]. split; [exact (same_trans ar _ _ _ SS Sm)|].
  eapply counts_iff; [|exact CA]. intros l. rewrite Eu. split.
  - (* solutions found are solutions *)
    intros (z & Rz & Pz). apply U in Rz as [Rz Ez]. exists z, (map (at_ z) us).
    split; [apply B1; apply M1; now apply B3|]. split; [rewrite <- Ez; now apply Vc|].
    rewrite map_app, map_rev in Pz. exact Pz.
  - (* solutions are found *)
    intros (x & uses & R & C & Px).
    destruct C as (G' & l0 & EG' & FT & F0 & EUs). rewrite EG in EG'. injection EG' as <-.
    destruct FT as (G'' & v & EG'' & Ev). rewrite EG in EG''. injection EG'' as <-.
    rewrite SG, inst_arrows in Ev.
    assert (Ll : length l0 = length (map (inst v) lg))
      by (rewrite map_length, (Forall2_len _ _ _ F0), (Forall2_len _ _ _ FG); reflexivity).
    destruct (arrows_inj _ _ _ _ Ll Ev) as [El Ex].
    destruct (C1 x v R) as (y & Ry & A & Ey).
    assert (Ry2 : reading (t_heap s2) y).
    { apply M2; [assumption|]. rewrite Ey, (A cur Lc). now symmetry. }
    pose proof (BC (Some y) ltac:(intros ? [= <-]; assumption) l0 (x cur)) as BCy.
    destruct BCy as (r3 & S3' & _ & us' & Eu' & _ & _ & Vt').
    { intros ? _. split; [|assumption]. exists G, v. split; [assumption|]. rewrite SG, inst_arrows. congruence. }
    assert (us' = us) as ->.
    { rewrite Eu in Eu'. apply app_inv_tail in Eu'. rewrite <- (rev_involutive us'), <- Eu'. apply rev_involutive. }
    destruct S3' as (_ & _ & _ & _ & (z & -> & Rz & Az)).
    destruct (Vt' z eq_refl) as [Ez Mz].
    assert (Lh : length (t_heap s) <= length (t_heap s2)).
    { assert (H := same_len ar _ _ SS). cbn in L2. change (t_heap s1) with h1 in H. lia. }
    assert (Ag : agree (length (t_heap s)) x z).
    { intros p Lp. rewrite Az by lia. now apply A. }
    exists z. split; [apply U; split; [assumption|]; rewrite Ez; symmetry; now apply Ag|].
    assert (X1 : map (at_ z) (rev us ++ rest) = rev uses ++ map (at_ x) rest).
    { rewrite map_app, map_rev, Mz, (at_agree _ _ _ _ TR Ag), <- EUs. reflexivity. }
    change (psol fns sigma (map (at_ z) (rev us ++ rest)) l). rewrite X1. exact Px.
Qed.

Lemma altp_same s s' cur rest g l : okst ar s -> same ar s s' -> cur < length (t_heap s) ->
  occs_ok (length (t_heap s)) rest ->
  (altp (t_heap s') cur rest g l <-> altp (t_heap s) cur rest g l).
Proof.
  intros O S Lc T. split; intros (x & us & R & C & Px).
  - exists x, us. split; [eapply same_back; eauto|]. auto.
  - destruct (same_reading ar s s' x O S R) as (y & Ry & A). exists y, us. split; [assumption|].
    split; [now rewrite (A cur Lc)|]. now rewrite (at_agree _ _ _ _ T A).
Qed.

(* ---- the alternatives of a function ---- *)
Definition altps (h : heap) (cur : nat) (rest : list occ) (i : nat) (alts : list nat)
    (found : option (list nat)) (l' : list nat) : Prop :=
  found = Some l' \/ exists k g l, nth_error alts k = Some g /\ l' = (i + k) :: l /\ altp h cur rest g l.

Lemma altd_same s s' cur rest g n : same ar s s' -> altd (t_heap s') cur rest g n -> altd (t_heap s) cur rest g n.
Proof. intros S (x & us & R & C & Px). exists x, us. split; [eapply same_back; eauto|]. auto. Qed.

Lemma try_ok depth sub f cur rest : counted depth sub -> forall alts s i found, okst ar s -> allnv s ->
  cur < length (t_heap s) -> occs_ok (length (t_heap s)) rest -> (forall g, In g alts -> good_fn g) ->
  (forall l0, found = Some l0 -> exists j l, l0 = j :: l /\ j < i) ->
  good s (try_alts fuel gheap fns veq sub f cur rest i alts found s)
    (exists k g, nth_error alts k = Some g /\ altd (t_heap s) cur rest g depth)
    (fun a => counts (altps (t_heap s) cur rest i alts found) a eq).
Proof.
  intros SUB. induction alts as [|g alts IH]; intros s i found O N Lc T GA FO; cbn [try_alts].
  - split; [now apply same_refl|]. destruct found as [l0|]; cbn.
    + exists l0. split; [now left|]. split; [reflexivity|].
      intros y [E|(k & g & l & E & _)]; [now injection E|]. destruct k; discriminate.
    + intros x [E|(k & g & l & E & _)]; [discriminate|]. destruct k; discriminate.
  - unfold bind at 1. pose proof (one_ok depth sub f cur rest g s SUB O N Lc T (GA g (or_introl eq_refl))) as OK.
    destruct (one_alt fuel gheap fns veq sub f cur rest g s) as [a s1|s1| |]; [| |destruct OK|exact I].
    2: { destruct OK as [OK CX]. split; [|exact CX]. exists 0, g. auto. }
    destruct OK as [S1 CA].
    assert (O1 := proj1 S1). assert (N1 := proj1 (proj2 S1)). assert (L1 := same_len ar _ _ S1).
    assert (Lc1 : cur < length (t_heap s1)) by lia.
    assert (T1 := occs_mono _ _ _ L1 T).
    assert (GA' : forall g, In g alts -> good_fn g) by (intros; apply GA; now right).
    (* the rest of the loop *)
    assert (REST : forall found', (forall l0, found' = Some l0 -> exists j l, l0 = j :: l /\ j < S i) ->
      (forall l', found' = Some l' <-> found = Some l' \/ exists l, l' = i :: l /\ altp (t_heap s) cur rest g l) ->
      good s (try_alts fuel gheap fns veq sub f cur rest (S i) alts found' s1)
        (exists k g', nth_error (g :: alts) k = Some g' /\ altd (t_heap s) cur rest g' depth)
        (fun a => counts (altps (t_heap s) cur rest i (g :: alts) found) a eq)).
    { intros found' FO' EF. specialize (IH s1 (S i) found' O1 N1 Lc1 T1 GA' FO').
      destruct (try_alts fuel gheap fns veq sub f cur rest (S i) alts found' s1) as [b s2|s2| |]; auto.
      2: { destruct IH as [(k & g' & Ek & A) CX]. split; [|exact CX]. exists (S k), g'. split; [assumption|]. now apply (altd_same s s1). }
      destruct IH as [S2 C2]. split; [exact (same_trans ar _ _ _ S1 S2)|].
      eapply counts_iff; [|exact C2]. intros l'. unfold altps. split.
      - intros [E|(k & g' & l & Ek & -> & A)].
        + apply EF in E as [E|(l & -> & A)]; [now left|]. right. exists 0, g, l. rewrite Nat.add_0_r. auto.
        + right. exists (S k), g', l. split; [assumption|]. split; [f_equal; lia|].
          apply (altp_same s s1); auto.
      - intros [E|(k & g' & l & Ek & -> & A)].
        + left. apply EF. now left.
        + destruct k as [|k]; cbn in Ek.
          * injection Ek as <-. left. apply EF. right. rewrite Nat.add_0_r. eauto.
          * right. exists k, g', l. split; [assumption|]. split; [f_equal; lia|].
            apply (altp_same s s1); auto. }
    destruct a as [f'|l|n].
    + cbn in CA. apply REST.
      * intros l0 E. destruct (FO l0 E) as (j & l & -> & Lj). exists j, l. split; [reflexivity|lia].
      * intros l'. split; [auto|]. intros [E|(l & _ & A)]; [assumption|]. destruct (CA l A).
    + destruct CA as (l1 & A & <- & Ul). destruct found as [l0|].
      * split; [assumption|]. cbn. split; [lia|]. exists l0, (i :: l). split; [now left|]. split.
        -- right. exists 0, g, l. rewrite Nat.add_0_r. auto.
        -- destruct (FO l0 eq_refl) as (j & l2 & -> & Lj). intros [= -> _]. lia.
      * apply REST.
        -- intros l0 [= <-]. exists i, l. split; [reflexivity|lia].
        -- intros l'. split.
           ++ intros [= <-]. right. eauto.
           ++ intros [E|(l2 & -> & A2)]; [discriminate|]. now rewrite (Ul _ A2).
    + destruct CA as (Ln & x & y & Ax & Ay & Nxy).
      assert (TWO : exists x y, altps (t_heap s) cur rest i (g :: alts) found x
        /\ altps (t_heap s) cur rest i (g :: alts) found y /\ x <> y).
      { exists (i :: x), (i :: y). split; [|split; [|congruence]];
          right; eexists 0, g, _; rewrite Nat.add_0_r; eauto. }
      destruct found; (split; [assumption|]); cbn; (split; [lia|exact TWO]).
Qed.

(* ---- the search ---- *)
Theorem nbr_ok depth : counted depth (nbr_succ fuel gheap fns veq depth).
Proof.
  induction depth as [|depth IH]; intros todo s O N T.
  - destruct todo as [|[f p] rest]; cbn.
    2: { split; [|apply O].
         destruct (flat_reading (t_heap s) (Nd (LVar 0) [])) as (x & R & _); [apply O|apply O|].
         exists x. split; [assumption|constructor]. }
    split; [now apply same_refl|]. cbn. exists []. split.
    + destruct (flat_reading (t_heap s) (Nd (LVar 0) [])) as (x & R & _); [apply O|apply O|].
      exists x. split; [assumption|constructor].
    + split; [reflexivity|]. intros y (r & _ & P). now inversion P.
  - destruct todo as [|[f p] rest]; cbn [nbr_succ].
    + split; [now apply same_refl|]. cbn. exists []. split.
      * destruct (flat_reading (t_heap s) (Nd (LVar 0) [])) as (x & R & _); [apply O|apply O|].
        exists x. split; [assumption|constructor].
      * split; [reflexivity|]. intros y (r & _ & P). now inversion P.
    + destruct (T (f, p) (or_introl eq_refl)) as [Lp Nf]. cbn in Lp, Nf.
      destruct (nth_error fns f) as [F|] eqn:EF; [|congruence].
      unfold bind, real. destruct (get_real fuel (t_heap s) p) as [cur|] eqn:EG; [|exact I].
      destruct (get_real_sound _ _ _ _ EG) as [(n & Nn & _) ER].
      assert (Lc := nth_lt _ _ _ Nn).
      assert (TR : occs_ok (length (t_heap s)) rest) by (intros o I; apply T; now right).
      pose proof (try_ok depth _ f cur rest IH (fn_alts F) s 0 None O N Lc TR
        ltac:(intros g I; eapply (proj2 GT); eauto) ltac:(discriminate)) as OK.
      destruct (try_alts fuel gheap fns veq (nbr_succ fuel gheap fns veq depth) f cur rest 0 (fn_alts F) None s)
        as [a s1|s1| |]; auto.
      2: { destruct OK as [(k & g & Ek & x & us & R & Cl & Px) CX]. split; [|exact CX]. exists x. split; [assumption|].
           cbn [map fst snd]. rewrite (ER x R). econstructor; eauto. }
      destruct OK as [S1 C]. split; [assumption|]. eapply counts_iff; [|exact C].
      intros l'. unfold altps, paths. cbn [map fst snd plus]. split.
      * intros [E|(k & g & l & Ek & -> & x & us & R & Cl & Px)]; [discriminate|].
        exists x. split; [assumption|]. rewrite (ER x R). econstructor; eauto.
      * intros (x & R & Px). right. inversion Px as [|f' t F' i g us P l E1 E2 Cl Ps]; subst.
        rewrite EF in E1. injection E1 as <-. exists i, g, l. split; [assumption|]. split; [reflexivity|].
        exists x, us. rewrite <- (ER x R). auto.
Qed.

Theorem nbr_solutions depth todo s : okst ar s -> allnv s -> occs_ok (length (t_heap s)) todo ->
  good s (nbr_succ fuel gheap fns veq depth todo s) (deep fns sigma (t_heap s) todo depth)
    (fun a => counts (solution fns sigma (t_heap s) todo) a (fun l cs => l = flats cs)).
Proof.
  intros O N T. pose proof (nbr_ok depth todo s O N T) as H.
  destruct (nbr_succ fuel gheap fns veq depth todo s) as [a s1|s1| |]; auto.
  destruct H as [S C]. split; [assumption|]. now apply paths_solution.
Qed.
End Ov.
