(* build_node_type_struct finds exactly the types that the rules give. *)
From Coq Require Import String List Bool Arith Lia.
From Verif Require Import TyModel TyThms InfModel InfSpec InfThms InfRun.
Import ListNotations.
Open Scope list_scope.

(* ---- lvars_tbl ---- *)
Definition G_of (r : rd) (tbl : env) : ctx := fun x => option_map r (find_hash tbl x).
Definition tbl_ok (n : nat) (tbl : env) : Prop :=
  NoDup (map fst tbl) /\ forall x p, find_hash tbl x = Some p -> p < n.

Lemma find_none tbl x : find_hash tbl x = None <-> ~ In x (map fst tbl).
Proof.
  induction tbl as [|[y p] tbl IH]; cbn; [tauto|].
  destruct (String.eqb_spec y x) as [->|N].
  - split; [discriminate|]. intros H. destruct H. auto.
  - rewrite IH. split; [intros H [E|I]; auto|intros H I; apply H; auto].
Qed.
Lemma delete_in tbl x y : In y (map fst (delete_hash tbl x)) -> In y (map fst tbl).
Proof.
  induction tbl as [|[z p] tbl IH]; cbn; [tauto|]. destruct (String.eqb_spec z x); cbn; [auto|].
  intros [E|I]; auto.
Qed.
Lemma delete_nodup tbl x : NoDup (map fst tbl) -> NoDup (map fst (delete_hash tbl x)).
Proof.
  induction tbl as [|[z p] tbl IH]; cbn; [auto|]. intros N. inversion_clear N as [|? ? NI ND].
  destruct (String.eqb_spec z x); cbn; [assumption|]. constructor; [|auto].
  intros I. apply NI. eapply delete_in; eauto.
Qed.
Lemma find_delete tbl x y : NoDup (map fst tbl) ->
  find_hash (delete_hash tbl x) y = if String.eqb x y then None else find_hash tbl y.
Proof.
  induction tbl as [|[z p] tbl IH]; cbn; intros N.
  - now destruct (String.eqb x y).
  - inversion_clear N as [|? ? NI ND]. destruct (String.eqb_spec z x) as [->|Ne].
    + destruct (String.eqb_spec x y) as [->|Ne]; [|reflexivity]. now apply find_none.
    + cbn. destruct (String.eqb_spec z y) as [->|Ny].
      * destruct (String.eqb_spec x y) as [->|]; [congruence|reflexivity].
      * auto.
Qed.
Lemma delete_ok n tbl x : tbl_ok n tbl -> tbl_ok n (delete_hash tbl x).
Proof.
  intros [N K]. split; [now apply delete_nodup|]. intros y p. rewrite find_delete by assumption.
  destruct (String.eqb x y); [discriminate|apply K].
Qed.
Lemma add_ok n tbl x p : tbl_ok n tbl -> find_hash tbl x = None -> p < n -> tbl_ok n ((x, p) :: tbl).
Proof.
  intros [N K] F L. split; cbn.
  - constructor; [now apply find_none|assumption].
  - intros y q. destruct (String.eqb x y); [now intros [= <-]|apply K].
Qed.
Lemma tbl_mono n n' tbl : n <= n' -> tbl_ok n tbl -> tbl_ok n' tbl.
Proof. intros L [N K]. split; [assumption|]. intros x p E. specialize (K _ _ E). lia. Qed.

Lemma G_agree n r r' tbl tbl' : tbl_ok n tbl -> agree n r r' ->
  (forall x, find_hash tbl' x = find_hash tbl x) -> forall x, G_of r' tbl' x = G_of r tbl x.
Proof.
  intros [_ K] A E x. unfold G_of. rewrite E. destruct (find_hash tbl x) as [p|] eqn:F; cbn; [|reflexivity].
  f_equal. apply A. eauto.
Qed.

(* ---- the rules do not depend on anything else ---- *)
Lemma hinted_agree n rho rho' h t : hint_in n h -> agree n rho rho' -> hinted rho h t -> hinted rho' h t.
Proof. destruct h as [q|]; cbn; [|auto]. intros L A ->. symmetry. now apply A. Qed.
Lemma agree_sym n rho rho' : agree n rho rho' -> agree n rho' rho.
Proof. intros A x L. symmetry. now apply A. Qed.

Section Top.
Variable ar : con -> nat.
Hypothesis BA : base_arities ar.
Variable gheap : heap.
Variable sigma : rd.
Hypothesis GS : store ar gheap.
Hypothesis GR : reading gheap sigma.
Hypothesis GV : forall p, nth_error gheap p = Some NVar -> sigma p = Nd (LVar p) [].

Lemma has_type_agree n g rho rho' e : agree n rho rho' -> forall vars G G' t,
  wf_expr n g vars e -> (forall x, G' x = G x) ->
  has_type sigma rho G e t -> has_type sigma rho' G' e t.
Proof.
  intros A. induction e; cbn; intros vars G G' ty W E T; inversion T; subst.
  - constructor. eapply hinted_agree; eauto.
  - econstructor; eauto. eapply hinted_agree; [apply W|eauto|eauto].
  - constructor; [now rewrite E|]. eapply hinted_agree; [apply W|eauto|eauto].
  - constructor. eapply hinted_agree; [apply W|eauto|eauto].
  - constructor. eapply hinted_agree; [apply W|eauto|eauto].
  - destruct W as (W0 & W1 & W2). econstructor; eauto. eapply hinted_agree; eauto.
  - destruct W as (W0 & W1 & W2). econstructor; eauto. eapply hinted_agree; eauto.
  - destruct W as (W0 & W1). econstructor; eauto; [|eapply hinted_agree; eauto].
    apply (IHe (x :: vars) (bound x a G)); [assumption| |assumption]. intros y. unfold bound. now rewrite E.
Qed.
Lemma has_type_back n g rho e vars G G' t : wf_expr n g vars e -> (forall x, G' x = G x) ->
  has_type sigma rho G e t -> has_type sigma rho G' e t.
Proof. intros W E. eapply has_type_agree; eauto. intros x _. reflexivity. Qed.

Variable fuel : nat.

Lemma hint_mono n n' h : n <= n' -> hint_in n h -> hint_in n' h.
Proof. destruct h; cbn; [lia|auto]. Qed.

(* A reading before or after steps. *)
Lemma step_track s r s1 r1 : step ar s r s1 r1 -> forall y, r1 = Some y ->
  exists x, r = Some x /\ agree (length (t_heap s)) x y /\ reading (t_heap s1) y.
Proof.
  intros (_ & _ & _ & _ & T) y ->. destruct r as [x|]; cbn in T; [|discriminate].
  destruct T as (z & [= <-] & R & A). eauto.
Qed.
Lemma step_len s r s1 r1 : step ar s r s1 r1 -> length (t_heap s) <= length (t_heap s1).
Proof. now intros (_ & L & _). Qed.
Lemma step_back s r s1 r1 x : step ar s r s1 r1 -> reading (t_heap s1) x -> reading (t_heap s) x.
Proof. intros (_ & _ & _ & B & _). auto. Qed.

Lemma arrow_node s p : okst ar s -> p < length (t_heap s) ->
  (exists n, nth_error (t_heap s) p = Some n /\ forall a, n <> NInd a) ->
  (forall x, reading (t_heap s) x -> exists a b, x p = arrow a b) ->
  exists u v, nth_error (t_heap s) p = Some (NCon CArrow [u; v])
    /\ u < length (t_heap s) /\ v < length (t_heap s).
Proof.
  intros (IR & AC & AR & _) L (n & N & NI) V.
  destruct (expand_reading _ IR AC) as (D & _ & HD). destruct (HD (S D) ltac:(lia)) as [R _].
  destruct (V _ R) as (a & b & E). cbn in E. rewrite N in E.
  destruct n as [|q|c l]; [discriminate|now destruct (NI q)|].
  injection E as -> E. destruct l as [|u [|v [|]]]; try discriminate.
  exists u, v. split; [assumption|]. split; eapply IR; eauto; cbn; auto.
Qed.

Lemma wp_arg_result s r h fn arg b : pre ar s r -> fn < length (t_heap s) -> arg < length (t_heap s) ->
  hint_in (length (t_heap s)) h ->
  (exists n, nth_error (t_heap s) fn = Some n /\ forall a, n <> NInd a) ->
  (forall x, reading (t_heap s) x -> exists a b, x fn = arrow a b) ->
  (forall x, r = Some x -> x fn = arrow (x arg) b /\ hinted x h b) ->
  wp ar s (arg_and_result fuel h fn arg s) r (fun p s1 r1 => p < length (t_heap s1)
    /\ (forall x, reading (t_heap s1) x -> x fn = arrow (x arg) (x p) /\ hinted x h (x p))
    /\ (forall x, r1 = Some x -> x p = b)).
Proof.
  intros P Lf La Hh RA V W.
  destruct (arrow_node s fn (proj1 P) Lf RA V) as (u & v & N & Lu & Lv).
  unfold arg_and_result.
  assert (R0 : forall x, reading (t_heap s) x -> x fn = arrow (x u) (x v)).
  { intros x Rx. rewrite (Rx _ _ N). reflexivity. }
  eapply wp_bind with (Q := fun n s1 r1 => n = Some (NCon CArrow [u; v]) /\ s1 = s /\ r1 = r).
  { exists r. split; [now apply step_refl|]. unfold node in *. auto. }
  intros n s1 r1 S1 (-> & -> & ->). cbv iota.
  assert (WU : forall x, r = Some x -> x arg = x u /\ b = x v).
  { intros x E. destruct (W x E) as [W1 _]. rewrite R0 in W1 by now apply P.
    injection W1 as E1 E2. auto. }
  eapply wp_bind; [apply wp_unif; auto; intros x E; now apply WU|].
  intros _ s1 r1 S2 (-> & L1 & E1).
  assert (P1 := step_pre _ _ _ _ _ S2).
  eapply wp_bind; [eapply wp_real; [assumption|lia]|].
  intros fn' s2 r2 S3 (-> & -> & Lf' & RA' & E2).
  assert (V' : forall x, reading (t_heap s1) x -> exists a b, x fn' = arrow a b).
  { intros x Rx. rewrite (E2 x Rx). apply V. eapply step_back; eauto. }
  destruct (arrow_node s1 fn' (proj1 P1) Lf' RA' V') as (u' & v' & N' & Lu' & Lv').
  assert (R1 : forall x, reading (t_heap s1) x -> x fn = arrow (x arg) (x v')).
  { intros x Rx. pose proof (E2 x Rx) as E. rewrite (Rx _ _ N') in E. cbn in E.
    rewrite (R0 x) in E by (eapply step_back; eauto). injection E as Eu Ev.
    rewrite (R0 x) by (eapply step_back; eauto). now rewrite (E1 x Rx), <- Ev. }
  assert (Wb : forall x, r = Some x -> x v' = b /\ hinted x h b).
  { intros x E. assert (Rx := proj2 P1 x E). specialize (R1 x Rx).
    destruct (W x E) as [W1 W2]. rewrite R1 in W1. injection W1 as W1. auto. }
  eapply wp_bind with (Q := fun n s3 r3 => n = Some (NCon CArrow [u'; v']) /\ s3 = s1 /\ r3 = r).
  { exists r. split; [now apply step_refl|]. unfold node. auto. }
  intros n s3 r3 S4 (-> & -> & ->). cbv iota.
  eapply wp_bind; [apply wp_hint; auto; [eapply hint_mono; [|eassumption]; lia|]|].
  { intros x E. destruct (Wb x E) as [-> ?]. assumption. }
  intros _ s3 r3 S5 (-> & L5 & E5). assert (P5 := step_pre _ _ _ _ _ S5).
  eapply wp_conseq; [eapply wp_real; [assumption|lia]|].
  intros p s4 r4 S6 (-> & -> & Lp & _ & Ep) _ _ _ _ _. split; [assumption|]. split.
  - intros x Rx. assert (Rx1 : reading (t_heap s1) x) by (eapply step_back; eauto).
    rewrite (Ep x Rx). split; [now apply R1|now apply E5].
  - intros x E. rewrite Ep by now apply P5. now apply Wb.
Qed.

Lemma wp_apply s r h pl pr b : pre ar s r -> pl < length (t_heap s) -> pr < length (t_heap s) ->
  hint_in (length (t_heap s)) h ->
  (forall x, r = Some x -> x pl = arrow (x pr) b /\ hinted x h b) ->
  wp ar s (apply_types fuel h pl pr s) r (fun p s1 r1 => p < length (t_heap s1)
    /\ (forall x, reading (t_heap s1) x -> x pl = arrow (x pr) (x p) /\ hinted x h (x p))
    /\ (forall x, r1 = Some x -> x p = b)).
Proof.
  intros P Lf La Hh W. unfold apply_types.
  eapply wp_bind; [now apply wp_real|]. intros fn s1 r1 S1 (-> & -> & Lfn & RA & Ef).
  eapply wp_bind; [now apply wp_real|]. intros arg s1 r1 S2 (-> & -> & Larg & _ & Ea).
  eapply wp_bind with (Q := fun n s1 r1 => n = nth_error (t_heap s) fn /\ s1 = s /\ r1 = r).
  { exists r. split; [now apply step_refl|]. unfold node. auto. }
  intros n s1 r1 S3 (-> & -> & ->).
  assert (W' : forall x, r = Some x -> x fn = arrow (x arg) b /\ hinted x h b).
  { intros x E. assert (Rx := proj2 P x E). rewrite (Ef x Rx), (Ea x Rx). auto. }
  destruct RA as (n & N & NI). rewrite N. destruct n as [|q|c l].
  - eapply wp_bind; [apply (wp_new_var ar s r b P)|].
    intros v s1 r1 T1 (-> & Lv & Nv & Vv). assert (P1 := step_pre _ _ _ _ _ T1).
    assert (L1 := step_len _ _ _ _ T1).
    eapply wp_bind; [eapply wp_make_arrow; [assumption|assumption|lia|assumption]|].
    intros ex s2 r2 T2 (Lex & Vex). assert (P2 := step_pre _ _ _ _ _ T2).
    assert (L2 := step_len _ _ _ _ T2). assert (T12 := step_trans _ _ _ _ _ _ _ T1 T2).
    assert (W2 : forall x, r2 = Some x -> x fn = arrow (x arg) b /\ hinted x h b /\ x (length (t_heap s)) = b).
    { intros x E. destruct (step_track _ _ _ _ T12 x E) as (y & Ey & A & Rx).
      destruct (W' y Ey) as [F1 F2]. split; [now rewrite !A by assumption|].
      split; [eapply hinted_agree; eauto; intros z Lz; symmetry; symmetry; now apply A|].
      destruct (step_track _ _ _ _ T2 x E) as (z & Ez & Az & _). rewrite Az by assumption. auto. }
    eapply wp_bind; [apply wp_unif; [assumption|lia|assumption|]|].
    { intros x E. destruct (W2 x E) as (F1 & _ & F3). rewrite F1, (Vex x (proj2 P2 x E)).
      now rewrite F3. }
    intros _ s3 r3 T3 (-> & L3 & E3). assert (P3 := step_pre _ _ _ _ _ T3).
    eapply wp_bind; [apply wp_real; [assumption|lia]|].
    intros fn' s4 r4 T4 (-> & -> & Lfn' & RA' & Ef').
    assert (R3 : forall x, reading (t_heap s3) x -> x fn = arrow (x arg) (x (length (t_heap s)))).
    { intros x Rx. rewrite (E3 x Rx). apply Vex. eapply step_back; eauto. }
    eapply wp_conseq; [apply (wp_arg_result s3 r2 h fn' arg b)|]; try assumption; try lia.
    + eapply hint_mono; [|eassumption]. lia.
    + intros x Rx. rewrite (Ef' x Rx), (R3 x Rx). eauto.
    + intros x E. destruct (W2 x E) as (F1 & F2 & _). rewrite (Ef' x (proj2 P3 x E)). auto.
    + intros p s5 r5 T5 (Lp & Vp & Wp) _ _ _ _ _ _ _. split; [assumption|]. split; [|assumption].
      intros x Rx. destruct (Vp x Rx) as [V1 V2]. split; [|assumption].
      assert (Rx3 : reading (t_heap s3) x) by (eapply step_back; eauto).
      assert (Rx0 : reading (t_heap s) x)
        by (eapply step_back; [exact T12|]; eapply step_back; eauto).
      rewrite <- (Ef x Rx0), <- (Ea x Rx0), <- (Ef' x Rx3). assumption.
  - now destruct (NI q).
  - destruct c; try (split; [apply ext_refl|]; destruct r as [x|]; [|reflexivity];
      destruct (W' x eq_refl) as [F _]; rewrite (proj2 P x eq_refl _ _ N) in F; discriminate).
    assert (Hk : exists u v, l = [u; v]).
    { destruct P as [(_ & _ & AR & _) _]. pose proof (AR _ _ _ N) as Ln. destruct BA as [E _].
      rewrite E in Ln. destruct l as [|u [|v [|]]]; try discriminate. eauto. }
    destruct Hk as (u & v & ->).
    eapply wp_conseq; [apply (wp_arg_result s r h fn arg b)|]; try assumption.
    + eauto.
    + intros x Rx. rewrite (Rx _ _ N). cbn. unfold arrow, tcon. eauto.
    + intros p s1 r1 T5 (Lp & Vp & Wp) _ _ _. split; [assumption|]. split; [|assumption].
      intros x Rx. assert (Rx0 : reading (t_heap s) x) by (eapply step_back; eauto).
      rewrite <- (Ef x Rx0), <- (Ea x Rx0). auto.
Qed.

Notation infer := (infer fuel gheap).

Lemma infer_spec n e : forall s r tbl vars t,
  pre ar s r -> n <= length (t_heap s) -> wf_expr n (length gheap) vars e ->
  tbl_ok (length (t_heap s)) tbl -> (forall x, In x vars -> find_hash tbl x <> None) ->
  (forall x, r = Some x -> has_type sigma x (G_of x tbl) e t) ->
  wp ar s (infer e tbl s) r (fun a s1 r1 => fst a < length (t_heap s1)
    /\ tbl_ok (length (t_heap s1)) (snd a) /\ (forall x, find_hash (snd a) x = find_hash tbl x)
    /\ (forall x, reading (t_heap s1) x -> has_type sigma x (G_of x tbl) e (x (fst a)))
    /\ (forall x, r1 = Some x -> x (fst a) = t)).
Proof.
  induction e as [h l|h p|h v|h f|h|h e1 IH1 e2 IH2|h e1 IH1 e2 IH2|h v e IH];
    intros s r tbl vars t P Ln Wf TB VT W; cbn [InfModel.infer].
  - (* literals *)
    assert (Wt : forall x, r = Some x -> t = tcon (lit_type l) [] /\ hinted x h t).
    { intros x E. specialize (W x E). inversion W; subst. auto. }
    eapply wp_bind; [apply (wp_new_con ar s r (lit_con l) [] P)|].
    { destruct BA as (_&_&_&_&?&?&?&?&_). destruct l; cbn; congruence. }
    { intros x []. }
    intros p s1 r1 S1 (Lp & Vp). assert (P1 := step_pre _ _ _ _ _ S1). assert (L1 := step_len _ _ _ _ S1).
    assert (W1 : forall x, r1 = Some x -> x p = t /\ hinted x h t).
    { intros x E. destruct (step_track _ _ _ _ S1 x E) as (y & Ey & A & Rx). destruct (Wt y Ey) as [-> H].
      split; [rewrite (Vp x Rx); now destruct l|]. eapply hinted_agree; [eapply hint_mono; [|exact Wf]; eassumption|exact A|exact H]. }
    eapply wp_bind; [apply wp_hint; [assumption|assumption|eapply hint_mono; [|exact Wf]; lia|]|].
    { intros x E. destruct (W1 x E) as [-> ?]. assumption. }
    intros _ s2 r2 S2 (-> & L2 & E2). assert (P2 := step_pre _ _ _ _ _ S2).
    apply wp_ret; [assumption|]. repeat (intros _). cbn [fst snd].
    split; [lia|]. split; [eapply tbl_mono; [|eassumption]; lia|]. split; [reflexivity|]. split.
    + intros x Rx. assert (E : x p = tcon (lit_type l) []).
      { rewrite Vp by (eapply step_back; eauto). now destruct l. }
      specialize (E2 x Rx). rewrite E in *. now constructor.
    + intros x E. now apply W1.
  - (* primitives *)
    destruct Wf as [Wh NC].
    assert (F : exists f, forall x, r = Some x -> exists t0, prim_type p = PType t0 /\ t = sinst f t0 /\ hinted x h t).
    { destruct r as [x|]; [|exists (fun _ => Nd (LVar 0) []); discriminate].
      specialize (W x eq_refl). inversion W; subst. eexists. intros y [= <-]. eauto. }
    destruct F as [f F].
    eapply wp_bind; [apply (wp_prim ar BA s r p f P NC)|].
    { intros x E. destruct (F x E) as (t0 & ? & _). eauto. }
    intros q s1 r1 S1 (Lq & t0 & Et & Vq & Wq). assert (P1 := step_pre _ _ _ _ _ S1). assert (L1 := step_len _ _ _ _ S1).
    assert (W1 : forall x, r1 = Some x -> x q = t /\ hinted x h t).
    { intros x E. destruct (step_track _ _ _ _ S1 x E) as (y & Ey & A & Rx).
      destruct (F y Ey) as (t1 & Et1 & -> & H). rewrite Et in Et1. injection Et1 as <-.
      split; [auto|]. eapply hinted_agree; [eapply hint_mono; [|exact Wh]; eassumption|exact A|exact H]. }
    eapply wp_bind; [apply wp_hint; [assumption|assumption|eapply hint_mono; [|exact Wh]; lia|]|].
    { intros x E. destruct (W1 x E) as [-> ?]. assumption. }
    intros _ s2 r2 S2 (-> & L2 & E2). assert (P2 := step_pre _ _ _ _ _ S2).
    apply wp_ret; [assumption|]. repeat (intros _). cbn [fst snd].
    split; [lia|]. split; [eapply tbl_mono; [|eassumption]; lia|]. split; [reflexivity|]. split.
    + intros x Rx. destruct (Vq x) as [g E]; [eapply step_back; eauto|].
      specialize (E2 x Rx). rewrite E in *. econstructor; eauto.
    + intros x E. now apply W1.
  - (* variables *)
    destruct Wf as [Wh Iv]. specialize (VT _ Iv).
    destruct (find_hash tbl v) as [q|] eqn:Fv; [|congruence].
    assert (Lq : q < length (t_heap s)) by now apply (proj2 TB) in Fv.
    assert (W1 : forall x, r = Some x -> x q = t /\ hinted x h t).
    { intros x E. specialize (W x E). inversion W as [| |? ? ? ? E1 H1| | | | |]; subst.
      unfold G_of in E1. rewrite Fv in E1. injection E1 as <-. auto. }
    eapply wp_bind; [apply wp_hint; [assumption|assumption|eapply hint_mono; [|exact Wh]; lia|]|].
    { intros x E. destruct (W1 x E) as [-> ?]. assumption. }
    intros _ s2 r2 S2 (-> & L2 & E2). assert (P2 := step_pre _ _ _ _ _ S2).
    apply wp_ret; [assumption|]. repeat (intros _). cbn [fst snd].
    split; [lia|]. split; [eapply tbl_mono; [|eassumption]; lia|]. split; [reflexivity|]. split.
    + intros x Rx. constructor; [|now apply E2]. unfold G_of. now rewrite Fv.
    + intros x E. now apply W1.
  - (* defined functions *)
    destruct Wf as [Wh Lf].
    assert (F : exists g, forall x, r = Some x -> t = inst g (sigma f) /\ hinted x h t).
    { destruct r as [x|]; [|exists (fun _ => Nd (LVar 0) []); discriminate].
      specialize (W x eq_refl). inversion W; subst. eexists. intros y [= <-]. eauto. }
    destruct F as [g F].
    eapply wp_bind; [apply (wp_fresh ar fuel gheap sigma GS GR GV s r f g P Lf)|].
    intros q s1 r1 S1 (Lq & Vq & Wq). assert (P1 := step_pre _ _ _ _ _ S1). assert (L1 := step_len _ _ _ _ S1).
    assert (W1 : forall x, r1 = Some x -> x q = t /\ hinted x h t).
    { intros x E. destruct (step_track _ _ _ _ S1 x E) as (y & Ey & A & Rx).
      destruct (F y Ey) as [-> H]. split; [auto|].
      eapply hinted_agree; [eapply hint_mono; [|exact Wh]; eassumption|exact A|exact H]. }
    eapply wp_bind; [apply wp_hint; [assumption|assumption|eapply hint_mono; [|exact Wh]; lia|]|].
    { intros x E. destruct (W1 x E) as [-> ?]. assumption. }
    intros _ s2 r2 S2 (-> & L2 & E2). assert (P2 := step_pre _ _ _ _ _ S2).
    eapply wp_bind; [apply wp_real; [assumption|lia]|]. intros q' s3 r3 S3 (-> & -> & Lq' & _ & Eq').
    apply wp_ret; [assumption|]. repeat (intros _). cbn [fst snd].
    split; [lia|]. split; [eapply tbl_mono; [|eassumption]; lia|]. split; [reflexivity|]. split.
    + intros x Rx. rewrite (Eq' x Rx). destruct (Vq x) as [g' E]; [eapply step_back; eauto|].
      specialize (E2 x Rx). rewrite E in *. now constructor.
    + intros x E. rewrite Eq' by now apply P2. now apply W1.
  - (* the empty list *)
    assert (F : exists a, forall x, r = Some x -> t = tcon CList [a] /\ hinted x h t).
    { destruct r as [x|]; [|exists (Nd (LVar 0) []); discriminate].
      specialize (W x eq_refl). inversion W; subst. eexists. intros y [= <-]. eauto. }
    destruct F as [a F].
    eapply wp_bind; [apply (wp_new_var ar s r a P)|].
    intros v s1 r1 S1 (-> & Lv & Nv & Vv). assert (P1 := step_pre _ _ _ _ _ S1). assert (L1 := step_len _ _ _ _ S1).
    eapply wp_bind; [apply wp_make_list; assumption|].
    intros q s2 r2 S2 (Lq & Vq). assert (P2 := step_pre _ _ _ _ _ S2). assert (L2 := step_len _ _ _ _ S2).
    assert (S12 := step_trans _ _ _ _ _ _ _ S1 S2).
    assert (W1 : forall x, r2 = Some x -> x q = t /\ hinted x h t).
    { intros x E. destruct (step_track _ _ _ _ S12 x E) as (y & Ey & A & Rx).
      destruct (step_track _ _ _ _ S2 x E) as (z & Ez & Az & _).
      destruct (F y Ey) as [-> H]. split.
      - rewrite (Vq x Rx), Az by assumption. now rewrite (Vv z Ez).
      - eapply hinted_agree; [eapply hint_mono; [|exact Wf]; eassumption|exact A|exact H]. }
    eapply wp_bind; [apply wp_hint; [assumption|assumption|eapply hint_mono; [|exact Wf]; lia|]|].
    { intros x E. destruct (W1 x E) as [-> ?]. assumption. }
    intros _ s3 r3 S3 (-> & L3 & E3). assert (P3 := step_pre _ _ _ _ _ S3).
    apply wp_ret; [assumption|]. repeat (intros _). cbn [fst snd].
    split; [lia|]. split; [eapply tbl_mono; [|eassumption]; lia|]. split; [reflexivity|]. split.
    + intros x Rx. assert (E := Vq x ltac:(eapply step_back; eauto)).
      specialize (E3 x Rx). rewrite E in *. now constructor.
    + intros x E. now apply W1.
  - (* cons *)
    destruct Wf as (Wh & Wf1 & Wf2).
    assert (F : exists a, forall x, r = Some x -> t = tcon CList [a]
      /\ has_type sigma x (G_of x tbl) e1 a /\ has_type sigma x (G_of x tbl) e2 t /\ hinted x h t).
    { destruct r as [x|]; [|exists (Nd (LVar 0) []); discriminate].
      specialize (W x eq_refl). inversion W; subst. eexists. intros y [= <-]. eauto. }
    destruct F as [a F].
    eapply wp_bind.
    { apply (IH1 s r tbl vars a P Ln Wf1 TB VT). intros x E. now apply F. }
    intros [p1 tbl1] s1 r1 S1 (Lp1 & TB1 & TE1 & Vp1 & Wp1). cbn [fst snd] in *.
    assert (P1 := step_pre _ _ _ _ _ S1). assert (L1 := step_len _ _ _ _ S1).
    eapply wp_bind.
    { apply (IH2 s1 r1 tbl1 vars t P1 ltac:(lia) Wf2 TB1).
      - intros x I. rewrite TE1. auto.
      - intros x E. destruct (step_track _ _ _ _ S1 x E) as (y & Ey & A & Rx).
        destruct (F y Ey) as (_ & _ & H & _). eapply has_type_agree; [|exact Wf2| |exact H].
        + intros z Lz. apply A. lia.
        + eapply G_agree; eauto. }
    intros [p2 tbl2] s2 r2 S2 (Lp2 & TB2 & TE2 & Vp2 & Wp2). cbn [fst snd] in *.
    assert (P2 := step_pre _ _ _ _ _ S2). assert (L2 := step_len _ _ _ _ S2).
    assert (S12 := step_trans _ _ _ _ _ _ _ S1 S2).
    eapply wp_bind; [apply wp_make_list; [assumption|assumption|]|]. { lia. }
    intros pot s3 r3 S3 (Lpot & Vpot). assert (P3 := step_pre _ _ _ _ _ S3). assert (L3 := step_len _ _ _ _ S3).
    assert (S13 := step_trans _ _ _ _ _ _ _ S12 S3).
    assert (W3 : forall x, r3 = Some x -> x p1 = a /\ x p2 = t /\ t = tcon CList [a] /\ hinted x h t).
    { intros x E. destruct (step_track _ _ _ _ S3 x E) as (y & Ey & Ay & Rx).
      destruct (step_track _ _ _ _ S2 y Ey) as (z & Ez & Az & _).
      destruct (step_track _ _ _ _ S13 x E) as (w & Ew & Aw & _).
      destruct (F w Ew) as (Et & _ & _ & H).
      split; [rewrite Ay by lia; rewrite Az by lia; auto|].
      split; [rewrite Ay by lia; auto|]. split; [assumption|].
      eapply hinted_agree; [eapply hint_mono; [|exact Wh]; eassumption|exact Aw|exact H]. }
    eapply wp_bind; [apply wp_unif; [assumption|lia|assumption|]|].
    { intros x E. destruct (W3 x E) as (E1 & E2 & E3 & _). rewrite (Vpot x (proj2 P3 x E)).
      now rewrite E1, E2, E3. }
    intros _ s4 r4 S4 (-> & L4 & E4). assert (P4 := step_pre _ _ _ _ _ S4).
    eapply wp_bind; [apply wp_real; [assumption|lia]|]. intros q s5 r5 S5 (-> & -> & Lq & _ & Eq).
    eapply wp_bind; [apply wp_hint; [assumption|assumption|eapply hint_mono; [|exact Wh]; lia|]|].
    { intros x E. rewrite Eq by now apply P4. destruct (W3 x E) as (_ & -> & _ & ?). assumption. }
    intros _ s5 r5 S6 (-> & L5 & E5). assert (P5 := step_pre _ _ _ _ _ S6).
    eapply wp_bind; [apply wp_real; [assumption|lia]|]. intros q' s6 r6 S7 (-> & -> & Lq' & _ & Eq').
    apply wp_ret; [assumption|]. repeat (intros _). cbn [fst snd].
    split; [assumption|]. split; [eapply tbl_mono; [|eassumption]; lia|].
    split; [intros x; now rewrite TE2, TE1|]. split.
    + intros x Rx. rewrite (Eq' x Rx).
      assert (Rx4 : reading (t_heap s4) x) by (eapply step_back; eauto).
      assert (Rx3 : reading (t_heap s3) x) by (eapply step_back; eauto).
      assert (Rx2 : reading (t_heap s2) x) by (eapply step_back; eauto).
      assert (Rx1 : reading (t_heap s1) x) by (eapply step_back; eauto).
      specialize (E5 x Rx). rewrite (Eq x Rx4) in *. rewrite (E4 x Rx4), (Vpot x Rx3) in *.
      constructor; [now apply Vp1| |assumption].
      eapply has_type_back; [exact Wf2|intros y; unfold G_of; now rewrite <- TE1|].
      assert (Z : x p2 = tcon CList [x p1]) by now rewrite (E4 x Rx4), (Vpot x Rx3).
      rewrite <- Z. now apply Vp2.
    + intros x E. rewrite Eq' by now apply P5. rewrite Eq by now apply P4. now apply W3.
  - (* application *)
    destruct Wf as (Wh & Wf1 & Wf2).
    assert (F : exists a, forall x, r = Some x ->
      has_type sigma x (G_of x tbl) e1 (arrow a t) /\ has_type sigma x (G_of x tbl) e2 a /\ hinted x h t).
    { destruct r as [x|]; [|exists (Nd (LVar 0) []); discriminate].
      specialize (W x eq_refl). inversion W; subst. eexists. intros y [= <-]. eauto. }
    destruct F as [a F].
    eapply wp_bind.
    { apply (IH1 s r tbl vars (arrow a t) P Ln Wf1 TB VT). intros x E. now apply F. }
    intros [p1 tbl1] s1 r1 S1 (Lp1 & TB1 & TE1 & Vp1 & Wp1). cbn [fst snd] in *.
    assert (P1 := step_pre _ _ _ _ _ S1). assert (L1 := step_len _ _ _ _ S1).
    eapply wp_bind.
    { apply (IH2 s1 r1 tbl1 vars a P1 ltac:(lia) Wf2 TB1).
      - intros x I. rewrite TE1. auto.
      - intros x E. destruct (step_track _ _ _ _ S1 x E) as (y & Ey & A & Rx).
        destruct (F y Ey) as (_ & H & _). eapply has_type_agree; [|exact Wf2| |exact H].
        + intros z Lz. apply A. lia.
        + eapply G_agree; eauto. }
    intros [p2 tbl2] s2 r2 S2 (Lp2 & TB2 & TE2 & Vp2 & Wp2). cbn [fst snd] in *.
    assert (P2 := step_pre _ _ _ _ _ S2). assert (L2 := step_len _ _ _ _ S2).
    assert (S12 := step_trans _ _ _ _ _ _ _ S1 S2).
    eapply wp_bind; [apply (wp_apply s2 r2 h p1 p2 t P2); [lia|assumption|eapply hint_mono; [|exact Wh]; lia|]|].
    { intros x E. destruct (step_track _ _ _ _ S2 x E) as (z & Ez & Az & _).
      destruct (step_track _ _ _ _ S12 x E) as (w & Ew & Aw & _).
      destruct (F w Ew) as (_ & _ & H). split.
      - rewrite Az by lia. rewrite (Wp1 z Ez), (Wp2 x E). reflexivity.
      - eapply hinted_agree; [eapply hint_mono; [|exact Wh]; eassumption|exact Aw|exact H]. }
    intros q s3 r3 S3 (Lq & Vq & Wq). assert (P3 := step_pre _ _ _ _ _ S3). assert (L3 := step_len _ _ _ _ S3).
    apply wp_ret; [assumption|]. repeat (intros _). cbn [fst snd].
    split; [assumption|]. split; [eapply tbl_mono; [|eassumption]; lia|].
    split; [intros x; now rewrite TE2, TE1|]. split; [|assumption].
    intros x Rx. destruct (Vq x Rx) as [V1 V2].
    assert (Rx2 : reading (t_heap s2) x) by (eapply step_back; eauto).
    assert (Rx1 : reading (t_heap s1) x) by (eapply step_back; eauto).
    econstructor; [rewrite <- V1; now apply Vp1| |assumption].
    eapply has_type_back; [exact Wf2|intros y; unfold G_of; now rewrite <- TE1|].
    now apply Vp2.
  - (* abstraction *)
    destruct Wf as (Wh & Wf).
    assert (F : exists a b, forall x, r = Some x -> t = arrow a b
      /\ has_type sigma x (bound v a (G_of x tbl)) e b /\ hinted x h t).
    { destruct r as [x|]; [|exists (Nd (LVar 0) []), (Nd (LVar 0) []); discriminate].
      specialize (W x eq_refl). inversion W; subst. eexists. eexists. intros y [= <-]. eauto. }
    destruct F as (a & b & F).
    set (old := find_hash tbl v) in *.
    set (tbl0 := match old with Some _ => delete_hash tbl v | None => tbl end).
    assert (T0 : forall x, find_hash tbl0 x = if String.eqb v x then None else find_hash tbl x).
    { intros x. unfold tbl0. destruct old eqn:O.
      - apply find_delete. apply TB.
      - destruct (String.eqb_spec v x) as [<-|]; [exact O|reflexivity]. }
    assert (K0 : tbl_ok (length (t_heap s)) tbl0).
    { unfold tbl0. destruct old; [now apply delete_ok|assumption]. }
    eapply wp_bind; [apply (wp_new_var ar s r a P)|].
    intros pv s1 r1 S1 (-> & Lv & Nv & Vv). assert (P1 := step_pre _ _ _ _ _ S1). assert (L1 := step_len _ _ _ _ S1).
    set (pv := length (t_heap s)) in *.
    assert (GE : forall x y tb, G_of x ((v, pv) :: tbl0) tb = bound v (x pv) (G_of x tbl) tb /\ y = y :> nat).
    { intros x y tb. split; [|reflexivity]. unfold G_of, bound. cbn. destruct (String.eqb_spec v tb) as [<-|Ne]; [reflexivity|].
      rewrite T0. destruct (String.eqb_spec v tb); [congruence|reflexivity]. }
    eapply wp_bind.
    { apply (IH s1 r1 ((v, pv) :: tbl0) (v :: vars) b P1 ltac:(lia) Wf).
      - apply add_ok; [eapply tbl_mono; [|exact K0]; lia| |assumption].
        rewrite T0. now rewrite String.eqb_refl.
      - intros x I. cbn. destruct (String.eqb_spec v x) as [->|Ne]; [discriminate|].
        rewrite T0. destruct (String.eqb_spec v x); [congruence|]. apply VT.
        destruct I as [->|I]; [congruence|assumption].
      - intros x E. destruct (step_track _ _ _ _ S1 x E) as (y & Ey & A & Rx).
        destruct (F y Ey) as (_ & H & _). eapply has_type_agree; [|exact Wf| |exact H].
        + intros z Lz. apply A. lia.
        + intros z. rewrite (proj1 (GE x 0 z)), (Vv x E). unfold bound.
          destruct (String.eqb v z); [reflexivity|]. eapply G_agree; [exact TB|exact A|reflexivity]. }
    intros [pb tblb] s2 r2 S2 (Lpb & TBb & TEb & Vpb & Wpb). cbn [fst snd] in *.
    assert (P2 := step_pre _ _ _ _ _ S2). assert (L2 := step_len _ _ _ _ S2).
    assert (S12 := step_trans _ _ _ _ _ _ _ S1 S2).
    eapply wp_bind; [eapply wp_make_arrow; [assumption|assumption| |assumption]|]. { lia. }
    intros q s3 r3 S3 (Lq & Vq). assert (P3 := step_pre _ _ _ _ _ S3). assert (L3 := step_len _ _ _ _ S3).
    assert (S13 := step_trans _ _ _ _ _ _ _ S12 S3).
    assert (Fv : find_hash tblb v = Some pv) by (rewrite TEb; cbn; now rewrite String.eqb_refl).
    rewrite Fv.
    assert (W3 : forall x, r3 = Some x -> x q = t /\ hinted x h t).
    { intros x E. destruct (step_track _ _ _ _ S3 x E) as (y & Ey & Ay & Rx).
      destruct (step_track _ _ _ _ S2 y Ey) as (z & Ez & Az & _).
      destruct (step_track _ _ _ _ S13 x E) as (w & Ew & Aw & _).
      destruct (F w Ew) as (Et & _ & H). split.
      - rewrite (Vq x Rx), Et. f_equal.
        + rewrite Ay by lia. rewrite Az by lia. auto.
        + rewrite Ay by lia. auto.
      - eapply hinted_agree; [eapply hint_mono; [|exact Wh]; eassumption|exact Aw|exact H]. }
    eapply wp_bind; [apply wp_hint; [assumption|assumption|eapply hint_mono; [|exact Wh]; lia|]|].
    { intros x E. destruct (W3 x E) as [-> ?]. assumption. }
    intros _ s4 r4 S4 (-> & L4 & E4). assert (P4 := step_pre _ _ _ _ _ S4).
    eapply wp_bind; [apply wp_real; [assumption|lia]|]. intros q' s5 r5 S5 (-> & -> & Lq' & _ & Eq').
    apply wp_ret; [assumption|]. repeat (intros _). cbn [fst snd].
    assert (TD : forall x, find_hash (delete_hash tblb v) x = if String.eqb v x then None else find_hash tbl x).
    { intros x. rewrite find_delete by apply TBb. rewrite TEb. cbn.
      destruct (String.eqb_spec v x); [reflexivity|]. rewrite T0.
      destruct (String.eqb_spec v x); [congruence|reflexivity]. }
    assert (LT : length (t_heap s2) <= length (t_heap s4)) by lia.
    assert (TBd : tbl_ok (length (t_heap s4)) (delete_hash tblb v)).
    { apply delete_ok. eapply tbl_mono; [|exact TBb]. assumption. }
    split; [assumption|]. split; [|split; [|split]].
    + destruct old as [q0|] eqn:O; [|assumption]. apply add_ok; [assumption| |].
      * rewrite TD. now rewrite String.eqb_refl.
      * apply (proj2 TB) in O. lia.
    + intros x. destruct old as [q0|] eqn:O; cbn.
      * destruct (String.eqb_spec v x) as [<-|Ne]; [now symmetry|]. rewrite TD.
        destruct (String.eqb_spec v x); [congruence|reflexivity].
      * rewrite TD. destruct (String.eqb_spec v x) as [<-|Ne]; [now symmetry|reflexivity].
    + intros x Rx. rewrite (Eq' x Rx). specialize (E4 x Rx).
      assert (Rx3 : reading (t_heap s3) x) by (eapply step_back; eauto).
      assert (Rx2 : reading (t_heap s2) x) by (eapply step_back; eauto).
      rewrite (Vq x Rx3) in *. constructor; [|assumption].
      eapply has_type_back; [exact Wf| |apply Vpb; exact Rx2].
      intros y. symmetry. apply (proj1 (GE x 0 y)).
    + intros x E. rewrite Eq' by now apply P4. now apply W3.
Qed.
End Top.
