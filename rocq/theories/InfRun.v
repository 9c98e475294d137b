(* build_node_type_struct: what it answers, step by step. *)
From Coq Require Import String List Bool Arith Lia.
From Verif Require Import TyModel TyThms InfModel InfSpec InfThms.
Import ListNotations.
Open Scope list_scope.

Section Run.
Variable ar : con -> nat.
Hypothesis BA : base_arities ar.

(* ---- the types of the primitives ---- *)
Fixpoint scok (t : sch) : Prop :=
  match t with
  | SV i => i < prim_vars
  | SC c l => length l = ar c /\ (fix all l := match l with [] => True | a :: l => scok a /\ all l end) l
  end.
Definition build_list (bld : sch -> heap -> nat * heap) :=
  fix loop l h := match l with
                  | [] => ([], h)
                  | a :: l => let '(p, h) := bld a h in
                              let '(k, h) := loop l h in (p :: k, h)
                  end.
Lemma build_SC base c l h : build base (SC c l) h =
  let '(k, h) := build_list (build base) l h in (length h, h ++ [NCon c k]).
Proof. reflexivity. Qed.

Definition built (h : heap) (h' : heap) : Prop :=
  store ar h' /\ (exists t, h' = h ++ t) /\ (forall r, reading h' r -> reading h r)
  /\ (forall r, reading h r -> exists r', reading h' r' /\ agree (length h) r r').
Lemma built_refl h : store ar h -> built h h.
Proof.
  intros S. split; [assumption|]. split; [exists []; now rewrite app_nil_r|]. split; [auto|].
  intros r R. exists r. split; [assumption|]. intros x _. reflexivity.
Qed.
Lemma built_trans h1 h2 h3 : built h1 h2 -> built h2 h3 -> built h1 h3.
Proof.
  intros (S1 & (t1 & E1) & B1 & C1) (S2 & (t2 & E2) & B2 & C2). split; [assumption|].
  split; [exists (t1 ++ t2); now rewrite E2, E1, app_assoc|]. split; [auto|].
  intros r R. destruct (C1 r R) as (r1 & R1 & A1). destruct (C2 r1 R1) as (r2 & R2 & A2).
  exists r2. split; [assumption|]. intros x L. rewrite A2; [now apply A1|].
  rewrite E1, app_length. lia.
Qed.
Lemma built_len h h' : built h h' -> length h <= length h'.
Proof. intros (_ & (t & ->) & _). rewrite app_length. lia. Qed.

Lemma build_spec base t : scok t -> forall h q h', build base t h = (q, h') ->
  store ar h -> base + prim_vars <= length h ->
  built h h' /\ q < length h' /\ (forall r, reading h' r -> r q = sinst (fun i => r (base + i)) t).
Proof.
  induction t as [i|c l IH] using sch_ind'; intros OK h q h' E S L.
  - injection E as <- <-. cbn in OK. split; [now apply built_refl|]. split; [lia|]. reflexivity.
  - rewrite build_SC in E. destruct (build_list (build base) l h) as [k h1] eqn:EL.
    injection E as <- <-. destruct OK as [Ln OKs].
    assert (P : built h h1 /\ length k = length l /\ (forall x, In x k -> x < length h1)
      /\ (forall r, reading h1 r -> map r k = map (sinst (fun i => r (base + i))) l)).
    { clear Ln. revert h k h1 EL S L. induction IH as [|a l Ha IH IHl]; intros h k h1 EL S L.
      - injection EL as <- <-. split; [now apply built_refl|]. split; [reflexivity|].
        split; [intros x []|reflexivity].
      - destruct OKs as [Oa Ol]. cbn in EL. destruct (build base a h) as [p h2] eqn:Ea.
        destruct (build_list (build base) l h2) as [k2 h3] eqn:El. injection EL as <- <-.
        destruct (Ha Oa _ _ _ Ea S L) as (B1 & Lp & V1).
        assert (L1 := built_len _ _ B1).
        destruct (IHl Ol _ _ _ El (proj1 B1) ltac:(lia)) as (B2 & Lk & K2 & V2).
        assert (L2 := built_len _ _ B2).
        split; [eapply built_trans; eauto|]. split; [cbn; congruence|]. split.
        + intros x [<-|I]; [lia|auto].
        + intros r R. cbn. f_equal; [|auto]. apply V1. now apply B2. }
    destruct P as (B & Lk & K & V). assert (LB := built_len _ _ B).
    assert (N : built h1 (h1 ++ [NCon c k])).
    { split; [|split; [|split]].
      - apply store_new; [apply B|exact K|cbn; congruence].
      - eauto.
      - intros r R. now apply reading_new in R.
      - intros r R. exists (put (length h1) (Nd (LCon c) (map r k)) r). split; [|apply put_agree].
        apply extend; [apply B|exact K|exact R|reflexivity]. }
    split; [eapply built_trans; eauto|]. split; [rewrite app_length; cbn; lia|].
    intros r R. apply reading_new in R as [R NO]. cbn in NO. rewrite NO. cbn. f_equal. now apply V.
Qed.

Lemma conv_ok k : scok (conv_sch k).
Proof. destruct BA as (?&?&?&?&?&?&?&?&?&?). destruct k; cbn; repeat split; congruence. Qed.
Lemma sarrow_ok a b : scok a -> scok b -> scok (sarrow a b).
Proof. intros. destruct BA as (?&?). cbn. repeat split; auto; congruence. Qed.
Lemma arrows_ok l t : scok t -> scok (fold_right sarrow t (map conv_sch l)).
Proof. intros T. induction l; cbn [fold_right map]; [assumption|]. apply sarrow_ok; [apply conv_ok|assumption]. Qed.
Lemma tuple_ok l : scok (tuple_of (map conv_sch l)).
Proof.
  destruct BA as (?&?&?&?&?&?&?&?&?&?).
  induction l as [|a [|b l] IH]; cbn [map tuple_of].
  - cbn. split; [congruence|exact I].
  - apply conv_ok.
  - cbn [map tuple_of] in IH. cbn [scok stuple]. split; [cbn; congruence|].
    split; [apply conv_ok|]. split; [exact IH|exact I].
Qed.
Lemma prim_ok p t : prim_type p = PType t -> scok t.
Proof.
  destruct BA as (A1&A2&A3&A4&A5&A6&A7&A8&A9&A10).
  assert (PT : forall pat res t, scok res -> printf_type pat res = PType t -> scok t).
  { intros pat res u Ok. unfold printf_type. destruct (printf_pat false pat); [|discriminate].
    intros [= <-]. now apply arrows_ok. }
  destruct p; cbn [prim_type]; intros E; try discriminate;
    try (injection E as <-; cbn; unfold prim_vars; rewrite ?A1, ?A2, ?A3, ?A4, ?A5, ?A6, ?A7, ?A8, ?A9, ?A10; repeat split; lia).
  - eapply PT; [|exact E]. cbn. split; [congruence|exact I].
  - unfold then_arrow in E. destruct (printf_type pat svoid) eqn:P; [|discriminate|discriminate].
    injection E as <-. apply sarrow_ok; [cbn; split; [congruence|exact I]|].
    eapply PT; [|exact P]. cbn. split; [congruence|exact I].
  - eapply PT; [|exact E]. cbn. split; [congruence|exact I].
  - eapply PT; [|exact E]. cbn. unfold prim_vars. lia.
  - unfold sscanf_type in E. destruct (has_bad false pat); [discriminate|].
    destruct (printf_pat false pat); [|discriminate]. injection E as <-.
    apply sarrow_ok; [cbn; split; [congruence|exact I]|]. apply arrows_ok. apply tuple_ok.
Qed.

Lemma sinst_ext f g : forall t, scok t -> (forall i, i < prim_vars -> f i = g i) -> sinst f t = sinst g t.
Proof.
  induction t as [i|c l IH] using sch_ind'; intros OK E; cbn; [now apply E|].
  f_equal. destruct OK as [_ OK]. induction IH as [|a l Ha IH IHl]; cbn; [reflexivity|].
  destruct OK as [Oa Ol]. f_equal; auto.
Qed.

(* ---- steps ---- *)
Definition tracks (s : tstate) (r : option rd) (s1 : tstate) (r1 : option rd) : Prop :=
  match r with
  | None => r1 = None
  | Some x => exists y, r1 = Some y /\ reading (t_heap s1) y /\ agree (length (t_heap s)) x y
  end.
Definition step (s : tstate) (r : option rd) (s1 : tstate) (r1 : option rd) : Prop :=
  okst ar s1 /\ length (t_heap s) <= length (t_heap s1) /\ ext s s1
  /\ (forall x, reading (t_heap s1) x -> reading (t_heap s) x) /\ tracks s r s1 r1.
Definition wp {A} (s : tstate) (o : res A) (r : option rd) (Q : A -> tstate -> option rd -> Prop) : Prop :=
  match o with
  | ROk a s1 => exists r1, step s r s1 r1 /\ Q a s1 r1
  | RFail s1 => ext s s1 /\ r = None
  | RCrash => False
  | RStuck => True
  end.
Definition pre (s : tstate) (r : option rd) : Prop :=
  okst ar s /\ forall x, r = Some x -> reading (t_heap s) x.

Lemma step_pre s r s1 r1 : step s r s1 r1 -> pre s1 r1.
Proof.
  intros (O & _ & _ & _ & T). split; [assumption|]. intros x ->. destruct r as [y|]; cbn in T; [|discriminate].
  destruct T as (z & [= <-] & R & _). assumption.
Qed.
Lemma ext_refl s : ext s s.
Proof. apply grows_ext, grows_refl. Qed.
Lemma step_refl s r : pre s r -> step s r s r.
Proof.
  intros [O R]. split; [assumption|]. split; [lia|]. split; [apply ext_refl|]. split; [auto|].
  destruct r as [x|]; cbn; [|reflexivity]. exists x. split; [reflexivity|]. split; [now apply R|].
  intros y _. reflexivity.
Qed.
Lemma step_trans s r s1 r1 s2 r2 : step s r s1 r1 -> step s1 r1 s2 r2 -> step s r s2 r2.
Proof.
  intros (O1 & L1 & E1 & B1 & T1) (O2 & L2 & E2 & B2 & T2). split; [assumption|]. split; [lia|].
  split; [eapply ext_trans; eauto|]. split; [auto|]. destruct r as [x|]; cbn in *.
  - destruct T1 as (y & -> & R1 & A1). cbn in T2. destruct T2 as (z & -> & R2 & A2).
    exists z. split; [reflexivity|]. split; [assumption|]. intros p L. rewrite A2 by lia. now apply A1.
  - subst r1. exact T2.
Qed.

Lemma wp_conseq {A} s (o : res A) r (Q Q' : A -> tstate -> option rd -> Prop) :
  wp s o r Q -> (forall a s1 r1, step s r s1 r1 -> Q a s1 r1 -> Q' a s1 r1) -> wp s o r Q'.
Proof.
  intros W H. destruct o; cbn in *; auto. destruct W as (r1 & S & q). exists r1. auto.
Qed.
Lemma wp_bind {A B} (m : M A) (k : A -> M B) s r (Q : A -> tstate -> option rd -> Prop) (Q' : B -> tstate -> option rd -> Prop) :
  wp s (m s) r Q ->
  (forall a s1 r1, step s r s1 r1 -> Q a s1 r1 ->
     wp s1 (k a s1) r1 (fun b s2 r2 => step s1 r1 s2 r2 -> Q' b s2 r2)) ->
  wp s (bind m k s) r Q'.
Proof.
  intros W H. unfold bind. destruct (m s) as [a s1|s1| |]; cbn in *; auto.
  destruct W as (r1 & S & q). specialize (H a s1 r1 S q).
  destruct (k a s1) as [b s2|s2| |]; cbn in *; auto.
  - destruct H as (r2 & S2 & q2). exists r2. split; [eapply step_trans; eauto|auto].
  - destruct H as [E ->]. split; [eapply ext_trans; [apply S|exact E]|].
    destruct S as (_ & _ & _ & _ & T). destruct r as [x|]; [|reflexivity].
    cbn in T. destruct T as (y & ? & _). discriminate.
Qed.
Lemma wp_ret {A} (a : A) s r (Q : A -> tstate -> option rd -> Prop) : pre s r -> Q a s r -> wp s (ret a s) r Q.
Proof. intros P q. exists r. split; [now apply step_refl|assumption]. Qed.

Lemma store_okst s h : store ar h -> t_ctx s <> [] -> okst ar (set_heap s h).
Proof. intros (A & B & C) D. split; [|split; [|split]]; assumption. Qed.
Lemma okst_store s : okst ar s -> store ar (t_heap s).
Proof. intros (A & B & C & D). split; [|split]; assumption. Qed.
Lemma ext_app s t : ext s (set_heap s (t_heap s ++ t)).
Proof.
  split; cbn; [rewrite app_length; lia|].
  assert (G : firstn (length (t_heap s)) (t_heap s ++ t) = t_heap s).
  { rewrite firstn_app, Nat.sub_diag, firstn_all. apply app_nil_r. }
  destruct (t_ctx s); [assumption|]. split; [reflexivity|]. exists []. auto.
Qed.

(* Growing the store. *)
Lemma step_grow s r h (V : rd -> Prop) : pre s r -> store ar h -> (exists t, h = t_heap s ++ t) ->
  (forall x, reading h x -> reading (t_heap s) x) ->
  (forall x, r = Some x -> exists y, reading h y /\ agree (length (t_heap s)) x y /\ V y) ->
  exists r1, step s r (set_heap s h) r1 /\ forall y, r1 = Some y -> V y.
Proof.
  intros [O R] S (t & ->) B C.
  assert (L : length (t_heap s) <= length (t_heap s ++ t)) by (rewrite app_length; lia).
  destruct r as [x|].
  - destruct (C x eq_refl) as (y & Ry & A & Vy). exists (Some y). split.
    + split; [apply store_okst; [assumption|apply O]|]. split; [exact L|]. split; [apply ext_app|].
      split; [exact B|]. exists y. auto.
    + intros ? [= <-]. assumption.
  - exists None. split; [|discriminate].
    split; [apply store_okst; [assumption|apply O]|]. split; [exact L|]. split; [apply ext_app|].
    split; [exact B|reflexivity].
Qed.

Lemma wp_new_var s r t : pre s r ->
  wp s (new NVar s) r (fun p s1 r1 => p = length (t_heap s) /\ p < length (t_heap s1) /\
    nth_error (t_heap s1) p = Some NVar /\ forall y, r1 = Some y -> y p = t).
Proof.
  intros P. assert (S := okst_store _ (proj1 P)).
  unfold new, on_heap, new_node. cbn.
  destruct (step_grow s r (t_heap s ++ [NVar]) (fun y => y (length (t_heap s)) = t) P) as (r1 & St & V).
  - apply store_new; cbn; auto. intros x [].
  - eauto.
  - intros x Rx. now apply reading_new in Rx.
  - intros x ->. exists (put (length (t_heap s)) t x). split; [|split; [apply put_agree|apply put_same]].
    apply extend; cbn; auto; [apply S|intros y []|now apply P].
  - exists r1. split; [exact St|]. split; [reflexivity|]. cbn. rewrite app_length. cbn.
    split; [lia|]. split; [rewrite nth_error_app2, Nat.sub_diag by lia; reflexivity|exact V].
Qed.
Lemma wp_new_con s r c k : pre s r -> length k = ar c -> (forall x, In x k -> x < length (t_heap s)) ->
  wp s (new (NCon c k) s) r (fun p s1 r1 => p < length (t_heap s1)
    /\ (forall x, reading (t_heap s1) x -> x p = Nd (LCon c) (map x k))).
Proof.
  intros P La K. assert (S := okst_store _ (proj1 P)).
  unfold new, on_heap, new_node. cbn.
  destruct (step_grow s r (t_heap s ++ [NCon c k]) (fun _ => True) P) as (r1 & St & V).
  - apply store_new; cbn; auto.
  - eauto.
  - intros x Rx. now apply reading_new in Rx.
  - intros x ->. exists (put (length (t_heap s)) (Nd (LCon c) (map x k)) x).
    split; [|split; [apply put_agree|exact I]].
    apply extend; cbn; auto; [apply S|now apply P].
  - exists r1. split; [exact St|]. cbn. rewrite app_length. cbn. split; [lia|].
    intros x Rx. apply reading_new in Rx as [_ N]. exact N.
Qed.

Section Fuel.
Variable fuel : nat.
Variable gheap : heap.
Variable sigma : rd.
Hypothesis GS : store ar gheap.
Hypothesis GR : reading gheap sigma.
Hypothesis GV : forall p, nth_error gheap p = Some NVar -> sigma p = Nd (LVar p) [].

Lemma wp_real s r p : pre s r -> p < length (t_heap s) ->
  wp s (real fuel p s) r (fun q s1 r1 => s1 = s /\ r1 = r /\ q < length (t_heap s)
    /\ (exists n, nth_error (t_heap s) q = Some n /\ forall a, n <> NInd a)
    /\ forall x, reading (t_heap s) x -> x q = x p).
Proof.
  intros P L. unfold real. destruct (get_real fuel (t_heap s) p) as [q|] eqn:G; [|exact I].
  destruct (get_real_sound _ _ _ _ G) as [(n & N & NI) E].
  exists r. split; [now apply step_refl|]. split; [reflexivity|]. split; [reflexivity|].
  split; [eapply nth_lt; eauto|]. split; [eauto|]. intros x Rx. symmetry. now apply E.
Qed.
Lemma wp_unif s r p q : pre s r -> p < length (t_heap s) -> q < length (t_heap s) ->
  (forall x, r = Some x -> x p = x q) ->
  wp s (unif fuel p q s) r (fun _ s1 r1 => r1 = r /\ length (t_heap s1) = length (t_heap s)
    /\ forall x, reading (t_heap s1) x -> x p = x q).
Proof.
  intros [O R] Lp Lq W. unfold unif. pose proof (unify_spec ar fuel s p q O Lp Lq) as U.
  destruct (unify fuel s p q) as [s1|s1| |] eqn:E; cbn in *; auto.
  - destruct U as (O1 & L1 & _ & B). exists r. split.
    + split; [assumption|]. split; [lia|]. split; [apply grows_ext; eapply unify_grows; eauto|].
      split; [intros x Rx; now apply B in Rx|]. destruct r as [x|]; [|reflexivity].
      exists x. split; [reflexivity|]. split; [|intros y _; reflexivity]. apply B. auto.
    + split; [reflexivity|]. split; [assumption|]. intros x Rx. now apply B in Rx.
  - split; [apply grows_ext; eapply unify_grows; eauto|]. destruct r as [x|]; [|reflexivity].
    destruct U as (_ & _ & N). destruct (N x (R x eq_refl)). auto.
Qed.
Lemma wp_hint s r h p : pre s r -> p < length (t_heap s) -> hint_in (length (t_heap s)) h ->
  (forall x, r = Some x -> hinted x h (x p)) ->
  wp s (check_hint fuel h p s) r (fun _ s1 r1 => r1 = r /\ length (t_heap s1) = length (t_heap s)
    /\ forall x, reading (t_heap s1) x -> hinted x h (x p)).
Proof.
  intros P Lp H W. destruct h as [q|]; cbn in *.
  - apply wp_unif; auto.
  - exists r. split; [now apply step_refl|]. auto.
Qed.

Definition real_at (s : tstate) (p : nat) : Prop :=
  exists n, nth_error (t_heap s) p = Some n /\ forall a, n <> NInd a.

Lemma wp_make_arrow s r a b : pre s r -> a < length (t_heap s) -> b < length (t_heap s) ->
  wp s (make_arrow fuel a b s) r (fun p s1 r1 => p < length (t_heap s1)
    /\ (forall x, reading (t_heap s1) x -> x p = arrow (x a) (x b))).
Proof.
  intros P La Lb. unfold make_arrow.
  eapply wp_bind; [now apply wp_real|]. intros b' s1 r1 S1 (-> & -> & Lb' & _ & Eb).
  eapply wp_bind; [now apply wp_real|]. intros a' s1 r1 S2 (-> & -> & La' & _ & Ea).
  eapply wp_conseq.
  - apply wp_new_con; [assumption|destruct BA as (E & _); cbn; congruence|].
    intros x [<-|[<-|[]]]; assumption.
  - intros p s1 r1 S3 [Lp V] _ _. split; [assumption|]. intros x Rx. rewrite (V x Rx).
    assert (Rs : reading (t_heap s) x) by now apply S3. cbn.
    rewrite (Ea x Rs), (Eb x Rs). reflexivity.
Qed.
Lemma wp_make_list s r a : pre s r -> a < length (t_heap s) ->
  wp s (make_list fuel a s) r (fun p s1 r1 => p < length (t_heap s1)
    /\ (forall x, reading (t_heap s1) x -> x p = tcon CList [x a])).
Proof.
  intros P La. unfold make_list.
  eapply wp_bind; [now apply wp_real|]. intros a' s1 r1 S1 (-> & -> & La' & _ & Ea).
  eapply wp_conseq.
  - apply wp_new_con; [assumption|destruct BA as (_ & _ & E & _); cbn; congruence|].
    intros x [<-|[]]; assumption.
  - intros p s1 r1 S3 [Lp V] _. split; [assumption|]. intros x Rx. rewrite (V x Rx).
    assert (Rs : reading (t_heap s) x) by now apply S3. cbn. now rewrite (Ea x Rs).
Qed.

Lemma wp_fresh s r f g : pre s r -> f < length gheap ->
  wp s (fresh_inst fuel gheap f s) r (fun p s1 r1 => p < length (t_heap s1)
    /\ (forall x, reading (t_heap s1) x -> exists g, x p = inst g (sigma f))
    /\ (forall x, r1 = Some x -> x p = inst g (sigma f))).
Proof.
  intros P L. unfold fresh_inst.
  destruct (copy_type fuel gheap f (t_heap s)) as [[q h]|] eqn:E; [|exact I].
  destruct (copy_type_spec ar gheap sigma GR GV GS _ _ _ _ _ E (okst_store _ (proj1 P)))
    as (S & T & Lq & B & V & C).
  destruct (step_grow s r h (fun y => y q = inst g (sigma f)) P S T B) as (r1 & St & W).
  { intros x ->. destruct (C x g) as (y & ? & ? & ?); [now apply P|]. eauto. }
  exists r1. split; [assumption|]. cbn. auto.
Qed.

Lemma wp_prim s r p f : pre s r -> prim_type p <> PCrash ->
  (forall x, r = Some x -> exists t, prim_type p = PType t) ->
  wp s (get_prim_fun_type p s) r (fun q s1 r1 => q < length (t_heap s1)
    /\ exists t, prim_type p = PType t
    /\ (forall x, reading (t_heap s1) x -> exists g, x q = sinst g t)
    /\ (forall x, r1 = Some x -> x q = sinst f t)).
Proof.
  intros P NC W. unfold get_prim_fun_type. destruct (prim_type p) as [t| |] eqn:E; [| |congruence].
  2: { split; [apply ext_refl|]. destruct r as [x|]; [|reflexivity].
       destruct (W x eq_refl) as (t & ?). discriminate. }
  assert (OK := prim_ok _ _ E). assert (ST := okst_store _ (proj1 P)).
  unfold on_heap, build_prim.
  destruct (build (length (t_heap s)) t (t_heap s ++ repeat NVar prim_vars)) as [q h] eqn:EB.
  assert (V : exists r1, step s r (set_heap s (t_heap s ++ repeat NVar prim_vars)) r1 /\
     forall y, r1 = Some y -> forall i, i < prim_vars -> y (length (t_heap s) + i) = f i).
  { generalize prim_vars. intros n. clear EB OK.
    assert (G : forall n, built (t_heap s) (t_heap s ++ repeat NVar n) /\
      forall x, reading (t_heap s) x -> exists y, reading (t_heap s ++ repeat NVar n) y /\
        agree (length (t_heap s)) x y /\ forall i, i < n -> y (length (t_heap s) + i) = f i).
    { clear n. induction n as [|n [B C]].
      - cbn. rewrite app_nil_r. split; [now apply built_refl|]. intros x Rx. exists x.
        split; [assumption|]. split; [intros y _; reflexivity|intros; lia].
      - assert (RP : repeat NVar (S n) = repeat NVar n ++ [NVar]).
        { clear. induction n; cbn; [reflexivity|]. cbn in IHn. now rewrite IHn. }
        rewrite RP, app_assoc. assert (LB : length (t_heap s ++ repeat NVar n) = length (t_heap s) + n)
          by now rewrite app_length, repeat_length.
        set (h0 := t_heap s ++ repeat NVar n) in *.
        assert (K : forall x t0, reading h0 x -> reading (h0 ++ [NVar]) (put (length h0) t0 x)).
        { intros x t0 Rx. apply extend; cbn; auto; [apply B|intros y []]. }
        split.
        + eapply built_trans; [exact B|]. split; [apply store_new; [apply B|intros y []|exact I]|].
          split; [eauto|]. split; [intros x Rx; now apply reading_new in Rx|].
          intros x Rx. exists (put (length h0) (f 0) x). split; [auto|apply put_agree].
        + intros x Rx. destruct (C x Rx) as (y & Ry & A & V).
          exists (put (length h0) (f n) y). split; [auto|]. split.
          * intros z Lz. rewrite put_agree by lia. now apply A.
          * intros i Li. destruct (Nat.eq_dec i n) as [->|Ne].
            -- rewrite LB. apply put_same.
            -- rewrite put_agree by lia. apply V. lia. }
    destruct (G n) as [B C]. apply (step_grow s r _ (fun y => forall i, i < n -> y (length (t_heap s) + i) = f i) P); [apply B|eauto|apply B|].
    intros x ->. apply C. now apply P. }
  destruct V as (r1 & S1 & V). set (h0 := t_heap s ++ repeat NVar prim_vars) in *.
  set (s1 := set_heap s h0) in *.
  assert (L0 : length (t_heap s) + prim_vars <= length h0)
    by (unfold h0; rewrite app_length, repeat_length; lia).
  destruct (build_spec _ _ OK _ _ _ EB (okst_store _ (proj1 S1)) L0) as (B & Lq & Vq).
  assert (P1 : pre s1 r1) by (eapply step_pre; eauto).
  destruct (step_grow s1 r1 h (fun y => forall i, i < prim_vars -> y (length (t_heap s) + i) = f i) P1) as (r2 & S2 & V2).
  - apply B.
  - apply B.
  - apply B.
  - intros x ->. destruct B as (_ & _ & _ & C). destruct (C x) as (y & Ry & A); [now apply P1|].
    exists y. split; [assumption|]. split; [assumption|]. intros i Li.
    rewrite A by (change (t_heap s1) with h0 in *; lia). now apply V.
  - exists r2. split; [exact (step_trans _ _ _ _ _ _ S1 S2)|]. split; [exact Lq|].
    exists t. split; [reflexivity|]. split.
    + intros x Rx. exists (fun i => x (length (t_heap s) + i)). now apply Vq.
    + intros x ->. assert (Rx : reading h x) by exact (proj2 (step_pre _ _ _ _ S2) x eq_refl).
      rewrite (Vq x Rx). apply sinst_ext; [assumption|]. now apply V2.
Qed.
End Fuel.
End Run.
