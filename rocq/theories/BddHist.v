(** Histories of calls on the manager, and their meaning by variable names. *)
From stdpp Require Import gmap strings list.
From Coq Require Import NArith Lia.
From Verif Require Import BddModel BddWf BddOps BddVar BddQuant BddRelprod BddDen BddSubst BddSize BddCount BddGc BddSwap BddSave.
Open Scope N_scope.

(** ** Commands

    A session is a list of commands over registers holding formulas.  The
    registers are what the interpreter protects: collection and reordering take
    them as roots (they run between calls, from the graph garbage collector). *)
Inductive bop := And | Or | Xor | Nand | Nor | Xnor.
Inductive cmd :=
| CConst (b : bool)
| CVar (x : string)
| CNot (i : nat)
| COp (o : bop) (i j : nat)
| CIte (i j k : nat)
| CForall (i j : nat)                     (* quantify j over the variables of i *)
| CThereis (i j : nat)
| CRelprod (ex : bool) (i j k : nat)
| CSubst (ps : list (string * nat)) (i : nat)
| CKeep (is : list nat)                   (* forget all registers but these *)
| CGc
| CReorder (ps : list nat).               (* collect, then exchange these levels with the next *)

Definition op_fn (o : bop) : fml -> fml -> M fml :=
  match o with And => B_And | Or => B_Or | Xor => B_Xor | Nand => B_Nand | Nor => B_Nor | Xnor => B_Xnor end.
Definition op_sem (o : bop) (a b : bool) : bool :=
  match o with
  | And => a && b | Or => a || b | Xor => xorb a b
  | Nand => negb (a && b) | Nor => negb (a || b) | Xnor => Bool.eqb a b
  end.

Definition push (rs : list fml) (m : M fml) (s : bst) : option (bst * list fml) :=
  match m s with Some (f, s') => Some (s', rs ++ [f]) | None => None end.
(** One command; [tg] as in [rel_prod_rec]. *)
Definition exec (tg : bool -> N) (c : cmd) (st : bst * list fml) : option (bst * list fml) :=
  let '(s, rs) := st in
  match c with
  | CConst b => Some (s, rs ++ [if b then ONE else ZERO])
  | CVar x => push rs (B_Var x) s
  | CNot i => match rs !! i with Some a => push rs (B_Not a) s | _ => None end
  | COp o i j => match rs !! i, rs !! j with Some a, Some b => push rs (op_fn o a b) s | _, _ => None end
  | CIte i j k => match rs !! i, rs !! j, rs !! k with
                  | Some a, Some b, Some c => push rs (B_Ite a b c) s | _, _, _ => None end
  | CForall i j => match rs !! i, rs !! j with Some a, Some b => push rs (quant_forall a b) s | _, _ => None end
  | CThereis i j => match rs !! i, rs !! j with Some a, Some b => push rs (quant_thereis a b) s | _, _ => None end
  | CRelprod ex i j k => match rs !! i, rs !! j, rs !! k with
                  | Some a, Some b, Some c => push rs (relprod_gen tg ex a b c) s | _, _, _ => None end
  | CSubst ps i =>
      match mapM (fun p => match rs !! p.2 with Some f => Some (p.1, f) | None => None end) ps, rs !! i with
      | Some prs, Some f =>
          match do_substitute prs [f] s with
          | Some (Some [r], s') => Some (s', rs ++ [r])
          | _ => None
          end
      | _, _ => None
      end
  | CKeep is => match mapM (fun i => rs !! i) is with Some rs' => Some (s, rs') | None => None end
  | CGc => match gc s rs with Some (s', _) => Some (s', rs) | None => None end
  | CReorder ps =>
      match gc_reorder s rs (filter (fun k => (S k < length (ord s))%nat) ps) with
      | Some s' => Some (s', rs) | None => None end
  end.
Fixpoint execs (tg : bool -> N) (h : list cmd) (st : bst * list fml) : option (bst * list fml) :=
  match h with
  | [] => Some st
  | c :: h => match exec tg c st with Some st' => execs tg h st' | None => None end
  end.
(** A session of the code as written: [c_tag]; of the code with the tags put
    right: [good_tag]. *)
Definition session (tg : bool -> N) (sz : N) (h : list cmd) : option (bst * list fml) := execs tg h (B_Init sz, []).

(** ** What the commands mean *)
Definition qforall (P : string -> Prop) (F : bfun) (E : nenv) : Prop :=
  forall E', (forall x, ~ P x -> E' x = E x) -> F E' = true.
Definition qthereis (P : string -> Prop) (F : bfun) (E : nenv) : Prop :=
  exists E', (forall x, ~ P x -> E' x = E x) /\ F E' = true.
Definition sub_nenv (prs : list (string * bfun)) (E : nenv) : nenv := fun x =>
  match assoc x prs with Some G => G E | None => E x end.

Definition added (vs vs' : list bfun) (P : bfun -> Prop) : Prop := exists F, vs' = vs ++ [F] /\ P F.
(** [means c vs vs']: [c] takes registers holding functions [vs] to [vs']. *)
Definition means (c : cmd) (vs vs' : list bfun) : Prop :=
  match c with
  | CConst b => added vs vs' (fun (F : bfun) => forall E : nenv, F E = b)
  | CVar x => added vs vs' (fun (F : bfun) => forall E : nenv, F E = E x)
  | CNot i => exists A : bfun, vs !! i = Some A /\ added vs vs' (fun (F : bfun) => forall E : nenv, F E = negb (A E))
  | COp o i j => exists A B : bfun, vs !! i = Some A /\ vs !! j = Some B /\
      added vs vs' (fun (F : bfun) => forall E : nenv, F E = op_sem o (A E) (B E))
  | CIte i j k => exists A B C : bfun, vs !! i = Some A /\ vs !! j = Some B /\ vs !! k = Some C /\
      added vs vs' (fun (F : bfun) => forall E : nenv, F E = if A E then B E else C E)
  | CForall i j => exists A B : bfun, vs !! i = Some A /\ vs !! j = Some B /\
      added vs vs' (fun (F : bfun) => forall E : nenv, F E = true <-> qforall (ndep A) B E)
  | CThereis i j => exists A B : bfun, vs !! i = Some A /\ vs !! j = Some B /\
      added vs vs' (fun (F : bfun) => forall E : nenv, F E = true <-> qthereis (ndep A) B E)
  | CRelprod ex i j k => exists A B C : bfun, vs !! i = Some A /\ vs !! j = Some B /\ vs !! k = Some C /\
      added vs vs' (fun (F : bfun) => forall E : nenv, F E = true <->
        (if ex then qthereis else qforall) (ndep A) (fun E : nenv => B E && C E) E)
  | CSubst ps i => exists (B : bfun) (prs : list (string * bfun)), vs !! i = Some B /\ NoDup ps.*1 /\
      Forall2 (fun (p : string * nat) (q : string * bfun) => p.1 = q.1 /\ vs !! p.2 = Some q.2) ps prs /\
      added vs vs' (fun (F : bfun) => forall E : nenv, F E = B (sub_nenv prs E))
  | CKeep is => Forall2 (fun i F => vs !! i = Some F) is vs'
  | CGc | CReorder _ => vs' = vs
  end.
Inductive meanss : list cmd -> list bfun -> list bfun -> Prop :=
| ms_nil vs : meanss [] vs vs
| ms_cons c h vs vs' vs'' : means c vs vs' -> meanss h vs' vs'' -> meanss (c :: h) vs vs''.

(** A command is sensible when there are [n] registers. *)
Definition arity_ok (n : nat) (c : cmd) : Prop :=
  match c with
  | CConst _ | CVar _ | CGc | CReorder _ => True
  | CNot i => i < n
  | COp _ i j | CForall i j | CThereis i j => i < n /\ j < n
  | CIte i j k | CRelprod _ i j k => i < n /\ j < n /\ k < n
  | CSubst ps i => i < n /\ NoDup ps.*1 /\ Forall (fun p => p.2 < n) ps
  | CKeep is => Forall (fun i => i < n) is
  end%nat.
Definition regs_after (n : nat) (c : cmd) : nat :=
  match c with CKeep is => length is | CGc | CReorder _ => n | _ => S n end.
Fixpoint sensible (n : nat) (h : list cmd) : Prop :=
  match h with [] => True | c :: h => arity_ok n c /\ sensible (regs_after n c) h end.
Definition no_relprod (c : cmd) : Prop := match c with CRelprod _ _ _ _ => False | _ => True end.

(** ** Soundness *)
Definition holds (st : bst * list fml) (vs : list bfun) : Prop := WF st.1 /\ vals_ok st.1 st.2 vs.

Lemma env_lift s E e' : WF s -> exists E', (forall v, v < nvars s -> env_of s E' v = e' v) /\
  (forall x, (forall v, v < nvars s -> vnames s !! N.to_nat v = Some x -> e' v = E x) -> E' x = E x).
Proof.
  intros W. exists (fun x => match list_find (fun y => y = x) (vnames s) with
                             | Some (i, _) => e' (N.of_nat i) | None => E x end). split.
  - intros v Hv. unfold env_of.
    destruct (lookup_lt_is_Some_2 (vnames s) (N.to_nat v)) as [x Hx].
    { rewrite (wf_len _ W). unfold nvars in Hv. lia. }
    rewrite Hx. destruct (list_find (fun y => y = x) (vnames s)) as [[i y]|] eqn:H.
    + apply list_find_Some in H as (Hi&->&_).
      assert (i = N.to_nat v) as -> by (by eapply NoDup_lookup; [apply (wf_names _ W)|..]).
      by rewrite N2Nat.id.
    + apply list_find_None in H. rewrite Forall_forall in H.
      exfalso. eapply H; [|done]. by eapply elem_of_list_lookup_2.
  - intros x Hx. destruct (list_find (fun y => y = x) (vnames s)) as [[i y]|] eqn:H; [|done].
    apply list_find_Some in H as (Hi&->&_). apply Hx; [|by rewrite Nat2N.id].
    apply lookup_lt_Some in Hi. rewrite (wf_len _ W) in Hi. unfold nvars. lia.
Qed.

(** Agreement off the support, by variables and by names. *)
Lemma agree_name s a f (A F : bfun) E : WF s -> live s a -> live s f ->
  (forall E, den s a E = A E) -> (forall E : nenv, den s f E = F E) ->
  ((forall e', (forall v, ~ dep (fun e => sem s e a) v -> e' v = env_of s E v) -> sem s e' f = true) <->
   qforall (ndep A) F E) /\
  ((exists e', (forall v, ~ dep (fun e => sem s e a) v -> e' v = env_of s E v) /\ sem s e' f = true) <->
   qthereis (ndep A) F E).
Proof.
  intros W La Lf HA HF.
  assert (HndA : forall x, ndep A x <-> ndep (den s a) x).
  { intros x. split; intros [E0 H0]; exists E0; by rewrite ?HA, <- ?HA in *. }
  (* from names to variables *)
  assert (H1 : forall E', (forall x, ~ ndep A x -> E' x = E x) ->
    exists e', (forall v, ~ dep (fun e => sem s e a) v -> e' v = env_of s E v) /\ sem s e' f = F E').
  { intros E' H. exists (env_of s E'). split; [|by rewrite <- HF].
    intros v Hv. unfold env_of. destruct (vnames s !! N.to_nat v) as [x|] eqn:Ex; [|done].
    apply H. rewrite HndA, ndep_dep by done. intros (w&Hw&Hd).
    assert (w = v) as ->; [|done]. apply N2Nat.inj. by eapply NoDup_lookup; [apply (wf_names _ W)|..]. }
  assert (H2 : forall e', (forall v, ~ dep (fun e => sem s e a) v -> e' v = env_of s E v) ->
    exists E', (forall x, ~ ndep A x -> E' x = E x) /\ F E' = sem s e' f).
  { intros e' H. destruct (env_lift s E e' W) as (E'&HE1&HE2). exists E'. split.
    - intros x Hx. apply HE2. intros v Hv Hn. rewrite H; [unfold env_of; by rewrite Hn|].
      intros Hd. apply Hx. rewrite HndA, ndep_dep by done. by exists v.
    - rewrite <- HF. unfold den. by apply sem_env_ext. }
  split; split.
  - intros H E' HE'. destruct (H1 E' HE') as (e'&He'&<-). by apply H.
  - intros H e' He'. destruct (H2 e' He') as (E'&HE'&<-). by apply H.
  - intros (e'&He'&Hf). destruct (H2 e' He') as (E'&HE'&Hq). exists E'. split; [done|]. congruence.
  - intros (E'&HE'&Hf). destruct (H1 E' HE') as (e'&He'&Hq). exists e'. split; [done|]. congruence.
Qed.

Lemma vals_lookup s rs vs i f : vals_ok s rs vs -> rs !! i = Some f ->
  exists F, vs !! i = Some F /\ live s f /\ forall E : nenv, den s f E = F E.
Proof. intros H E. destruct (Forall2_lookup_l _ _ _ _ _ H E) as (F&?&?&?). eauto. Qed.
Lemma vals_length s rs vs : vals_ok s rs vs -> length rs = length vs.
Proof. apply Forall2_length. Qed.

(** The general step for commands adding a register. *)
Lemma push_ok s rs vs m (P : bfun -> Prop) : WF s -> vals_ok s rs vs ->
  espec m s (fun f s' => live s' f /\ P (den s' f)) ->
  exists st' vs', push rs m s = Some st' /\ holds st' vs' /\ added vs vs' P.
Proof.
  intros W H (f&s'&E&W'&X&L&HP). unfold push. rewrite E. exists (s', rs ++ [f]), (vs ++ [den s' f]).
  split_and!; [done| |by exists (den s' f)]. split; [done|]. cbn.
  apply Forall2_app; [by apply (vals_ok_ext s s')|]. constructor; [|constructor]. done.
Qed.

Lemma to_den s s' (f r : fml) (k : bool -> bool) : WF s -> WF s' -> ext s s' -> live s f ->
  (forall e, sem s' e r = k (sem s e f)) -> forall E, den s' r E = k (den s f E).
Proof.
  intros W W' X L H E. unfold den at 1. rewrite H. f_equal. rewrite <- (den_ext s s') by done.
  unfold den. by rewrite (ext_sem s s').
Qed.
Lemma sem_den s s' f E : WF s -> WF s' -> ext s s' -> live s f -> sem s (env_of s' E) f = den s f E.
Proof. intros W W' X L. rewrite <- (den_ext s s') by done. unfold den. by rewrite (ext_sem s s'). Qed.

Lemma op_fn_spec o s f g : WF s -> live s f -> live s g ->
  spec (op_fn o f g) s (fun r s' => live s' r /\ forall e, sem s' e r = op_sem o (sem s e f) (sem s e g)).
Proof.
  intros. destruct o; cbn.
  - by apply B_And_spec. - by apply B_Or_spec. - by apply B_Xor_spec.
  - by apply B_Nand_spec. - by apply B_Nor_spec.
  - eapply spec_weaken; [by apply B_Xnor_spec|]. intros r s' W' P [L Hs]. split; [done|].
    intros e. rewrite Hs. by destruct (sem s e f), (sem s e g).
Qed.

Lemma relprod_named ex s q a b : WF s -> live s q -> live s a -> live s b ->
  spec (relprod_gen good_tag ex q a b) s (fun r s' => live s' r /\ forall e, sem s' e r = true <->
    if ex then exists e', (forall v, ~ dep (fun e => sem s e q) v -> e' v = e v) /\ sem s e' a && sem s e' b = true
    else forall e', (forall v, ~ dep (fun e => sem s e q) v -> e' v = e v) -> sem s e' a && sem s e' b = true).
Proof.
  intros W Lq La Lb. eapply spec_weaken; [by apply relprod_good_spec|].
  intros r s' W' P (Lr&vs&Hvs&Hr). split; [done|]. intros e. rewrite Hr.
  assert (env_ext (fun e => sem s e a && sem s e b)) as HX.
  { intros e1 e2 He. by rewrite !(sem_env_eq s e1 e2). }
  destruct ex; cbn [ex_op].
  - rewrite some_vars_spec by done. unfold agree_off. by setoid_rewrite Hvs.
  - rewrite all_vars_spec by done. unfold agree_off. by setoid_rewrite Hvs.
Qed.

Lemma exec_ok tg c st vs : holds st vs -> arity_ok (length vs) c -> (tg = good_tag \/ no_relprod c) ->
  exists st' vs', exec tg c st = Some st' /\ holds st' vs' /\ means c vs vs' /\ length vs' = regs_after (length vs) c.
Proof.
  destruct st as [s rs]. intros [W H] Hok Htg. cbn [fst snd] in W, H.
  pose proof (vals_length _ _ _ H) as Hlen.
  assert (HG : forall i, (i < length vs)%nat -> exists (f : fml) (F : bfun), rs !! i = Some f /\ vs !! i = Some F /\ live s f /\ forall E : nenv, den s f E = F E).
  { intros i Hi. destruct (lookup_lt_is_Some_2 rs i) as [f Hf]; [lia|].
    destruct (vals_lookup _ _ _ _ _ H Hf) as (F&?&?&?). eauto 10. }
  assert (HP : forall m (P Q : bfun -> Prop), espec m s (fun f s' => live s' f /\ P (den s' f)) -> (forall F, P F -> Q F) ->
     exists st' vs', push rs m s = Some st' /\ holds st' vs' /\ added vs vs' Q /\ length vs' = S (length vs)).
  { intros m P Q Hm HPQ. destruct (push_ok s rs vs m P W H Hm) as (st'&vs'&?&?&F&->&?).
    exists st', (vs ++ [F]). split_and!; try done. - exists F; auto. - rewrite app_length. cbn. lia. }
  destruct c as [b|x|i|o i j|i j k|i j|i j|ex i j k|ps i|is| |ps]; cbn [arity_ok exec means regs_after] in *.
  - exists (s, rs ++ [if b then ONE else ZERO]), (vs ++ [fun _ : nenv => b]). split_and!; [done| | |].
    + split; [done|]. cbn. apply Forall2_app; [done|]. constructor; [|constructor].
      split; [destruct b; apply live_const|]. intros E. unfold den. destruct b; [apply sem_ONE|apply sem_ZERO].
    + by exists (fun _ : nenv => b).
    + rewrite app_length. cbn. lia.
  - apply (HP (B_Var x) (fun (F : bfun) => forall E : nenv, F E = E x)); [|done].
    eapply espec_weaken; [apply (vspec_espec _ x), (B_Var_spec _ _ W)|].
    intros f s' W' X (L&v&Hv&Hn&Hs). split; [done|]. intros E. unfold den. rewrite Hs. unfold env_of. by rewrite Hn.
  - destruct (HG i Hok) as (a&A&->&HA&La&Da).
    destruct (HP (B_Not a) (fun (F : bfun) => forall E : nenv, F E = negb (A E)) (fun (F : bfun) => forall E : nenv, F E = negb (A E))) as (st'&vs'&?&?&?&?); [|done|eauto 10].
    eapply espec_weaken; [apply spec_espec; by apply B_Not_spec|]. intros r s' W' X [L Hs]. split; [done|].
    intros E. rewrite (to_den s s' a r negb) by done. by rewrite Da.
  - destruct Hok as [Hi Hj]. destruct (HG i Hi) as (a&A&->&HA&La&Da). destruct (HG j Hj) as (b&B&->&HB&Lb&Db).
    destruct (HP (op_fn o a b) (fun (F : bfun) => forall E : nenv, F E = op_sem o (A E) (B E)) (fun (F : bfun) => forall E : nenv, F E = op_sem o (A E) (B E)))
      as (st'&vs'&?&?&?&?); [|done|eauto 10].
    eapply espec_weaken; [apply spec_espec; by apply op_fn_spec|]. intros r s' W' X [L Hs]. split; [done|].
    intros E. unfold den. rewrite Hs. by rewrite !(sem_den s s'), Da, Db by done.
  - destruct Hok as (Hi&Hj&Hk). destruct (HG i Hi) as (a&A&->&HA&La&Da). destruct (HG j Hj) as (b&B&->&HB&Lb&Db).
    destruct (HG k Hk) as (c&C&->&HC&Lc&Dc).
    destruct (HP (B_Ite a b c) (fun (F : bfun) => forall E : nenv, F E = if A E then B E else C E) (fun (F : bfun) => forall E : nenv, F E = if A E then B E else C E))
      as (st'&vs'&?&?&?&?); [|done|eauto 12].
    eapply espec_weaken; [apply spec_espec; by apply B_Ite_spec|]. intros r s' W' X [L Hs]. split; [done|].
    intros E. unfold den. rewrite Hs. by rewrite !(sem_den s s'), Da, Db, Dc by done.
  - destruct Hok as [Hi Hj]. destruct (HG i Hi) as (a&A&->&HA&La&Da). destruct (HG j Hj) as (b&B&->&HB&Lb&Db).
    destruct (HP (quant_forall a b) (fun (F : bfun) => forall E : nenv, F E = true <-> qforall (ndep A) B E) (fun (F : bfun) => forall E : nenv, F E = true <-> qforall (ndep A) B E))
      as (st'&vs'&?&?&?&?); [|done|eauto 10].
    destruct (quant_forall_spec s a b W La Lb) as (r&s'&Er&W'&P&Lr&Hs). exists r, s'. split_and!; [done|done|by apply pext_ext|done|].
    intros E. unfold den. assert (env_of s' E = env_of s E) as ->. { unfold env_of. destruct P as (_&_&->&_). done. }
    rewrite Hs. by apply (agree_name s a b A B E).
  - destruct Hok as [Hi Hj]. destruct (HG i Hi) as (a&A&->&HA&La&Da). destruct (HG j Hj) as (b&B&->&HB&Lb&Db).
    destruct (HP (quant_thereis a b) (fun (F : bfun) => forall E : nenv, F E = true <-> qthereis (ndep A) B E) (fun (F : bfun) => forall E : nenv, F E = true <-> qthereis (ndep A) B E))
      as (st'&vs'&?&?&?&?); [|done|eauto 10].
    destruct (quant_thereis_spec s a b W La Lb) as (r&s'&Er&W'&P&Lr&Hs). exists r, s'. split_and!; [done|done|by apply pext_ext|done|].
    intros E. unfold den. assert (env_of s' E = env_of s E) as ->. { unfold env_of. destruct P as (_&_&->&_). done. }
    rewrite Hs. by apply (agree_name s a b A B E).
  - destruct Htg as [->|[]]. destruct Hok as (Hi&Hj&Hk). destruct (HG i Hi) as (a&A&->&HA&La&Da). destruct (HG j Hj) as (b&B&->&HB&Lb&Db).
    destruct (HG k Hk) as (c&C&->&HC&Lc&Dc).
    set (Q := fun F : bfun => forall E, F E = true <-> (if ex then qthereis else qforall) (ndep A) (fun E : nenv => B E && C E) E).
    destruct (HP (relprod_gen good_tag ex a b c) Q Q) as (st'&vs'&?&?&?&?); [|done|eauto 12].
    (* the conjunction itself, as a formula *)
    destruct (relprod_named ex s a b c W La Lb Lc) as (r&s'&Er&W'&P&Lr&Hs).
    exists r, s'. split_and!; [done|done|by apply pext_ext|done|].
    intros E. unfold den. assert (env_of s' E = env_of s E) as ->. { unfold env_of. destruct P as (_&_&->&_). done. }
    rewrite Hs.
    destruct (B_And_spec s b c W Lb Lc) as (bc&s2&_&W2&P2&L2&S2).
    assert (forall f e, live s f -> sem s2 e f = sem s e f) as HS by (intros; by rewrite (pext_sem s s2)).
    assert (env_of s2 = env_of s) as He2. { unfold env_of. destruct P2 as (_&_&->&_). done. }
    assert (forall v, dep (fun e => sem s2 e a) v <-> dep (fun e => sem s e a) v) as Hd2.
    { intros v. split; apply dep_ext; intros e; by rewrite HS. }
    destruct (agree_name s2 a bc A (fun E : nenv => B E && C E) E W2) as [Q1 Q2]; [plive|done| | |].
    { intros E0. unfold den. rewrite HS, He2 by done. apply Da. }
    { intros E0. unfold den. rewrite S2, He2. by rewrite <- Db, <- Dc. }
    destruct ex; [rewrite <- Q2|rewrite <- Q1]; setoid_rewrite Hd2; setoid_rewrite S2; by rewrite He2.
  - destruct Hok as (Hi&Hnd&Hps). destruct (HG i Hi) as (b&B&->&HB&Lb&Db).
    assert (exists prs prF, mapM (fun p : string * nat => match rs !! p.2 with Some f => Some (p.1, f) | None => None end) ps = Some prs /\
      prs.*1 = ps.*1 /\ Forall (fun p => live s p.2) prs /\
      Forall2 (fun (p : string * nat) (q : string * bfun) => p.1 = q.1 /\ vs !! p.2 = Some q.2) ps prF /\
      (forall E x, match assoc x prs with Some g => Some (den s g E) | None => None end =
                   match assoc x prF with Some G => Some (G E) | None => None end)) as (prs&prF&Em&E1&Lp&HpF&Has).
    { clear Hnd Htg. induction ps as [|[x p] ps IH].
      - exists [], []. split_and!; try done.
      - apply Forall_cons in Hps as [Hp Hps]. destruct (IH Hps) as (prs&prF&Em&E1&Lp&HpF&Has).
        destruct (HG p Hp) as (g&G&Hg&HG'&Lg&Dg). exists ((x, g) :: prs), ((x, G) :: prF). split_and!.
        + cbn. rewrite Hg. cbn. cbn in Em. by rewrite Em.
        + cbn. by rewrite E1.
        + by constructor.
        + by constructor.
        + intros E y. cbn. destruct (String.eqb y x); [by rewrite Dg|]. apply Has. }
    rewrite Em.
    destruct (do_substitute_spec s prs [b] W Lp) as (o&s'&Eo&W'&X&Ho); [by constructor|].
    rewrite Eo. destruct o as [rs'|]; [|by rewrite E1 in Ho].
    destruct Ho as [_ Ho]. apply Forall2_cons_inv_l in Ho as (r&l'&[Lr Dr]&Hnil&->). apply Forall2_nil_inv_l in Hnil as ->.
    exists (s', rs ++ [r]), (vs ++ [den s' r]). split_and!; [done| | |rewrite app_length; cbn; lia].
    + split; [done|]. cbn. apply Forall2_app; [by apply (vals_ok_ext s s')|]. by constructor.
    + exists B, prF. split_and!; try done. exists (den s' r). split; [done|]. intros E. rewrite Dr, Db.
      assert (forall x, sub_env s prs E x = sub_nenv prF E x) as Hx.
      { intros x. unfold sub_env, sub_nenv. specialize (Has E x).
        destruct (assoc x prs), (assoc x prF); congruence. }
      rewrite <- !Db. unfold den. apply sem_env_ext; [done| |done]. intros v Hv. unfold env_of.
      destruct (vnames s !! N.to_nat v); [apply Hx|done].
  - assert (exists rs' vs', mapM (fun i => rs !! i) is = Some rs' /\ vals_ok s rs' vs' /\ Forall2 (fun i F => vs !! i = Some F) is vs')
      as (rs'&vs'&Em&Hv&Hf).
    { clear Htg. induction is as [|i is IH].
      - exists [], []. split_and!; try done; constructor.
      - apply Forall_cons in Hok as [Hi Hok]. destruct (IH Hok) as (rs'&vs'&Em&Hv&Hf).
        destruct (HG i Hi) as (f&F&Hf1&Hf2&L&D). exists (f :: rs'), (F :: vs'). split_and!.
        + cbn. rewrite Hf1. cbn. cbn in Em. by rewrite Em.
        + by constructor. + by constructor. }
    rewrite Em. exists (s, rs'), vs'. split_and!; try done. by apply Forall2_length in Hf.
  - destruct (gc_spec s rs W) as (s'&rc&->&W'&P&L&_).
    { intros f Hf. apply elem_of_list_lookup in Hf as [k Hk]. by destruct (vals_lookup _ _ _ _ _ H Hk) as (?&?&?&?). }
    exists (s', rs), vs. split_and!; try done. split; [done|]. cbn.
    apply Forall2_same_length_lookup_2; [done|]. intros k f F Hf HF.
    destruct (vals_lookup _ _ _ _ _ H Hf) as (F'&HF'&Lf&Df). assert (F' = F) as -> by congruence.
    assert (live s' f) as Lf' by (apply L; by eapply elem_of_list_lookup_2). split; [done|].
    intros E. rewrite <- Df. unfold den. rewrite (pext_sem s' s) by done.
    f_equal. unfold env_of. destruct P as (_&_&->&_). done.
  - destruct (gc_reorder_spec s rs (filter (fun k => (S k < length (ord s))%nat) ps) W) as (s'&->&W'&Hvn&_&_&Hr).
    { intros f Hf. apply elem_of_list_lookup in Hf as [k Hk]. by destruct (vals_lookup _ _ _ _ _ H Hk) as (?&?&?&?). }
    { intros k [? ?]%elem_of_list_filter. done. }
    exists (s', rs), vs. split_and!; try done. split; [done|]. cbn.
    apply Forall2_same_length_lookup_2; [done|]. intros k f F Hf HF.
    destruct (vals_lookup _ _ _ _ _ H Hf) as (F'&HF'&Lf&Df). assert (F' = F) as -> by congruence.
    destruct (Hr f) as [Lf' Sf']; [by eapply elem_of_list_lookup_2|]. split; [done|].
    intros E. rewrite <- Df. unfold den. rewrite Sf'. f_equal. unfold env_of. by rewrite Hvn.
Qed.

Lemma execs_ok tg h : forall st vs, holds st vs -> sensible (length vs) h -> (tg = good_tag \/ Forall no_relprod h) ->
  exists st' vs', execs tg h st = Some st' /\ holds st' vs' /\ meanss h vs vs'.
Proof.
  induction h as [|c h IH]; intros st vs H Hs Htg.
  - exists st, vs. split_and!; try done. constructor.
  - destruct Hs as [Hc Hs].
    destruct (exec_ok tg c st vs H Hc) as (st1&vs1&E1&H1&M1&Hl).
    { destruct Htg as [?|Ht]; [by left|right]. by apply Forall_cons in Ht as [? _]. }
    destruct (IH st1 vs1 H1) as (st2&vs2&E2&H2&M2).
    { by rewrite Hl. }
    { destruct Htg as [?|Ht]; [by left|right]. by apply Forall_cons in Ht as [_ ?]. }
    exists st2, vs2. cbn. rewrite E1. split_and!; try done. by econstructor.
Qed.

Lemma session_ok tg sz h : 0 < sz -> sensible 0 h -> (tg = good_tag \/ Forall no_relprod h) ->
  exists st vs, session tg sz h = Some st /\ holds st vs /\ meanss h [] vs.
Proof. intros. apply execs_ok; try done. split; [by apply B_Init_WF|]. constructor. Qed.
